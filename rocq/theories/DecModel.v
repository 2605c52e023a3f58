(** Model of p-value and critical-value calculators, critical areas, alternative factories, decision
    methods, GoodnessOfFitTest and the Monte-Carlo resolver (pysatl_criterion/hypothesis_testing). *)
From Verif Require Import Base.
From Coq Require Import ZArith.

(** ** numpy / scipy primitives *)

(** [np.unique(x, return_counts=True)] on an already sorted list *)
Fixpoint runs (l : list R) : list (R * nat) :=
  match l with
  | [] => []
  | x :: l' =>
    match runs l' with
    | (y, c) :: r => if Reqb x y then (y, S c) :: r else (x, 1%nat) :: (y, c) :: r
    | [] => [(x, 1%nat)]
    end
  end.
(** [np.cumsum] *)
Fixpoint cumsum_from (acc : nat) (l : list nat) : list nat :=
  match l with [] => [] | c :: l' => (acc + c)%nat :: cumsum_from (acc + c) l' end.

(** [scipy.stats.ecdf(sample).cdf] for uncensored data: sorted distinct values and the cumulative
    relative frequencies (scipy/stats/_survival.py [_ecdf_uncensored]) *)
Definition ecdf_quantiles (sample : list R) : list R := map fst (runs (rsort sample)).
Definition ecdf_probabilities (sample : list R) : list R :=
  map (fun c => INR c / INR (length sample)) (cumsum_from 0 (map snd (runs (rsort sample)))).

(** [np.searchsorted(q, x, side="right")] on an ascending list *)
Fixpoint searchsorted_right (q : list R) (x : R) : nat :=
  match q with
  | [] => 0%nat
  | y :: q' => if Rleb y x then S (searchsorted_right q' x) else 0%nat
  end.
(** [EmpiricalDistributionFunction.evaluate]: 0 is prepended to the probabilities *)
Definition ecdf_evaluate (sample : list R) (x : R) : R :=
  nth (searchsorted_right (ecdf_quantiles sample) x) (0 :: ecdf_probabilities sample) 0.

Definition floor_nat (h : R) : nat := Z.to_nat (Int_part h).

(** [np.quantile(a, q)], default "linear" method, on an ascending array [a]:
    ValueError for q outside [0,1], IndexError for an empty array, otherwise linear interpolation
    at the virtual index (n-1)*q.  Infinities and nan are not modelled. *)
Definition np_quantile (a : list R) (q : R) : result R :=
  if negb (Rleb 0 q && Rleb q 1) then Raise ValueError
  else match a with
  | [] => Raise IndexError
  | _ =>
    let h := INR (length a - 1) * q in
    let k := floor_nat h in
    let lo := nth k a 0 in
    let hi := nth (Nat.min (k + 1) (length a - 1)) a 0 in
    Ok (lo + (hi - lo) * (h - INR k))
  end.

(** ** p_value_calculator.py:25-27, 48-50, 71-73 (non-empty limit distributions) *)
Definition left_p_value (limit : list R) (stat : R) : R := ecdf_evaluate limit stat.
Definition right_p_value (limit : list R) (stat : R) : R := 1 - ecdf_evaluate limit stat.
Definition two_sided_p_value (limit : list R) (stat : R) : R :=
  2 * Rmin (ecdf_evaluate limit stat) (1 - ecdf_evaluate limit stat).

(** ** critical_value_calculator.py:28-29, 50-51, 72-77 *)
Definition left_critical_value (limit : list R) (level : R) : result R :=
  np_quantile (ecdf_quantiles limit) level.
Definition right_critical_value (limit : list R) (level : R) : result R :=
  np_quantile (ecdf_quantiles limit) (1 - level).
Definition two_sided_critical_value (limit : list R) (level : R) : result (R * R) :=
  let sl := level / 2 in
  let! lo := np_quantile (ecdf_quantiles limit) sl in
  let! hi := np_quantile (ecdf_quantiles limit) (1 - sl) in
  Ok (lo, hi).

(** statistics/alternative.py:13-15 *)
Inductive alternative := RIGHT | LEFT | TWO_TAILED.

(** hypothesis_testing/model.py:8  [CriticalValue = float | tuple[float, float]] *)
Inductive critical_value := CV1 (c : R) | CV2 (l r : R).

(** alternative_factories.py:143-148 with the factories 37, 46, 71, 80, 105, 114 *)
Definition p_value_of (alt : alternative) : list R -> R -> R :=
  match alt with LEFT => left_p_value | RIGHT => right_p_value | TWO_TAILED => two_sided_p_value end.
Definition critical_value_of (alt : alternative) (limit : list R) (level : R) : result critical_value :=
  match alt with
  | LEFT => let! c := left_critical_value limit level in Ok (CV1 c)
  | RIGHT => let! c := right_critical_value limit level in Ok (CV1 c)
  | TWO_TAILED => let! lr := two_sided_critical_value limit level in Ok (CV2 (fst lr) (snd lr))
  end.
(** critical_areas.py:24, 45, 68 through alternative_factories.py:56, 90, 124-125.
    A mismatch between alternative and shape cannot be built by [critical_value_of];
    it is a TypeError in Python. *)
Definition area_contains (alt : alternative) (cv : critical_value) (v : R) : result bool :=
  match alt, cv with
  | LEFT, CV1 c => Ok (Rleb c v)
  | RIGHT, CV1 c => Ok (Rleb v c)
  | TWO_TAILED, CV2 l r => Ok (Rleb l v && Rleb v r)
  | _, _ => Raise TypeError
  end.

(** hypothesis_testing/model.py:13-20 *)
Record test_result := {
  tr_statistic : R;
  tr_p_value : option R;
  tr_critical_value : option critical_value;
  tr_rejected : bool;
  tr_level : R }.

(** what the decision methods use of a statistic: its alternative and its value on data *)
Record statistic := {
  st_alternative : alternative;
  st_execute : list R -> result R }.

(** a resolver maps (statistic, sample size) to a limit distribution, None or an exception *)
Definition resolver := statistic -> nat -> result (option (list R)).

(** goodness_of_fit_test.py:46-61  [PValueDecisionMethod.decide] *)
Definition p_value_decide (res : resolver) (st : statistic) (value level : R) (n : nat)
  : result test_result :=
  let! limit := res st n in
  match limit with
  | None => Raise ValueError
  | Some limit =>
    let p := p_value_of (st_alternative st) limit value in
    Ok {| tr_statistic := value; tr_level := level; tr_p_value := Some p;
          tr_critical_value := None; tr_rejected := Rleb p level |}
  end.

(** goodness_of_fit_test.py:96-112  [CriticalValueDecisionMethod.decide] *)
Definition critical_value_decide (res : resolver) (st : statistic) (value level : R) (n : nat)
  : result test_result :=
  let! limit := res st n in
  match limit with
  | None => Raise ValueError
  | Some limit =>
    let! cv := critical_value_of (st_alternative st) limit level in
    let! inside := area_contains (st_alternative st) cv value in
    Ok {| tr_statistic := value; tr_level := level; tr_p_value := None;
          tr_critical_value := Some cv; tr_rejected := negb inside |}
  end.

Inductive decision_method := PValueMethod (r : resolver) | CriticalValueMethod (r : resolver).
Definition decide (m : decision_method) : statistic -> R -> R -> nat -> result test_result :=
  match m with
  | PValueMethod r => p_value_decide r
  | CriticalValueMethod r => critical_value_decide r
  end.

(** goodness_of_fit_test.py:142-147  [GoodnessOfFitTest.test] with an explicit method
    (the default is [CriticalValueMethod] with a Monte-Carlo resolver) *)
Definition gof_test (m : decision_method) (st : statistic) (rvs : list R) (level : R)
  : result test_result :=
  let! v := st_execute st rvs in
  decide m st v level (length rvs).

(** ** limit_distribution/base.py:50-53, 68-80  [MonteCarloLimitDistributionResolver] *)
(** a random generator is a state transformer producing a sample of the requested size *)
Definition generator (S : Type) := nat -> S -> list R * S.

Definition monte_carlo_ctor (count : Z) : result Z :=
  if (count <=? 0)%Z then Raise ValueError else Ok count.

Fixpoint monte_carlo_loop {S} (gen : generator S) (st : statistic) (n count : nat) (s : S)
  : result (list R * S) :=
  match count with
  | O => Ok ([], s)
  | Datatypes.S c =>
    let '(sample, s1) := gen n s in
    let! v := st_execute st sample in
    let! rest := monte_carlo_loop gen st n c s1 in
    Ok (v :: fst rest, snd rest)
  end.
Definition monte_carlo_resolve {S} (gen : generator S) (count : Z) (st : statistic) (sample_size : Z) (s : S)
  : result (list R * S) :=
  if (sample_size <=? 0)%Z then Raise ValueError
  else monte_carlo_loop gen st (Z.to_nat sample_size) (Z.to_nat count) s.
