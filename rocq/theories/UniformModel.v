(** Model of statistics/goodness_of_fit/uniform.py: the classes that are not in EdfModel.v, and the table of all classes.

    Conventions as in NormModel.v: samples are numpy arrays read as reals, [NonFinite] is inf or nan.
    scipy.special.legendre(j) is the Legendre polynomial of degree j, here by Bonnet's recurrence.  [np.argsort] is read
    as a stable sort (relevant for equal times only); censoring indicators are binary. *)
From Coq Require Import String ZArith.
From Verif Require Import Base DecModel EdfModel GraphModel RegistryModel NormalLaw ExpModel NormModel.

(** 285-297: the number of bins; [np.log2(0)] is -inf and [np.std] of an empty array is nan, which [int] refuses;
    the "auto" width of a constant sample is 0 *)
Inductive bin_rule := Sturges | SqrtRule | AutoRule | OtherRule | GivenBins (n : nat).
Definition ceil (x : R) : Z := (- Int_part (- x))%Z.
Definition auto_width (rvs : list R) : R := 3.5 * sqrt (np_var rvs) / Rpower (len rvs) (1 / 3).
Definition uniform_bins (a b : R) (rule : bin_rule) (rvs : list R) : result nat :=
  let! k := match rule with
            | Sturges => match rvs with [] => Raise OverflowError | _ => Ok (Z.to_nat (ceil (ln (len rvs) / ln 2 + 1))) end
            | SqrtRule => Ok (Nat.sqrt_up (length rvs))
            | AutoRule => match rvs with
                          | [] => Raise ValueError
                          | _ => if varying rvs then Ok (Z.to_nat (ceil ((b - a) / auto_width rvs))) else Raise OverflowError
                          end
            | OtherRule => Ok 10%nat
            | GivenBins n => Ok n
            end in
  Ok (Nat.max 2 k).
(** 274-302 *)
Definition chi2_uniform_rule (a b lambda : R) (rule : bin_rule) (rvs : list R) : outcome :=
  let! rvs := uniform_validate a b rvs in
  let! k := uniform_bins a b rule rvs in
  let! v := chi2_uniform a b lambda k rvs in Ok (Some v).

(** ** Bickel-Rosenblatt *)
(** 522: np.linspace(0, 1, 1000) *)
Definition br_grid : list R := map (fun i => INR i / 999) (seq 0 1000).
(** 525-526, 530-531 *)
Definition br_kde (h : R) (z : list R) (x : R) : R := mean (map (fun r => norm_pdf ((x - r) / h)) z) / h.
Definition br_value (h : R) (z : list R) : R := Rsum (map (fun x => (br_kde h z x - 1) ^ 2) br_grid) * (1 / 999).
(** 517-520 *)
Inductive bandwidth := AutoBandwidth | GivenBandwidth (h : R).
Definition br_auto (z : list R) : R := 1.06 * sqrt (np_var z) * Rpower (len z) (- (1 / 5)).
(** 504-533; 0 ** (-1/5) raises; a bandwidth 0 gives nan *)
Definition br_uniform (a b : R) (bw : bandwidth) (rvs : list R) : outcome :=
  let! rvs := uniform_validate a b rvs in
  let z := uniform_std a b rvs in
  match rvs, bw with
  | [], AutoBandwidth => Raise ZeroDivisionError
  | [], GivenBandwidth _ => num false 0
  | _, AutoBandwidth => num (negb (Reqb (br_auto z) 0)) (br_value (br_auto z) z)
  | _, GivenBandwidth h => num (negb (Reqb h 0)) (br_value h z)
  end.

(** ** Zhang *)
Inductive zhang_type := ZhangA | ZhangC | ZhangK.
(** 545-549: the argument is converted to upper case *)
Definition zhang_ctor (test_type : string) : result zhang_type :=
  if existsb (String.eqb test_type) ["A"; "a"]%string then Ok ZhangA
  else if existsb (String.eqb test_type) ["C"; "c"]%string then Ok ZhangC
  else if existsb (String.eqb test_type) ["K"; "k"]%string then Ok ZhangK
  else Raise ValueError.
(** 589-602, on the standardised sorted sample *)
Definition zhang_a (u : list R) : R :=
  - Rsum (imap (fun i x => ln x / (len u - INR (S i) + 0.5)) u)
  - Rsum (imap (fun i x => ln (1 - x) / (INR (S i) - 0.5)) u).
Definition zhang_c (u : list R) : R :=
  Rsum (imap (fun i x => (ln x / (len u - INR (S i) + 0.5)) ^ 2) u)
  + Rsum (imap (fun i x => (ln (1 - x) / (INR (S i) - 0.5)) ^ 2) u).
Definition zhang_k (u : list R) : R :=
  Rmax (Rabs (Rsum (imap (fun i x => ln (x / (1 - x)) / (len u - INR (S i) + 0.5)) u)))
       (Rabs (Rsum (imap (fun i x => ln ((1 - x) / x) / (INR (S i) - 0.5)) u))).
(** 571-604; a value 0 or 1 has an infinite logarithm *)
Definition zhang_uniform (a b : R) (type_ : zhang_type) (rvs : list R) : outcome :=
  let! rvs := uniform_validate a b rvs in
  let u := uniform_std a b (rsort rvs) in
  num (forallb (fun x => Rltb 0 x && Rltb x 1) u)
      (match type_ with ZhangA => zhang_a u | ZhangC => zhang_c u | ZhangK => zhang_k u end).

(** ** Stein *)
(** 668-669, 768-769 *)
Definition stein_h (x y : R) : R := 0.5 * (2 * Rmax x y - 2 * x - 2 * y + x ^ 2 + y ^ 2).
(** 659-678 *)
Definition stein_of (z : list R) : R :=
  if (1 <? length z)%nat then 2 * sum_pairs stein_h z / (len z * (len z - 1)) else 0.
(** 649-652, 726-729 *)
Definition stein_std (a b : R) (rvs : list R) : list R :=
  if negb (Reqb a 0) || negb (Reqb b 1) then uniform_std a b rvs else rvs.
(** 640-656 *)
Definition stein_uniform (a b : R) (rvs : list R) : outcome :=
  let! rvs := uniform_validate a b rvs in num true (stein_of (stein_std a b rvs)).

(** ** Stein with censoring; [true] is the indicator 1 (censored) *)
(** 731: comparing a Python list with 0 gives False, so a list never takes the shortcut *)
Inductive censoring := NoIndices | IndexArray (d : list bool) | IndexList (d : list bool).
(** 744-746: np.argsort(times) applied to times and indicators *)
Fixpoint time_insert (p : R * bool) (l : list (R * bool)) : list (R * bool) :=
  match l with [] => [p] | q :: l' => if Rltb (fst q) (fst p) then q :: time_insert p l' else p :: l end.
Definition time_sort (l : list (R * bool)) : list (R * bool) := fold_right time_insert [] l.
(** 748-756: the array km_survival from the first entry on *)
Fixpoint km_curve (at_risk : nat) (s : R) (delta : list bool) : list R :=
  s :: match delta with
       | [] => []
       | d :: delta' => km_curve (at_risk - 1) (if d then s * (1 - 1 / INR at_risk) else s) delta'
       end.
(** 743-762; searchsorted(side="right") counts the times <= t *)
Definition kaplan_meier (obs : list (R * bool)) (t : R) : R :=
  nth (length (filter (fun p => Rleb (fst p) t) (time_sort obs)))
      (km_curve (length obs) 1 (map snd (time_sort obs))) 0.
(** 771-776 *)
Definition censor_weight (km : R -> R) (x : R) : R := 1 / Rmax (km x) (/ 10 ^ 10).
(** 764-794: pairs of uncensored observations, in the order of the sample *)
Definition weighted_u (km : R -> R) (obs : list (R * bool)) : R :=
  let x := map fst (filter (fun p => negb (snd p)) obs) in
  let total := sum_pairs (fun x y => censor_weight km x * censor_weight km y * stein_h x y) x in
  let count := sum_pairs (fun _ _ => 1) x in
  if Rltb 0 count then 2 * total / count else 0.
(** 714-740; fewer indicators than observations are out of bounds, additional ones are ignored *)
Definition censored_stein (a b : R) (c : censoring) (rvs : list R) : outcome :=
  let! rvs := uniform_validate a b rvs in
  let weighted d :=
    if (length d <? length rvs)%nat then Raise IndexError
    else let obs := combine (stein_std a b rvs) d in num true (weighted_u (kaplan_meier obs) obs) in
  match c with
  | NoIndices => stein_uniform a b rvs
  | IndexArray d => if forallb negb d then stein_uniform a b rvs else weighted d
  | IndexList d => weighted d
  end.

(** ** Neyman *)
(** scipy.special.legendre: P_j and P_(j+1) *)
Fixpoint legendre_pair (j : nat) (t : R) : R * R :=
  match j with
  | 0%nat => (1, t)
  | S j' => let (p, q) := legendre_pair j' t in
            (q, ((2 * INR j + 1) * t * q - INR j * p) / (INR j + 1))
  end.
Definition legendre (j : nat) (t : R) : R := fst (legendre_pair j t).
(** 849-858 *)
Definition neyman_phi (j : nat) (x : R) : R :=
  match j with
  | 1%nat => sqrt 12 * (x - 0.5)
  | 2%nat => sqrt 5 * (6 * (x - 0.5) ^ 2 - 0.5)
  | 3%nat => sqrt 7 * (20 * (x - 0.5) ^ 3 - 3 * (x - 0.5))
  | _ => legendre j (2 * x - 1) * sqrt (2 * INR j + 1)
  end.
(** 860-862 *)
Definition neyman_of (k : nat) (z : list R) : R :=
  Rsum (map (fun j => (Rsum (map (neyman_phi j) z) / sqrt (len z)) ^ 2) (seq 1 k)).
(** 831-864; 0/0 for an empty sample *)
Definition neyman_uniform (a b : R) (k : nat) (rvs : list R) : outcome :=
  let! rvs := uniform_validate a b rvs in
  num (nonempty rvs || Nat.eqb k 0) (neyman_of k (uniform_std a b rvs)).

(** the arguments of the constructors *)
Record uniform_args := UniformArgs {
  ua_a : R; ua_b : R; ua_alt : alternative; ua_lambda : R; ua_bins : bin_rule; ua_bandwidth : bandwidth;
  ua_zhang : zhang_type; ua_k : nat }.
Local Open Scope string_scope.
Definition uniform_statistics (A : uniform_args) : list (string * (list R -> nrun)) :=
  let a := ua_a A in let b := ua_b A in [
  ("KolmogorovSmirnovUniformGofStatistic", nreads (fun rvs => lift (ks_uniform a b (ua_alt A) rvs)));
  ("AndersonDarlingUniformGofStatistic", nreads (fun rvs => let! v := ad_uniform a b rvs in Ok (Some v)));
  ("CrammerVonMisesUniformGofStatistic", nreads (fun rvs => lift (cvm_uniform a b rvs)));
  ("LillieforsTestUniformGofStatistic", nreads (fun rvs => lift (ks_uniform a b TWO_TAILED rvs)));
  ("Chi2PearsonUniformGofStatistic", nreads (chi2_uniform_rule a b (ua_lambda A) (ua_bins A)));
  ("WatsonUniformGofStatistic", nreads (fun rvs => lift (watson_uniform a b rvs)));
  ("KuiperUniformGofStatistic", nreads (fun rvs => lift (kuiper_uniform a b rvs)));
  ("GreenwoodTestUniformGofStatistic", nreads (fun rvs => lift (greenwood_uniform a b rvs)));
  ("BickelRosenblattUniformGofStatistic", nreads (br_uniform a b (ua_bandwidth A)));
  ("ZhangTestsUniformGofStatistic", nreads (zhang_uniform a b (ua_zhang A)));
  ("SteinUniformGofStatistic", nreads (stein_uniform a b));
  ("CensoredSteinUniformGofStatistic", nreads (censored_stein a b NoIndices));
  ("NeymanSmoothTestUniformGofStatistic", nreads (neyman_uniform a b (ua_k A)));
  ("ShermanUniformGofStatistic", nreads (fun rvs => lift (sherman_uniform a b rvs)));
  ("QuesenberryMillerUniformGofStatistic", nreads (fun rvs => lift (qm_uniform a b rvs)))
].
