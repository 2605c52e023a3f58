(** Model of Monte-Carlo p-values, critical values and decisions in IEEE-754 binary64
    (hypothesis_testing/p_value/calculator/p_value_calculator.py, critical_values/calculator/critical_value_calculator.py
    and goodness_of_fit_test.py).  Every arithmetic operation is the exact result rounded to nearest-even ([fl], see
    MTFloat.v); comparisons, sorting and [min] are exact.  Values are binary64 numbers whose differences do not overflow;
    nan and infinities are left out.  Everything else is as in DecModel.v. *)
From Verif Require Import Base DecModel MTFloat MTFloatModel.
From Flocq Require Import Core.

(** scipy.stats.ecdf: [events / n], a quotient of integers *)
Definition ecdf_probabilities_float (sample : list R) : list R :=
  map (fun c => fl (of_int c / of_int (length sample))) (cumsum_from 0 (map snd (runs (rsort sample)))).
Definition ecdf_evaluate_float (sample : list R) (x : R) : R :=
  nth (searchsorted_right (ecdf_quantiles sample) x) (0 :: ecdf_probabilities_float sample) 0.
(** p_value_calculator.py:25-27, 48-50, 71-73 *)
Definition left_p_float (limit : list R) (stat : R) : R := ecdf_evaluate_float limit stat.
Definition right_p_float (limit : list R) (stat : R) : R := fl (1 - ecdf_evaluate_float limit stat).
Definition two_sided_p_float (limit : list R) (stat : R) : R :=
  fl (2 * Rmin (ecdf_evaluate_float limit stat) (fl (1 - ecdf_evaluate_float limit stat))).
(** alternative_factories.py:143-148 *)
Definition p_float_of (alt : alternative) : list R -> R -> R :=
  match alt with LEFT => left_p_float | RIGHT => right_p_float | TWO_TAILED => two_sided_p_float end.
(** np.quantile, method "linear" (numpy/lib/_function_base_impl.py [_quantile], [_get_indexes], [_lerp]): the virtual
    index (n - 1) * q, the neighbouring entries, and interpolation from the nearer one *)
Definition lerp_float (lo hi t : R) : R :=
  let d := fl (hi - lo) in
  if Rleb (1 / 2) t then fl (hi - fl (d * fl (1 - t))) else fl (lo + fl (d * t)).
Definition np_quantile_float (a : list R) (q : R) : result R :=
  if negb (Rleb 0 q && Rleb q 1) then Raise ValueError
  else match a with
  | [] => Raise IndexError
  | _ =>
    let last := (length a - 1)%nat in
    let h := fl (of_int last * q) in
    if Rleb (of_int last) h then Ok (nth last a 0)
    else let k := floor_nat h in
         Ok (lerp_float (nth k a 0) (nth (k + 1) a 0) (fl (h - of_int k)))
  end.
(** critical_value_calculator.py:28-29, 50-51, 72-77 *)
Definition critical_value_float_of (alt : alternative) (limit : list R) (level : R) : result critical_value :=
  match alt with
  | LEFT => let! c := np_quantile_float (ecdf_quantiles limit) level in Ok (CV1 c)
  | RIGHT => let! c := np_quantile_float (ecdf_quantiles limit) (fl (1 - level)) in Ok (CV1 c)
  | TWO_TAILED =>
      let sl := fl (level / 2) in
      let! lo := np_quantile_float (ecdf_quantiles limit) sl in
      let! hi := np_quantile_float (ecdf_quantiles limit) (fl (1 - sl)) in
      Ok (CV2 lo hi)
  end.
(** goodness_of_fit_test.py:46-61 and 96-112, given the limit distribution: is the hypothesis rejected? *)
Definition p_float_rejects (alt : alternative) (limit : list R) (value level : R) : bool :=
  Rleb (p_float_of alt limit value) level.
Definition critical_float_rejects (alt : alternative) (limit : list R) (value level : R) : result bool :=
  let! cv := critical_value_float_of alt limit level in
  let! inside := area_contains alt cv value in
  Ok (negb inside).
