(** Model of statistics/goodness_of_fit/normal.py (except the graph statistics, see GraphModel.v, and the
    Brys-Hubert-Struyf statistic, see BhsModel.v).

    A call of [execute_statistic] returns a number, returns None (most statistics do so for n <= 3) or raises, and
    may leave the caller's array sorted.  Samples are numpy arrays of floats, read as reals: a division of a numpy
    float by zero gives [NonFinite] (inf or nan), a [math.log] outside its domain raises ValueError, a division
    by a Python int or float zero raises ZeroDivisionError.  scipy.stats.norm is defined in NormalLaw.v. *)
From Coq Require Import String.
From Verif Require Import Base DecModel EdfModel GraphModel NormalLaw ExpModel.

Definition outcome := result (option npval).
Record nrun := NRun { nvalue : outcome; nsample_after : list R }.
Definition nreads (f : list R -> outcome) (rvs : list R) : nrun := NRun (f rvs) rvs.
Definition nsorts (f : list R -> outcome) (rvs : list R) : nrun := NRun (f rvs) (if (3 <? length rvs)%nat then rsort rvs else rvs).
(** a computed number, finite under the condition *)
Definition num (ok : bool) (v : R) : outcome := Ok (Some (if ok then Fin v else NonFinite)).
(** [if n > 3: ... return v] *)
Definition gt3 (rvs : list R) (o : outcome) : outcome := if (3 <? length rvs)%nat then o else Ok None.

(** ** numpy and scipy functions *)
Definition ssq (l : list R) : R := Rsum (map (fun x => (x - mean l) ^ 2) l).
(** not constant: np.var(l) != 0 *)
Definition varying (l : list R) : bool := negb (Reqb (ssq l) 0).
(** np.std(l, ddof=1) *)
Definition sd1 (l : list R) : R := sqrt (ssq l / (len l - 1)).
(** (l - mean) / s *)
Definition zscores (s : R) (l : list R) : list R := map (fun x => (x - mean l) / s) l.
(** scipy.stats.moment (central) *)
Definition moment (k : nat) (l : list R) : R := mean (map (fun x => (x - mean l) ^ k) l).
(** scipy.stats.skew and scipy.stats.kurtosis(fisher=False), biased; nan on constant samples *)
Definition skewness (l : list R) : R := moment 3 l / sqrt (moment 2 l) ^ 3.
Definition kurt (l : list R) : R := moment 4 l / moment 2 l ^ 2.
Definition dot (a b : list R) : R := Rsum (map (fun p => fst p * snd p) (combine a b)).
(** np.median, and the explicit loops 1316-1319, 1945-1948 *)
Definition median (l : list R) : R :=
  let s := rsort l in let h := (length l / 2)%nat in
  if Nat.even (length l) then (nth h s 0 + nth (h - 1) s 0) / 2 else nth h s 0.
(** scipy.stats.pearsonr(x, y)[0] *)
Definition pearsonr (x y : list R) : outcome :=
  if (length x <? 2)%nat then Raise ValueError
  else num (varying x && varying y)
         (Rsum (map (fun p => (fst p - mean x) * (snd p - mean y)) (combine x y)) / (sqrt (ssq x) * sqrt (ssq y))).
(** norm.ppf((i - alpha) / (n - 2 * alpha + 1)) for i = 1..n *)
Definition plotting (alpha : R) (n : nat) : list R :=
  map (fun i => (INR (S i) - alpha) / (INR n - 2 * alpha + 1)) (seq 0 n).
Definition scores (alpha : R) (n : nat) : list R := map norm_ppf (plotting alpha n).
Definition Rsgn (x : R) : R := if Rltb 0 x then 1 else if Rltb x 0 then -1 else 0.
(** math.comb *)
Fixpoint choose (n k : nat) : nat :=
  match k, n with 0, _ => 1 | S _, 0 => 0 | S k', S n' => choose n' k' + choose n' k end%nat.
Definition lift (r : result R) : outcome := let! v := r in Ok (Some (Fin v)).

(** ** the statistics *)
(** 89-92; [mean] and [var] of the constructor are not used *)
Definition ks_norm (mean_ var_ : R) (alt : alternative) (rvs : list R) : outcome :=
  lift (ks_do_execute alt (map norm_cdf (rsort rvs))).
(** 130-137 *)
Definition ad_norm (rvs : list R) : outcome :=
  match rvs with
  | [] => num true 0
  | _ => if varying rvs then Ok (Some (ad_of_cdf (map norm_cdf (zscores (sd1 rvs) (rsort rvs))))) else Ok (Some NonFinite)
  end.
(** 169-204; [np.polyval] *)
Definition polyval (p : list R) (u : R) : R := fold_left (fun acc c => acc * u + c) p 0.
Definition sw_wn (n : nat) (cn : R) : R :=
  polyval [-2.706056; 4.434685; -2.071190; -0.147981; 0.221157; cn] (1 / sqrt (INR n)).
Definition sw_wn1 (n : nat) (cn1 : R) : R :=
  polyval [-3.582633; 5.682633; -1.752461; -0.293762; 0.042981; cn1] (1 / sqrt (INR n)).
(** the coefficients; None when they are nan (the square root of a negative phi or phi = 0) *)
Definition sw_coefficients (n : nat) : result (option (list R)) :=
  let m := scores (3 / 8) n in
  let m2 := Rsum (map (fun x => x ^ 2) m) in
  match n with
  | 0%nat | 1%nat => Raise IndexError
  | 2%nat => Raise TypeError
  | 3%nat => Ok (Some [sqrt 0.5; 0; - sqrt 0.5])
  | _ =>
    let last := nth (n - 1) m 0 in let last1 := nth (n - 2) m 0 in
    let wn := sw_wn n (last / sqrt m2) in
    if (n <=? 5)%nat then
      let phi := (m2 - 2 * last ^ 2) / (1 - 2 * wn ^ 2) in
      Ok (if Rltb 0 phi && negb (Reqb (1 - 2 * wn ^ 2) 0)
          then Some (- wn :: map (fun k => nth k m 0 / sqrt phi) (seq 1 (n - 2)) ++ [wn]) else None)
    else
      let wn1 := sw_wn1 n (last1 / sqrt m2) in
      let phi := (m2 - 2 * last ^ 2 - 2 * last1 ^ 2) / (1 - 2 * wn ^ 2 - 2 * wn1 ^ 2) in
      Ok (if Rltb 0 phi && negb (Reqb (1 - 2 * wn ^ 2 - 2 * wn1 ^ 2) 0)
          then Some ([- wn; - wn1] ++ map (fun k => nth k m 0 / sqrt phi) (seq 2 (n - 4)) ++ [wn1; wn]) else None)
  end.
(** 157-167 *)
Definition sw_norm (rvs : list R) : outcome :=
  let! a := sw_coefficients (length rvs) in
  match a with
  | Some a => num (varying rvs) (dot a (rsort rvs) ^ 2 / ssq rvs)
  | None => Ok (Some NonFinite)
  end.
(** 221-225 *)
Definition cvm_norm (rvs : list R) : outcome := lift (cvm_do_execute (map norm_cdf (rsort rvs))).
(** 241-245 *)
Definition lillie_norm (rvs : list R) : outcome :=
  match rvs with
  | [] => Raise ValueError
  | _ => if varying rvs then lift (ks_do_execute TWO_TAILED (map norm_cdf (rsort (zscores (sd1 rvs) rvs)))) else Ok (Some NonFinite)
  end.
(** 290-304; skew and kurtosis are computed from the centred sample *)
Definition jb_norm (rvs : list R) : outcome :=
  match rvs with
  | [] => Raise ValueError
  | _ => let d := map (fun x => x - mean rvs) rvs in
         num (varying rvs) (len rvs / 6 * (skewness d ^ 2 + (kurt d - 3) ^ 2 / 4))
  end.
(** 337-347, 1102-1106: the constants of D'Agostino's transformation of the skewness *)
Definition sk_beta2 (n : R) : R :=
  3 * (n ^ 2 + 27 * n - 70) * (n + 1) * (n + 3) / ((n - 2) * (n + 5) * (n + 7) * (n + 9)).
Definition sk_w2 (n : R) : R := -1 + sqrt (2 * (sk_beta2 n - 1)).
Definition sk_delta (n : R) : R := 1 / sqrt (0.5 * ln (sk_w2 n)).
Definition sk_alpha (n : R) : R := sqrt (2 / (sk_w2 n - 1)).
Definition sk_y (n b : R) : R := b * sqrt ((n + 1) * (n + 3) / (6 * (n - 2))).
(** delta * log(t + sqrt(t^2 + 1)) *)
Definition sk_z (n y : R) : R := let t := y / sk_alpha n in sk_delta n * ln (t + sqrt (t ^ 2 + 1)).
(** 330-352: a zero is replaced by one *)
Definition skew_test (rvs : list R) : result npval :=
  if (length rvs <? 8)%nat then Raise ValueError
  else let y := sk_y (len rvs) (skewness rvs) in
       Ok (if varying rvs then Fin (sk_z (len rvs) (if Reqb y 0 then 1 else y)) else NonFinite).
(** 379-417 *)
Definition ku_e (n : R) : R := 3 * (n - 1) / (n + 1).
Definition ku_var (n : R) : R := 24 * n * (n - 2) * (n - 3) / ((n + 1) * (n + 1) * (n + 3) * (n + 5)).
Definition ku_sqrt_beta1 (n : R) : R :=
  6 * (n * n - 5 * n + 2) / ((n + 7) * (n + 9)) * sqrt (6 * (n + 3) * (n + 5) / (n * (n - 2) * (n - 3))).
Definition ku_a (n : R) : R :=
  let b := ku_sqrt_beta1 n in 6 + 8 / b * (2 / b + sqrt (1 + 4 / b ^ 2)).
Definition ku_denom (n b2 : R) : R := 1 + (b2 - ku_e n) / sqrt (ku_var n) * sqrt (2 / (ku_a n - 4)).
Definition kurtosis_test (rvs : list R) : result npval :=
  if (length rvs <? 5)%nat then Raise ValueError
  else let n := len rvs in let a := ku_a n in let denom := ku_denom n (kurt rvs) in
       let term2 := Rsgn denom * np_pow ((1 - 2 / a) / Rabs denom) (1 / 3) in
       Ok (if varying rvs && negb (Reqb denom 0) then Fin ((1 - 2 / (9 * a) - term2) / sqrt (2 / (9 * a))) else NonFinite).
Definition some_num (r : result npval) : outcome := let! v := r in Ok (Some v).
(** 324-328, 372-376 *)
Definition skew_norm (rvs : list R) : outcome := some_num (skew_test (rsort rvs)).
Definition kurtosis_norm (rvs : list R) : outcome := some_num (kurtosis_test (rsort rvs)).
(** 433-440 *)
Definition dap_norm (rvs : list R) : outcome :=
  let! s := skew_test (rsort rvs) in
  let! k := kurtosis_test (rsort rvs) in
  match s, k with Fin s, Fin k => num true (s * s + k * k) | _, _ => Ok (Some NonFinite) end.
(** 468-480; x ** y of positive floats *)
Definition filli_medians (n : nat) : list R :=
  map (fun i => if Nat.eqb i (n - 1) then Rpower 0.5 (1 / INR n)
                else if Nat.eqb i 0 then 1 - Rpower 0.5 (1 / INR n)
                else (INR (S i) - 0.3175) / (INR n + 0.365)) (seq 0 n).
(** 461-466 *)
Definition filli_norm (rvs : list R) : outcome :=
  match rvs with
  | [] => Raise ZeroDivisionError
  | _ => pearsonr (rsort rvs) (map norm_ppf (filli_medians (length rvs)))
  end.
(** 506-550 (weighted is False) and 577-628; [weighted] replaces the plotting position of a tied value by the
    average over the ties *)
Definition tie_averaged (x u : list R) : list R :=
  map (fun v => mean (map snd (filter (fun p => Reqb (fst p) v) (combine x u)))) x.
Definition rj_norm (weighted : bool) (alpha : R) (rvs : list R) : outcome :=
  let x := rsort rvs in
  let u := plotting alpha (length rvs) in
  pearsonr (map norm_ppf (if weighted then tie_averaged x u else u)) x.
Definition lg_norm : list R -> outcome := rj_norm false (3 / 8).
(** 648-658 *)
Definition sf_norm (rvs : list R) : outcome :=
  let e := map Ropp (scores 0.375 (length rvs)) in
  num (varying rvs && negb (Reqb (Rsum (map (fun x => x ^ 2) e)) 0))
    (dot e (rsort rvs) ^ 2 / (ssq rvs * Rsum (map (fun x => x ^ 2) e))).
(** 679-691 *)
Definition ep_norm (rvs : list R) : outcome :=
  match rvs with
  | [] => Raise ZeroDivisionError
  | _ => let n := len rvs in let m2 := np_var rvs in
    num (varying rvs)
      (1 + n / sqrt 3 + 2 / n * sum_pairs (fun x y => exp (- ((x - y) ^ 2 / (2 * m2)))) (rsort rvs)
       - sqrt 2 * Rsum (map (fun x => exp (- ((x - mean rvs) ^ 2 / (4 * m2)))) (rsort rvs)))
  end.
(** 746-754, 873-883, 941-951 with trimming t = 1, 2, 3 *)
Definition pstarmod (t r n i : nat) : R :=
  Rsum (map (fun k => (-1) ^ k * INR (choose (r - 1) k) * INR (choose (i - 1) (r + t - 1 - k)) * INR (choose (n - i) (t + k))) (seq 0 r)).
(** trimmed L-moments, 721-727, 847-853, 915-921 *)
Definition tl_moment (t r : nat) (x : list R) : R :=
  let n := length x in
  Rsum (map (fun i => nth (i - 1) x 0 * pstarmod t r n i) (seq 2 (n - 2))) / (INR r * INR (choose n (r + 2 * t))).
Definition hosking_value (mu v3 v4 l2 l3 l4 : R) : R := (l3 / l2) ^ 2 / v3 + (l4 / l2 - mu) ^ 2 / v4.
(** (mu, v3, v4) by sample size *)
Definition by_size (n : nat) (a b c : R * R * R) : R * R * R :=
  if (n <=? 25)%nat then a else if (n <=? 50)%nat then b else c.
Definition hosking_constants (t n : nat) : R * R * R :=
  match t with
  | 0%nat => by_size n (0.12383, 0.0088038, 0.0049295) (0.12321, 0.0040493, 0.0020802) (0.12291, 0.0019434, 0.00095785)
  | 1%nat => by_size n (0.067077, 0.0081391, 0.0042752) (0.064456, 0.0034657, 0.0015699) (0.063424, 0.0016064, 0.00068100)
  | 2%nat => by_size n (0.044174, 0.0086570, 0.0042066) (0.040389, 0.0033818, 0.0013301) (0.039030, 0.0015120, 0.00054207)
  | _ => by_size n (0.033180, 0.0095765, 0.0044609) (0.028224, 0.0033813, 0.0011823) (0.026645, 0.0014547, 0.00045107)
  end.
Definition hosking_trimmed (t : nat) (rvs : list R) : outcome :=
  let n := length rvs in let x := rsort rvs in
  let '(mu, v3, v4) := hosking_constants t n in
  num ((4 + 2 * t <=? n)%nat && negb (Reqb (tl_moment t 2 x) 0))
    (hosking_value mu v3 v4 (tl_moment t 2 x) (tl_moment t 3 x) (tl_moment t 4 x)).
(** 711-744 returns 0 for n <= 3; 838-871; 906-939 *)
Definition hosking2 (rvs : list R) : outcome :=
  if (3 <? length rvs)%nat then hosking_trimmed 1 rvs else num true 0.
Definition hosking3 (rvs : list R) : outcome := gt3 rvs (hosking_trimmed 2 rvs).
Definition hosking4 (rvs : list R) : outcome := gt3 rvs (hosking_trimmed 3 rvs).
(** 778-815: probability-weighted moments; the first terms of b1, b2, b3 that vanish are left out in the code *)
Definition pwm (x : list R) : R * R * R * R :=
  let n := len x in
  (Rsum x / n,
   Rsum (imap (fun i v => INR i * v) x) / (n * (n - 1)),
   Rsum (imap (fun i v => INR i * (INR i - 1) * v) x) / (n * (n - 1) * (n - 2)),
   Rsum (imap (fun i v => INR i * (INR i - 1) * (INR i - 2) * v) x) / (n * (n - 1) * (n - 2) * (n - 3))).
Definition hosking1 (rvs : list R) : outcome :=
  gt3 rvs
    (let '(b0, b1, b2, b3) := pwm (rsort rvs) in
     let l2 := 2 * b1 - b0 in
     let l3 := 6 * b2 - 6 * b1 + b0 in
     let l4 := 20 * b3 - 30 * b2 + 12 * b1 - b0 in
     let '(mu, v3, v4) := hosking_constants 0 (length rvs) in
     num (negb (Reqb l2 0)) (hosking_value mu v3 v4 l2 l3 l4)).
(** phiz, 975-981, 1009-1015, 1047-1053 *)
Definition phiz (rvs : list R) : list R := rsort (map norm_cdf (zscores (sd1 rvs) rvs)).
(** 971-985 *)
Definition zwc (rvs : list R) : outcome :=
  let n := len rvs in
  gt3 rvs (num (varying rvs)
    (Rsum (imap (fun i p => ln ((1 / p - 1) / ((n - 0.5) / (INR (S i) - 0.75) - 1)) ^ 2) (phiz rvs)))).
(** 1005-1023 *)
Definition zwa (rvs : list R) : outcome :=
  let n := len rvs in
  gt3 rvs (num (varying rvs)
    (10 * - Rsum (imap (fun i p => ln p / (n - INR (S i) + 0.5) + ln (1 - p) / (INR (S i) - 0.5)) (phiz rvs)) - 32)).
(** scipy.stats.beta.cdf(p, i, n - i + 1) for integers 1 <= i <= n: the probability of at least i successes
    in n trials *)
Definition beta_cdf (n i : nat) (p : R) : R :=
  Rsum (map (fun k => INR (choose n k) * p ^ k * (1 - p) ^ (n - k)) (seq i (S n - i))).
(** 1043-1062 *)
Definition glb (rvs : list R) : outcome :=
  let n := length rvs in
  let b := rsort (imap (fun i p => beta_cdf n (S i) p) (phiz rvs)) in
  gt3 rvs (num (varying rvs)
    (- INR n - Rsum (imap (fun i p => (2 * INR n + 1 - 2 * INR (S i)) * ln p + (2 * INR (S i) - 1) * ln (1 - p)) b) / INR n)).
(** 1110-1126 *)
Definition dh_alpha (n skew : R) : R :=
  let d := (n - 3) * (n + 1) * (n ^ 2 + 15 * n - 4) in
  let a := (n - 2) * (n + 5) * (n + 7) * (n ^ 2 + 27 * n - 70) / (6 * d) in
  let c := (n - 7) * (n + 5) * (n + 7) * (n ^ 2 + 2 * n - 5) / (6 * d) in
  a + skew ^ 2 * c.
Definition dh_q (n skew k4 : R) : R :=
  let d := (n - 3) * (n + 1) * (n ^ 2 + 15 * n - 4) in
  let k := (n + 5) * (n + 7) * (n ^ 3 + 37 * n ^ 2 + 11 * n - 313) / (12 * d) in
  2 * (k4 - 1 - skew ^ 2) * k.
Definition dh_z2 (n skew k4 : R) : R :=
  let alpha := dh_alpha n skew in
  (np_pow (0.5 * dh_q n skew k4 / alpha) (1 / 3) - 1 + 1 / (9 * alpha)) * sqrt (9 * alpha).
(** 1082-1108; the constants of the skewness transformation exist for n >= 8 only: n = 2 divides the int 0,
    n = 7 divides the float 0, the others take a square root or logarithm outside the domain *)
Definition dh (rvs : list R) : outcome :=
  let n := length rvs in
  if Nat.eqb n 2 || Nat.eqb n 7 then Raise ZeroDivisionError
  else if (n <? 8)%nat then Raise ValueError
  else let b1 := skewness rvs in let b2 := kurt rvs in
       num (varying rvs && Rleb 0 (0.5 * dh_q (INR n) b1 b2 / dh_alpha (INR n) b1))
         (sk_z (INR n) (sk_y (INR n) b1) ^ 2 + dh_z2 (INR n) b1 b2 ^ 2).
(** 1146-1155 *)
Definition mean_abs_dev (c : R) (l : list R) : R := mean (map (fun x => Rabs (x - c)) l).
Definition rjb (rvs : list R) : outcome :=
  let n := len rvs in let j := sqrt (PI / 2) * mean_abs_dev (median rvs) rvs in
  num (nonempty rvs && negb (Reqb j 0))
    (n / 6 * (moment 3 rvs / j ^ 3) ^ 2 + n / 64 * (moment 4 rvs / j ^ 4 - 3) ^ 2).
(** the Hermite polynomials, 1198-1199, 1236-1239, 1366-1379, 1446-1472 *)
Definition h2 (z : R) : R := (z ^ 2 - 1) / sqrt 2.
Definition h3 (z : R) : R := (z ^ 3 - 3 * z) / sqrt 6.
Definition h4 (z : R) : R := (z ^ 4 - 6 * z ^ 2 + 3) / (2 * sqrt 6).
Definition h5 (z : R) : R := (z ^ 5 - 10 * z ^ 3 + 15 * z) / (2 * sqrt 30).
Definition h6 (z : R) : R := (z ^ 6 - 15 * z ^ 4 + 45 * z ^ 2 - 15) / (12 * sqrt 5).
Definition h7 (z : R) : R := (z ^ 7 - 21 * z ^ 5 + 105 * z ^ 3 - 105 * z) / (12 * sqrt 35).
Definition h8 (z : R) : R := (z ^ 8 - 28 * z ^ 6 + 210 * z ^ 4 - 420 * z ^ 2 + 105) / (24 * sqrt 70).
(** variance by the moments formula, 1189-1192, 1629-1632 *)
Definition sd_moments (rvs : list R) : R :=
  sqrt (len rvs * (Rsum (map (fun x => x ^ 2) rvs) / len rvs - mean rvs ^ 2) / (len rvs - 1)).
(** 1175-1202 *)
Definition bm1 (rvs : list R) : outcome :=
  let z := zscores (sd_moments rvs) rvs in
  gt3 rvs (num (varying rvs) ((Rsum (map h3 z) ^ 2 + Rsum (map h4 z) ^ 2) / len rvs)).
(** 1226-1241 *)
Definition bm2 (rvs : list R) : outcome :=
  let z := zscores (sd1 rvs) rvs in
  gt3 rvs (num (varying rvs)
    ((Rsum (map h3 z) ^ 2 + Rsum (map h4 z) ^ 2 + Rsum (map h5 z) ^ 2 + Rsum (map h6 z) ^ 2) / len rvs)).
(** 1264-1286; [math.log(0)] raises *)
Definition bs (rvs : list R) : outcome :=
  let n := len rvs in
  gt3 rvs (if varying rvs
    then num true (sqrt (n + 2) * (13.29 * (ln (sqrt (np_var rvs)) - ln (mean_abs_dev (mean rvs) rvs)) - 3) / 3.54)
    else Raise ValueError).
(** 1309-1337; a vanishing term2 makes sb2 infinite and the quotient 0 *)
Definition mi (rvs : list R) : outcome :=
  let n := len rvs in
  let aux := map (fun x => x - median rvs) rvs in
  let a := 9 * median (map Rabs aux) in
  let term1 := Rsum (map (fun d => d ^ 2 * (1 - (d / a) ^ 2) ^ 4) aux) in
  let term2 := Rsum (map (fun d => (1 - (d / a) ^ 2) * (1 - 5 * (d / a) ^ 2)) aux) in
  let term3 := Rsum (map (fun d => d ^ 2) aux) in
  gt3 rvs (num (negb (Reqb a 0) && negb (Reqb term1 0))
    (if Reqb term2 0 then 0 else term3 / (n - 1) / (n * term1 / term2 ^ 2))).
(** 1361-1393 *)
Definition cc1 (rvs : list R) : outcome :=
  let z := zscores (sd1 rvs) rvs in
  let m h := Rsum (map h z) / sqrt (len rvs) in
  gt3 rvs (num (varying rvs)
    (Rmaxl 0 (map (fun v => Rabs (norm_cdf v * m h3
       - norm_pdf v * (m h4 + m h5 * v / sqrt 2 + m h6 * (v ^ 2 - 1) / sqrt 6
                       + m h7 * (v ^ 3 - 3 * v) / (2 * sqrt 6) + m h8 * (v ^ 4 - 6 * v ^ 2 + 3) / (2 * sqrt 30)))) z))).
(** 1417-1502; the last summand of vector_aux2 appears twice *)
Definition cc2 (rvs : list R) : outcome :=
  let z := zscores (sqrt (len rvs * np_var rvs / (len rvs - 1))) rvs in
  let m h := Rsum (map h z) / sqrt (len rvs) in
  gt3 rvs (num (varying rvs)
    (Rmaxl 0 (map (fun v => Rabs (- norm_pdf v * m h3 + (norm_cdf v - v * norm_pdf v) * m h4
       - norm_pdf v * ((sqrt 2 * 1 + h2 v) * m h5 + (sqrt (3 / 2) * v + h3 v) * m h6 + (sqrt (4 / 3) * h2 v + h4 v) * m h7
                       + (sqrt (5 / 4) * h3 v + h5 v) * m h8 + (sqrt (5 / 4) * h3 v + h5 v) * m h8))) z))).
(** 1526-1536 *)
Definition cs (rvs : list R) : outcome :=
  let n := len rvs in let m := scores 0.375 (length rvs) in
  gt3 rvs (num (varying rvs)
    (sqrt n * (1 - Rsum (map (fun p => fst p / snd p) (combine (diff (rsort rvs)) (diff m))) / ((n - 1) * sd1 rvs)))).
(** 1560-1586, 1775-1803: the coefficients of the two slope estimates *)
Definition zq_a (n : nat) : list R :=
  let u := scores 0.375 n in
  let t := map (fun i => 1 / ((INR n - 1) * (nth i u 0 - nth 0 u 0))) (seq 1 (n - 1)) in
  - Rsum t :: t.
Definition zq_b (n : nat) : list R :=
  let u := fun i => nth i (scores 0.375 n) 0 in
  map (fun i => if (i <? 4)%nat then 1 / ((INR n - 4) * (u i - u (i + 4)%nat))
                else if (n - 4 <=? i)%nat then - (1 / ((INR n - 4) * (u (n - 1 - i)%nat - u (n + 3 - i)%nat)))
                else (1 / (u i - u (i + 4)%nat) - 1 / (u (i - 4)%nat - u i)) / (INR n - 4)) (seq 0 n).
Definition log_ratio (q1 q2 : R) : outcome := num (negb (Reqb q2 0) && Rltb 0 (q1 / q2)) (ln (q1 / q2)).
(** u[4], ..., u[7] exist for n >= 8 only *)
Definition zq (rvs : list R) : outcome :=
  let n := length rvs in
  gt3 rvs (if (n <? 8)%nat then Raise IndexError else log_ratio (dot (zq_a n) (rsort rvs)) (dot (zq_b n) (rsort rvs))).
Definition zqs (rvs : list R) : outcome :=
  let n := length rvs in
  gt3 rvs (if (n <? 8)%nat then Raise IndexError
           else log_ratio (- dot (zq_a n) (rev (rsort rvs))) (- dot (zq_b n) (rev (rsort rvs)))).
(** 1662-1681, [i] counts from 1 *)
Definition coin_correct (i n : nat) : R :=
  if Nat.eqb (i * n) 4 then 1.9 / 10 ^ 5
  else if (i <? 1)%nat || (7 <? i)%nat then 0
  else if negb (Nat.eqb i 4) && (20 <? n)%nat then 0
  else if Nat.eqb i 4 && (40 <? n)%nat then 0
  else let an := 1 / (INR n * INR n) in
       (nth (i - 1) [9.5; 28.7; 1.9; 0; -7; -6.2; -1.6] 0
        + an * (nth (i - 1) [-6195; -9569; -6728; -17614; -8278; -3570; 1075] 0
                + an * nth (i - 1) [93380; 175160; 410400; 2157600; 2376000; 2065000; 2065000] 0)) * / 10 ^ 6.
(** 1683-1720: the tail probability of the i-th (from 0) normal order statistic *)
Definition coin_s (n i : nat) : R :=
  let j := Nat.min i 3 in let ai := INR (S i) in let an := INR n in
  let e1 := (ai - nth j [0.419885; 0.450536; 0.456936; 0.468488] 0) / (an + nth j [0.474798; 0.469051; 0.208597; 0.259784] 0) in
  let lam := nth j [0.282765; 0.304856; 0.407708; 0.414093] 0 in
  let e2 := Rpower e1 (if (i <? 3)%nat then lam else lam + -0.283833 / (ai + -0.106136)) in
  e1 + e2 * (nth j [0.112063; 0.12177; 0.239299; 0.215159] 0 + e2 * nth j [0.080122; 0.111348; -0.211867; -0.115049] 0) / an
  - coin_correct (S i) n.
(** 1640-1650 *)
Definition coin_a (n : nat) : list R :=
  map (fun i => if (i <? n / 2)%nat then - - norm_ppf (coin_s n i)
                else if Nat.odd n && Nat.eqb i (n / 2) then 0
                else - norm_ppf (coin_s n (n - i - 1))) (seq 0 n).
(** 1609-1660 *)
Definition coin (rvs : list R) : outcome :=
  let n := length rvs in
  let a := coin_a n in let z := rsort (zscores (sd_moments rvs) rvs) in
  let term k := Rsum (map (fun x => x ^ k) a) in
  let termz k := dot (map (fun x => x ^ k) a) z in
  gt3 rvs (num (varying rvs && forallb (fun i => Rltb 0 (coin_s n i) && Rltb (coin_s n i) 1) (seq 0 (n / 2))
                && negb (Reqb (term 4%nat * term 4%nat - term 2%nat * term 6%nat) 0))
    (((term 4%nat * termz 1%nat - term 2%nat * termz 3%nat) / (term 4%nat * term 4%nat - term 2%nat * term 6%nat)) ^ 2)).
(** 1745-1755 *)
Definition dagostino_d (rvs : list R) : R :=
  let n := len rvs in let x := rsort rvs in
  Rsum (imap (fun i v => (INR (S i) - 0.5 * (n + 1)) * v) x)
  / (n ^ 2 * sqrt (Rsum (map (fun v => v ^ 2) x) / n - (Rsum x / n) ^ 2)).
Definition dagostino (rvs : list R) : outcome :=
  gt3 rvs (num (varying rvs) (sqrt (len rvs) * (dagostino_d rvs - 0.28209479) / 0.02998598)).
(** 1872-1892 *)
Definition wrg_term (n k : nat) : R :=
  if Nat.eqb k 0 || (n <? k)%nat then 0
  else let m := norm_ppf (INR k / (INR n + 1)) in m * norm_pdf m.
Definition wrg_star (n : nat) : list R :=
  map (fun k => - ((INR n + 1) * (INR n + 2)) * norm_pdf (norm_ppf (INR k / (INR n + 1)))
                * (wrg_term n (k - 1) - 2 * wrg_term n k + wrg_term n (k + 1))) (seq 1 n).
Definition swrg (rvs : list R) : outcome :=
  let a := wrg_star (length rvs) in let norm2 := Rsum (map (fun x => x ^ 2) a) in
  gt3 rvs (num (varying rvs && negb (Reqb norm2 0)) (dot (map (fun x => x / sqrt norm2) a) (rsort rvs) ^ 2 / ssq rvs)).
(** 1915-1957 *)
Definition gmg (rvs : list R) : outcome :=
  let jn := sqrt (PI / 2) * mean_abs_dev (median rvs) rvs in
  gt3 rvs (num (negb (Reqb jn 0)) (sqrt (np_var rvs) / jn)).
(** 2329-2364; math.gamma(n + 1) is n! *)
Definition sh_cn (n : nat) : R :=
  if (n <? 150)%nat then 0.5 * Rpower (INR (fact n)) (1 / (INR n - 1)) / INR n
  else Rpower (2 * PI) (1 / (2 * (INR n - 1))) * Rpower (INR n * sqrt (INR n) / exp 1) (1 / (INR n - 1)) / (2 * exp 1).
Definition sh (rvs : list R) : outcome :=
  let n := length rvs in
  let u := (Rmaxl 0 rvs - Rminl 0 rvs) / sd1 rvs in
  let g := Rsum (map (fun x => Rabs (x - mean rvs)) rvs) / (sd1 rvs * sqrt (INR n) * sqrt (INR n - 1)) in
  gt3 rvs (num (varying rvs) (Rpower (/ (sh_cn n * u) ^ (n - 1) + / g ^ (n - 1)) (1 / (INR n - 1)))).
(** 2387-2423; 0 ** 2 * log(0) is nan *)
Definition dldm (rvs : list R) : outcome :=
  let n := len rvs in
  let y := zscores (sqrt (Rsum (map (fun x => x ^ 2) rvs) / n - mean rvs ^ 2)) rvs in
  let r1 := 0.18240929 - 0.5 * Rsum (map (fun v => v ^ 2 * ln (Rabs v)) y) / n in
  let r2 := 0.5348223 - Rsum (map (fun v => ln (1 + Rabs v)) y) / n in
  let r3 := 0.20981558 - Rsum (map (fun v => ln (ln (2.71828182846 + Rabs v))) y) / n in
  gt3 rvs (num (varying rvs && forallb (fun v => negb (Reqb v 0)) y)
    (n * ((r1 * 1259.04213344 - r2 * 32040.69569026 + r3 * 85065.77739473) * r1
          + (- r1 * 32040.6956903 + r2 * 918649.9005906 - r3 * 2425883.3443201) * r2
          + (r1 * 85065.7773947 - r2 * 2425883.3443201 + r3 * 6407749.8211208) * r3))).

(** the classes of the module by name, with the constructor arguments *)
Record norm_args := NormArgs { n_mean : R; n_var : R; n_alt : alternative; n_weighted : bool; n_alpha : R }.
Local Open Scope string_scope.
Definition normality_statistics (A : norm_args) : list (string * (list R -> nrun)) := [
  ("KolmogorovSmirnovNormalityGofStatistic", nreads (ks_norm (n_mean A) (n_var A) (n_alt A)));
  ("AndersonDarlingNormalityGofStatistic", nreads ad_norm);
  ("ShapiroWilkNormalityGofStatistic", nreads sw_norm);
  ("CramerVonMiseNormalityGofStatistic", nreads cvm_norm);
  ("LillieforsNormalityGofStatistic", nreads lillie_norm);
  ("JBNormalityGofStatistic", nreads jb_norm);
  ("SkewNormalityGofStatistic", nreads skew_norm);
  ("KurtosisNormalityGofStatistic", nreads kurtosis_norm);
  ("DAPNormalityGofStatistic", nreads dap_norm);
  ("FilliNormalityGofStatistic", nreads filli_norm);
  ("LooneyGulledgeNormalityGofStatistic", nreads lg_norm);
  ("RyanJoinerNormalityGofStatistic", nreads (rj_norm (n_weighted A) (n_alpha A)));
  ("SFNormalityGofStatistic", nreads sf_norm);
  ("EppsPulleyNormalityGofStatistic", nreads ep_norm);
  ("Hosking2NormalityGofStatistic", nreads hosking2);
  ("Hosking1NormalityGofStatistic", nreads hosking1);
  ("Hosking3NormalityGofStatistic", nsorts hosking3);
  ("Hosking4NormalityGofStatistic", nsorts hosking4);
  ("ZhangWuCNormalityGofStatistic", nreads zwc);
  ("ZhangWuANormalityGofStatistic", nreads zwa);
  ("GlenLeemisBarrNormalityGofStatistic", nreads glb);
  ("DoornikHansenNormalityGofStatistic", nreads dh);
  ("RobustJarqueBeraNormalityGofStatistic", nreads rjb);
  ("BontempsMeddahi1NormalityGofStatistic", nreads bm1);
  ("BontempsMeddahi2NormalityGofStatistic", nreads bm2);
  ("BonettSeierNormalityGofStatistic", nreads bs);
  ("MartinezIglewiczNormalityGofStatistic", nreads mi);
  ("CabanaCabana1NormalityGofStatistic", nreads cc1);
  ("CabanaCabana2NormalityGofStatistic", nreads cc2);
  ("ChenShapiroNormalityGofStatistic", nreads cs);
  ("ZhangQNormalityGofStatistic", nreads zq);
  ("CoinNormalityGofStatistic", nreads coin);
  ("DagostinoNormalityGofStatistic", nreads dagostino);
  ("ZhangQStarNormalityGofStatistic", nreads zqs);
  ("SWRGNormalityGofStatistic", nreads swrg);
  ("GMGNormalityGofStatistic", nreads gmg);
  ("SpiegelhalterNormalityGofStatistic", nreads sh);
  ("DesgagneLafayeNormalityGofStatistic", nreads dldm)
].
