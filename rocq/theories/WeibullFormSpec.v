(** Published definitions of the Weibull statistics. *)
From Coquelicot Require Import Coquelicot.
From Verif Require Import Base NormFormSpec NormMoreSpec.
Local Open Scope R_scope.

(** the logarithm of the i-th smallest observation, i = 1, ..., n *)
Definition log_order (l : list R) (i : nat) : R := ln (nth (i - 1) (rsort l) 0).
(** a function at the i-th smallest observation *)
Definition at_order (F : R -> R) (l : list R) (i : nat) : R := F (nth (i - 1) (rsort l) 0).

(** ** Pearson's chi-square: k cells of equal length between lo and hi, the last one closed on the right *)
Definition cell_edge (lo hi : R) (k i : nat) : R := lo + (hi - lo) * INR i / INR k.
Definition in_cell (lo hi : R) (k i : nat) (x : R) : bool :=
  Rleb (cell_edge lo hi k i) x && (Rltb x (cell_edge lo hi k (S i)) || ((S i =? k)%nat && Reqb x hi)).
Definition pearson (F : R -> R) (lo hi : R) (k : nat) (l : list R) : R :=
  Rsum (map (fun i => let e := len l * (F (cell_edge lo hi k (S i)) - F (cell_edge lo hi k i)) in
                      (INR (count (in_cell lo hi k i) l) - e) ^ 2 / e) (seq 0 k)).

(** ** normalised spacings: David and Johnson's (1954) approximation of the mean of the i-th order statistic of the
    smallest extreme value law, whose quantile function is Q(p) = log (- log (1 - p)) *)
Definition extreme_quantile (p : R) : R := ln (- ln (1 - p)).
Definition david_johnson (Q : R -> R) (n i : nat) : R :=
  let p := INR i / (INR n + 1) in let q := 1 - p in
  Q p + p * q / (2 * (INR n + 2)) * Derive_n Q 2 p
  + p * q / (INR n + 2) ^ 2 * ((q - p) / 3 * Derive_n Q 3 p + p * q / 8 * Derive_n Q 4 p).
Definition spacing (l : list R) (i : nat) : R :=
  (log_order l (i + 1) - log_order l i)
  / (david_johnson extreme_quantile (length l) (i + 1) - david_johnson extreme_quantile (length l) i).
Definition spacing_sum (l : list R) (i j : nat) : R := Rsum (map (spacing l) (seq i (S j - i))).

(** ** the linear estimators of the scale of the logarithms *)
(** weights 1, ..., n of D'Agostino (1971) *)
Definition exp_score (n i : nat) : R := - ln (1 - INR i / (INR n + 1)).
Definition weight_1 (n i : nat) : R :=
  if (i <? n)%nat then exp_score n i else INR n - Rsum (map (exp_score n) (seq 1 (n - 1))).
Definition product_score (n i : nat) : R := exp_score n i * (1 + ln (exp_score n i)) - 1.
Definition weight_2 (n i : nat) : R :=
  if (i <? n)%nat then product_score n i else 0.4228 * INR n - Rsum (map (product_score n) (seq 1 (n - 1))).
Definition dagostino_scale (l : list R) : R :=
  let n := length l in
  mean (map (fun i => (0.6079 * weight_2 n i - 0.2570 * weight_1 n i) * log_order l i) (seq 1 n)).
(** Downton (1966): half the mean difference of two logarithms, in units of log 2 *)
Definition downton_scale (l : list R) : R := pair_sum (map ln l) / (len l * (len l - 1)) / ln 2.

(** ** probability plots: Smith and Bain (1976), Evans, Johnson and Green (1989) *)
Definition smith_bain (l : list R) : R :=
  let n := length l in
  len l * (1 - correlation (map (log_order l) (seq 1 n)) (map (fun i => extreme_quantile (INR i / (INR n + 1))) (seq 1 n)) ^ 2).
Definition evans_johnson_green (l : list R) : R :=
  let n := length l in
  correlation (map (log_order l) (seq 1 n)) (map (fun i => extreme_quantile ((INR i - 0.3175) / (INR n + 0.365))) (seq 1 n)) ^ 2.

(** ** Mahdi and Doostparast: the squared distance of the survivor function of the sample from a function F *)
Definition survivor_distance (u : nat -> R) (n : nat) : R :=
  INR n * (Rsum (map (fun i => RInt (fun t => (1 - INR i / INR n - t) ^ 2 / t) (u i) (u (S i))) (seq 1 (n - 1)))
           + (u 1%nat ^ 2 + 1 - u n ^ 2) / 2).
(** ** Liao and Shimokawa (1999) *)
Definition liao_shimokawa (u : nat -> R) (n : nat) : R :=
  / sqrt (INR n) * Rsum (map (fun i => Rmax (INR i / INR n - u i) (u i - (INR i - 1) / INR n) / sqrt (u i * (1 - u i))) (seq 1 n)).
(** ** Vasicek's (1976) estimator of the entropy of the logarithms with window m *)
Definition vasicek (l : list R) (m : nat) : R :=
  let n := length l in
  mean (map (fun i => ln (INR n / (2 * INR m) * (log_order l (Nat.min n (i + m)) - log_order l (Nat.max 1 (i - m))))) (seq 1 n)).
(** ** the empirical Laplace transform *)
Definition transform (l : list R) (s : R) : R := mean (map (fun x => exp (- (s * x))) l).
