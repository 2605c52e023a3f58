(** Notions used in the statements about the Kullback-Leibler tests of lognormality. *)
From Coquelicot Require Import Coquelicot.
From Verif Require Import Base NormalLaw.

(** the sample as a distribution: every observation has the same weight *)
Definition equal_weights (y : list R) : list R := map (fun _ => 1 / len y) y.
(** the same distribution tilted by the power r: weights proportional to y^r *)
Definition tilted_weights (y : list R) (r : R) : list R :=
  map (fun v => Rpower v r / Rsum (map (fun u => Rpower u r) y)) y.
(** Kullback-Leibler divergence of two distributions on the same points *)
Definition divergence (p q : list R) : R := Rsum (map (fun ab => fst ab * ln (fst ab / snd ab)) (combine p q)).
(** how much farther the tilt is from the sample than the sample from the tilt *)
Definition asymmetry (y : list R) (r : R) : R :=
  divergence (equal_weights y) (tilted_weights y r) - divergence (tilted_weights y r) (equal_weights y).
(** the same number as a function of the moments m of Y^r, l of ln Y and k of Y^r ln Y *)
Definition asymmetry_of_moments (r m l k : R) : R := 2 * ln m - r * l - r * k / m.
(** mean of g(Z) for standard normal Z *)
Definition normal_mean (g : R -> R) (v : R) : Prop :=
  is_RInt_gen (fun z => g z * norm_pdf z) (Rbar_locally m_infty) (Rbar_locally p_infty) v.
(** third central moment of the logarithms *)
Definition third_central (l : list R) : R := mean (map (fun v => (v - mean l) ^ 3) l).
(** asymptotic variance of the asymmetry for lognormal samples, see [C112_variance] *)
Definition limit_variance (r : R) : R := exp (r ^ 2) * (r ^ 4 - 3 * r ^ 2 + 4) - (4 + r ^ 2).
(** mean moments of Y^r, ln Y and Y^r ln Y for standard lognormal Y, and the effect of one observation e^z of weight t *)
Definition moment_m (r : R) : R := exp (r ^ 2 / 2).
Definition moment_k (r : R) : R := r * exp (r ^ 2 / 2).
Definition contaminated (r z t : R) : R :=
  asymmetry_of_moments r ((1 - t) * moment_m r + t * exp (r * z)) ((1 - t) * 0 + t * z) ((1 - t) * moment_k r + t * (exp (r * z) * z)).
(** the sample with the standard deviation of its logarithms scaled to 1 *)
Definition log_sd (l : list R) : R := sqrt (mean (map (fun x => (x - mean (map ln l)) ^ 2) (map ln l))).
Definition scaled_sample (l : list R) : list R := map (fun x => Rpower x (1 / log_sd l)) l.
(** standardised asymmetry *)
Definition standardised_asymmetry (y : list R) (r : R) : R := asymmetry y r / sqrt (limit_variance r).
(** 1000 equally spaced powers from -5 to 5 *)
Definition powers : list R := map (fun i => -5 + INR i * (10 / 999)) (seq 0 1000).
