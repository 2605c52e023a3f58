(** Notions used in the statements about weibull.py. *)
From Coq Require Import String.
From Verif Require Import Base.
Local Open Scope string_scope.
Local Open Scope R_scope.

(** every observation is positive *)
Definition all_positive (l : list R) : Prop := forall x, In x l -> 0 < x.
(** the sample after x -> c x^b *)
Definition powered (c b : R) (l : list R) : list R := map (fun x => c * Rpower x b) l.
(** a bounded minimiser stays inside its bounds *)
Definition in_bounds (minimise : (R -> R) -> R -> R -> R) : Prop := forall f lo hi, lo <= hi -> lo <= minimise f lo hi <= hi.
(** the derivative of the log-likelihood of the Weibull law with respect to the shape, divided by n, at the best scale *)
Definition shape_score (l : list R) (t : R) : R :=
  1 / t + Rsum (map ln l) / INR (length l) - Rsum (map (fun x => Rpower x t * ln x) l) / Rsum (map (fun x => Rpower x t) l).
(** the log-likelihood of the two-parameter Weibull law with scale [eta] and shape [beta] *)
Definition weibull_loglik (eta beta : R) (l : list R) : R :=
  Rsum (map (fun x => ln beta - beta * ln eta + (beta - 1) * ln x - Rpower (x / eta) beta) l).
(** the arcsine scale of the stabilised probability plot *)
Definition arcsine (p : R) : R := 2 / PI * asin (sqrt p).
(** largest distance in the stabilised probability plot when the smallest observation is paired with the smallest plotting position *)
Definition stabilised_distance (F : R -> R) (l : list R) (d : R) : Prop :=
  let n := length l in
  (exists i, (i < n)%nat /\ d = Rabs (arcsine ((INR i + 1 / 2) / INR n) - arcsine (F (nth i (rsort l) 0)))) /\
  (forall i, (i < n)%nat -> Rabs (arcsine ((INR i + 1 / 2) / INR n) - arcsine (F (nth i (rsort l) 0))) <= d).
(** statistics that depend on the sample and the law only through the distribution function at the observations *)
Definition cdf_based_weibull : list string := [
  "MinToshiyukiWeibullGofStatistic"; "LillieforsWeibullGofStatistic"; "CrammerVonMisesWeibullGofStatistic";
  "KolmogorovSmirnovWeibullGofStatistic"; "MahdiDoostparastWeibullGofStatistic"; "WatsonWeibullGofStatistic"; "LiaoShimokawaWeibullGofStatistic"].
(** statistics of the hypothesis that the law is Weibull with any scale and shape *)
Definition composite_weibull : list string := [
  "ST1WeibullGofStatistic"; "ST2WeibullGofStatistic"; "RSBWeibullGofStatistic"; "TikuSinghWeibullGofStatistic";
  "LOSWeibullGofStatistic"; "MSFWeibullGofStatistic"; "REJGWeibullGofStatistic"].
(** statistics whose value depends on the order of the observations *)
Definition order_dependent_weibull : list string := ["RSBWeibullGofStatistic"].
(** statistics that fail on every sample *)
Definition broken_weibull : list string := [
  "AndersonDarlingWeibullGofStatistic"; "LaplaceTransform2WeibullGofStatistic"; "LaplaceTransform3WeibullGofStatistic"].
