(** Notions used in the statements about gamma statistics. *)
From Verif Require Import Base EdfSpec.
Local Open Scope R_scope.

(** what is used of the gamma distribution with unit scale: for every positive shape a continuous distribution function
    that is 0 on the negative half line, strictly increasing on the positive one and below 1, and its inverse *)
Record gamma_law (G Q : R -> R -> R) : Prop := {
  gl_cdf : forall a, 0 < a -> continuous_cdf (G a);
  gl_zero : forall a x, 0 < a -> x <= 0 -> G a x = 0;
  gl_increasing : forall a x y, 0 < a -> 0 <= x -> x < y -> G a x < G a y;
  gl_below_one : forall a x, 0 < a -> G a x < 1;
  gl_inverse : forall a p, 0 < a -> 0 < p < 1 -> G a (Q a p) = p }.
(** the distribution with shape 1 *)
Definition exponential_cdf (x : R) : R := 1 - exp (- Rmax 0 x).
Definition exponential_ppf (p : R) : R := - ln (1 - p).
(** another unit of measurement *)
Definition rescale (c : R) (l : list R) : list R := map (fun x => c * x) l.
(** the quantiles at the plotting positions (i - 3/8) / (n + 1/4) *)
Definition blom_quantiles (quantile : R -> R) (n : nat) : list R :=
  map (fun i => quantile ((INR i - 3 / 8) / (INR n + 1 / 4))) (seq 1 n).
