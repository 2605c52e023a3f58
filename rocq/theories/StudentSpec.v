(** Notions used in the statements about Student statistics. *)
From Coq Require Import String.
From Verif Require Import Base DecModel EdfSpec.
Local Open Scope string_scope.
Local Open Scope R_scope.

(** what is used of the t distribution: for every positive number of degrees of freedom a continuous, strictly
    increasing distribution function on the whole line, symmetric around 0, and its inverse *)
Record student_law (T Q : R -> R -> R) : Prop := {
  sl_cdf : forall df, 0 < df -> continuous_cdf (T df);
  sl_inside : forall df x, 0 < df -> 0 < T df x < 1;
  sl_increasing : forall df x y, 0 < df -> x < y -> T df x < T df y;
  sl_symmetric : forall df x, 0 < df -> T df (- x) = 1 - T df x;
  sl_inverse : forall df p, 0 < df -> 0 < p < 1 -> T df (Q df p) = p }.
(** the t distribution with one degree of freedom (Cauchy) *)
Definition cauchy_cdf (x : R) : R := 1 / 2 + atan x / PI.
Definition cauchy_ppf (p : R) : R := tan (PI * (p - 1 / 2)).
(** change of location and scale *)
Definition relocate (a b : R) (l : list R) : list R := map (fun x => a + b * x) l.
