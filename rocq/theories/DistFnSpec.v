(** Moments, densities and laws, written without the functions of the model. *)
From Verif Require Import Base.
From Coquelicot Require Import Coquelicot.

(** k-th raw moment of a sample *)
Definition raw_moment (l : list R) (k : nat) : R := Rsum (map (fun x => x ^ k) l) / INR (length l).
(** k-th moment about c *)
Definition moment_about (c : R) (l : list R) (k : nat) : R := Rsum (map (fun x => (x - c) ^ k) l) / INR (length l).
(** [Phi] is a distribution function of the standard normal law up to a constant: its derivative is the density *)
Definition standard_normal (Phi : R -> R) : Prop := forall x, is_derive Phi x (exp (- x ^ 2 / 2) / sqrt (2 * PI)).
(** the sample is symmetric about c *)
Definition symmetric_about (c : R) (l : list R) : Prop := Permutation (map (fun x => 2 * c - x) l) l.
(** values not bounded from above, respectively kept within m *)
Definition unbounded_above (Q : R -> R) : Prop := forall m, exists u, 0 < u < 1 /\ m < Q u.
Definition within_range (Q : R -> R) (m : R) : Prop := forall u, 0 < u < 1 -> - m < Q u < m.
