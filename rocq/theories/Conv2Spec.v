(** Independent repetitions of a law with finitely many values. *)
From Verif Require Import Base ProbSpec.

(** the expectation of a function of n independent draws *)
Fixpoint repeated {A} (law : list (R * A)) (n : nat) (f : list A -> R) : R :=
  match n with O => f [] | S n' => finite_expectation law (fun a => repeated law n' (fun w => f (a :: w))) end.
(** the distribution function of the value v under the law *)
Definition law_cdf {A} (law : list (R * A)) (v : A -> R) (x : R) : R := Pr (finite_expectation law) (fun a => Rleb (v a) x).
