(** Large numbers of simulated values: draws, their law, and the decision an infinite simulation would give. *)
From Verif Require Import Base ProbSpec DecModel DecSpec SizeSpec.
From Coq Require Import ListDec.

(** the first n draws *)
Definition draws {Om} (n : nat) (S : nat -> Om -> R) (w : Om) : list R := map (fun i => S i w) (seq 0 n).
(** the first n draws have the distribution function F and are pairwise independent *)
Record independent_draws {Om} (E : (Om -> R) -> R) (n : nat) (S : nat -> Om -> R) (F : R -> R) : Prop := {
  draw_law : forall i x, (i < n)%nat -> Pr E (fun w => Rleb (S i w) x) = F x;
  draw_pairs : forall i j x y, (i < n)%nat -> (j < n)%nat -> i <> j ->
    Pr E (fun w => Rleb (S i w) x && Rleb (S j w) y) = F x * F y }.
(** some value occurs twice *)
Definition has_ties (l : list R) : bool := if NoDup_dec Req_EM_T l then false else true.
(** the exact p-value of the observed value v under the law F *)
Definition exact_p_value (F : R -> R) (alt : alternative) (v : R) : R :=
  match alt with LEFT => F v | RIGHT => 1 - F v | TWO_TAILED => 2 * Rmin (F v) (1 - F v) end.
