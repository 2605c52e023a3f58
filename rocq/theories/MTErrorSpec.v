(** Error rates of a multiple-testing method on random p-values, as functions of the public
    [test] entry point only. *)
From Verif Require Import Base MTModel MTSpec ProbSpec.

(** rejection flags returned by [test] (never the [Raise] branch on valid p-values,
    see [mt_test_ok]) *)
Definition decisions (mt : method) (p : list R) (threshold : R) : list bool :=
  match mt_test mt p threshold with Ok (r, _) => r | Raise _ => [] end.

(** probability of at least one false rejection *)
Definition FWER {Om} (E : (Om -> R) -> R) (mt : method) (m : nat) (nulls : nat -> bool)
    (X : Om -> list R) (threshold : R) : R :=
  Pr E (fun w => some_false_rejection m nulls (decisions mt (X w) threshold)).

(** expected proportion of false rejections *)
Definition FDR {Om} (E : (Om -> R) -> R) (mt : method) (m : nat) (nulls : nat -> bool)
    (X : Om -> list R) (threshold : R) : R :=
  E (fun w => fdp m nulls (decisions mt (X w) threshold)).

(** a random vector of m p-values whose true nulls are super-uniform *)
Definition valid_null_pvalues {Om} (E : (Om -> R) -> R) (m : nat) (nulls : nat -> bool)
    (X : Om -> list R) : Prop :=
  (forall w, length (X w) = m /\ pvalues (X w)) /\
  (forall i, (i < m)%nat -> nulls i = true -> superuniform E (fun w => nth i (X w) 0)).
