(** Notions for the search in a table of kernel values, independent of the model. *)
From Verif Require Import Base.
Local Open Scope R_scope.

(** the values do not increase from entry to entry in both directions of an h1 x h2 table with indices from 1 *)
Definition falling (h1 h2 : nat) (c : nat -> nat -> R) : Prop :=
  forall k k' i i', (1 <= k <= k')%nat -> (k' <= h1)%nat -> (1 <= i <= i')%nat -> (i' <= h2)%nat -> c k' i' <= c k i.
(** all entries of the table *)
Definition entries (h1 h2 : nat) (c : nat -> nat -> R) : list R := flat_map (fun i => map (fun k => c k i) (seq 1 h1)) (seq 1 h2).
(** number of values above, and of values not below, a bound *)
Definition above_count (b : R) (l : list R) : nat := length (filter (fun v => Rltb b v) l).
Definition reach_count (b : R) (l : list R) : nat := length (filter (fun v => Rleb b v) l).
