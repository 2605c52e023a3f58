(** Specification vocabulary for Monte-Carlo p-values, critical values and decisions. *)
From Verif Require Import Base ProbSpec DecModel.

(** fraction of the values of [l] satisfying [P] *)
Definition fraction (P : R -> bool) (l : list R) : R := INR (count P l) / INR (length l).

(** [Z] is an exchangeable random vector of length [m]: permuting its coordinates changes the
    expectation of no bounded function *)
Definition exchangeable {Om} (E : (Om -> R) -> R) (m : nat) (Z : Om -> list R) : Prop :=
  (forall w, length (Z w) = m) /\
  forall (pi : list nat), Permutation pi (seq 0 m) ->
  forall f : list R -> R, (exists M, forall z, Rabs (f z) <= M) ->
    E (fun w => f (map (fun i => nth i (Z w) 0) pi)) = E (fun w => f (Z w)).

(** the resolver behind method [m] yields this limit distribution for the statistic and size *)
Definition resolves_to (m : decision_method) (st : statistic) (n : nat) (limit : list R) : Prop :=
  match m with PValueMethod r | CriticalValueMethod r => r st n = Ok (Some limit) end.

Definition rejects (m : decision_method) (st : statistic) (v level : R) (n : nat) : Prop :=
  exists r, decide m st v level n = Ok r /\ tr_rejected r = true.
Definition accepts (m : decision_method) (st : statistic) (v level : R) (n : nat) : Prop :=
  exists r, decide m st v level n = Ok r /\ tr_rejected r = false.

(** the j-th value of a list plays the observed statistic, the others the simulation *)
Definition others (j : nat) (z : list R) : list R := firstn j z ++ skipn (S j) z.
(** number of positions of [z] at which the event [A simulated observed] happens *)
Definition hits (A : list R -> R -> bool) (z : list R) : nat :=
  count (fun j => A (others j z) (nth j z 0)) (seq 0 (length z)).
