(** Minimal probability vocabulary.  An expectation is any positive, normalised, linear functional on
    the bounded functions of a sample space.  Expectations of finite weighted spaces are instances
    (see [finite_expectation]); so is the expectation of any probability measure, extended to all
    bounded functions.  Theorems proved for all such functionals hold for all of them. *)
From Verif Require Import Base.

Definition bounded {Om : Type} (f : Om -> R) : Prop := exists M, forall w, Rabs (f w) <= M.

Record is_expectation {Om : Type} (E : (Om -> R) -> R) : Prop := {
  E_lin : forall a b f g, bounded f -> bounded g ->
            E (fun w => a * f w + b * g w) = a * E f + b * E g;
  E_mono : forall f g, bounded f -> bounded g -> (forall w, f w <= g w) -> E f <= E g;
  E_one : E (fun _ => 1) = 1 }.

Definition ind (b : bool) : R := if b then 1 else 0.
(** probability of an event *)
Definition Pr {Om} (E : (Om -> R) -> R) (A : Om -> bool) : R := E (fun w => ind (A w)).

(** a p-value is super-uniform (valid) when P(X <= t) <= t for every level t *)
Definition superuniform {Om} (E : (Om -> R) -> R) (X : Om -> R) : Prop :=
  forall t, 0 <= t <= 1 -> Pr E (fun w => Rleb (X w) t) <= t.

(** ** Finite weighted spaces *)
Definition finite_expectation {Om} (pts : list (R * Om)) (f : Om -> R) : R :=
  Rsum (map (fun p => fst p * f (snd p)) pts).
Definition weights {Om} (pts : list (R * Om)) : Prop :=
  (forall p, In p pts -> 0 <= fst p) /\ Rsum (map fst pts) = 1.

(** ** Multiple testing vocabulary; [r] is the list of rejection flags, [nulls] marks true nulls *)
Definition rejected_at (r : list bool) (i : nat) : bool := nth i r false.
(** some true null among hypotheses 0..m-1 is rejected *)
Definition some_false_rejection (m : nat) (nulls : nat -> bool) (r : list bool) : bool :=
  existsb (fun i => nulls i && rejected_at r i) (seq 0 m).
Definition false_rejections (m : nat) (nulls : nat -> bool) (r : list bool) : nat :=
  count (fun i => nulls i && rejected_at r i) (seq 0 m).
Definition rejections (m : nat) (r : list bool) : nat := count (rejected_at r) (seq 0 m).
(** false discovery proportion, 0 when nothing is rejected *)
Definition fdp (m : nat) (nulls : nat -> bool) (r : list bool) : R :=
  if Nat.eqb (rejections m r) 0 then 0 else INR (false_rejections m nulls r) / INR (rejections m r).
Definition null_count (m : nat) (nulls : nat -> bool) : nat := count nulls (seq 0 m).

(** the true-null coordinates are independent: probabilities of upper orthants factorise *)
Fixpoint Rprod (l : list R) : R := match l with [] => 1 | x :: l' => x * Rprod l' end.
Definition independent_nulls {Om} (E : (Om -> R) -> R) (m : nat) (nulls : nat -> bool)
    (X : nat -> Om -> R) : Prop :=
  forall t : nat -> R,
    Pr E (fun w => forallb (fun i => Rleb (t i) (X i w)) (filter nulls (seq 0 m)))
    = Rprod (map (fun i => Pr E (fun w => Rleb (t i) (X i w))) (filter nulls (seq 0 m))).
