(** Specification vocabulary for statistics of the empirical distribution function. *)
From Verif Require Import Base.

(** empirical distribution function of a sample: fraction of observations <= x *)
Definition edf (sample : list R) (x : R) : R :=
  INR (length (filter (fun y => Rleb y x) sample)) / INR (length sample).

(** a continuous distribution function (limits at infinity are not needed) *)
Definition continuous_cdf (F : R -> R) : Prop :=
  (forall x y, x <= y -> F x <= F y) /\ (forall x, 0 <= F x <= 1) /\ continuity F.

(** [s] is the supremum of the values of f over all reals *)
Definition supremum (f : R -> R) (s : R) : Prop := is_lub (fun v => exists x, v = f x) s.

(** rotation of the circle [0,1) by an angle t in [0,1) *)
Definition rotate (t v : R) : R := if Rltb (v + t) 1 then v + t else v + t - 1.

(** classical closed forms, on any list u of n values in [0,1] and their ascending rearrangement *)
Definition order_stat (u : list R) (i : nat) : R := nth i (rsort u) 0.
