(** Notions used to state the behaviour of the Brys-Hubert-Struyf statistic, independent of the model. *)
From Verif Require Import Base.
From Coq Require Import Sorted Permutation.
Local Open Scope R_scope.

(** observations in decreasing order *)
Definition decreasing (y : list R) : Prop := StronglySorted Rge y.
(** the middle of a decreasing list, and the distance of its ends *)
Definition centre (y : list R) : R := (nth ((length y - 1) / 2) y 0 + nth (length y / 2) y 0) / 2.
Definition spread (y : list R) : R := nth 0 y 0 - nth (length y - 1) y 0.
(** no observation but the middle one of an odd number comes within some rounding errors of the median *)
Definition clear_of_centre (y : list R) : Prop :=
  let e := (1 + Rabs (centre y) + spread y) / 10 ^ 15 in
  forall i, (i < length y)%nat ->
    ((i < length y / 2)%nat -> e < nth i y 0 - centre y) /\
    (((length y + 1) / 2 <= i)%nat -> e < centre y - nth i y 0).
(** a quarter of the way from the top the sample is farther from its median than a quarter of the way from the
    bottom *)
Definition leans_up (y : list R) : Prop :=
  let h := ((length y + 1) / 2)%nat in
  2 * centre y < nth (h / 2) y 0 + nth (length y / 2 + (h + 1) / 2 - 2) y 0.
(** mirror image of itself *)
Definition symmetric (y : list R) : Prop :=
  forall i, (i < length y)%nat -> nth i y 0 + nth (length y - 1 - i) y 0 = 2 * centre y.

(** a program that uses rounds of a loop: it returns when some number of rounds is enough *)
Definition returns {A : Type} (run : nat -> option A) (v : A) : Prop := exists fuel, run fuel = Some v.
Definition never_returns {A : Type} (run : nat -> option A) : Prop := forall fuel, run fuel = None.
