(** Textbook definitions of multiple-testing procedures, written without reference to the
    implementation: order statistics, step-up / step-down adjusted p-values, harmonic numbers. *)
From Verif Require Import Base.

(** every entry is a probability *)
Definition pvalues (p : list R) : Prop := forall x, In x p -> 0 <= x <= 1.

(** k-th smallest value, k = 1 .. length p *)
Definition order_stat (p : list R) (k : nat) : R := nth (k - 1) (rsort p) 0.

Definition is_min_of (S : R -> Prop) (v : R) : Prop := S v /\ forall w, S w -> v <= w.
Definition is_max_of (S : R -> Prop) (v : R) : Prop := S v /\ forall w, S w -> w <= v.

(** Step-up adjusted p-value of a hypothesis with raw p-value [x], for rank factors [a k]:
    the smallest of 1 and of [a k * p_(k)] over the ranks whose order statistic is at least [x]. *)
Definition step_up_adjusted (a : nat -> R) (p : list R) (x v : R) : Prop :=
  is_min_of (fun w => w = 1 \/
     exists k, (1 <= k <= length p)%nat /\ x <= order_stat p k /\ w = a k * order_stat p k) v.

(** Step-down adjusted p-value with per-rank transform [t k y]: the largest of [min 1 (t k p_(k))]
    over the ranks whose order statistic is at most [x]. *)
Definition step_down_adjusted (t : nat -> R -> R) (p : list R) (x v : R) : Prop :=
  is_max_of (fun w =>
     exists k, (1 <= k <= length p)%nat /\ order_stat p k <= x /\ w = Rmin 1 (t k (order_stat p k))) v.

(** harmonic number 1 + 1/2 + ... + 1/m *)
Fixpoint harmonic (m : nat) : R :=
  match m with O => 0 | S m' => harmonic m' + / INR (S m') end.

(** Holm (1979): factors m, m-1, ..., 1, step down *)
Definition holm_adjusted (p : list R) (x v : R) : Prop :=
  step_down_adjusted (fun k y => INR (length p - k + 1) * y) p x v.
(** Holm-Sidak step down *)
Definition holm_sidak_adjusted (p : list R) (x v : R) : Prop :=
  step_down_adjusted (fun k y => 1 - (1 - y) ^ (length p - k + 1)) p x v.
(** Hochberg (1988): same factors as Holm, step up *)
Definition hochberg_adjusted (p : list R) (x v : R) : Prop :=
  step_up_adjusted (fun k => INR (length p - k + 1)) p x v.
(** Benjamini-Yekutieli (2001) with correction [c]: factors m*c/k, step up *)
Definition by_adjusted (c : R) (p : list R) (x v : R) : Prop :=
  step_up_adjusted (fun k => INR (length p) * c / INR k) p x v.

(** position-wise relation between two vectors *)
Definition pointwise (Q : R -> R -> Prop) (p a : list R) : Prop :=
  length a = length p /\ forall i, (i < length p)%nat -> Q (nth i p 0) (nth i a 0).
