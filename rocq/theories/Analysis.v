(** Real-analysis facts used by several modules. *)
From Verif Require Import Base.
From Coquelicot Require Import Coquelicot.

(** a function with non-negative derivative on [a,b] does not decrease *)
Lemma derive_nonneg_le f f' a b : a <= b ->
  (forall c, a <= c <= b -> is_derive f c (f' c)) -> (forall c, a < c < b -> 0 <= f' c) ->
  f a <= f b.
Proof.
  intros Hab Hd Hp. destruct (Req_dec a b) as [->|Hne]; [lra|].
  destruct (MVT_cor2 f f' a b) as (c & Hc & Hin); [lra| |].
  - intros c Hc. apply is_derive_Reals, Hd, Hc.
  - specialize (Hp c Hin). nra.
Qed.
Lemma derive_pos_lt f f' a b : a < b ->
  (forall c, a <= c <= b -> is_derive f c (f' c)) -> (forall c, a < c < b -> 0 < f' c) ->
  f a < f b.
Proof.
  intros Hab Hd Hp.
  destruct (MVT_cor2 f f' a b) as (c & Hc & Hin); [lra| |].
  - intros c Hc. apply is_derive_Reals, Hd, Hc.
  - specialize (Hp c Hin). nra.
Qed.

(** ln y <= (y - 1/y)/2 for y >= 1 (trapezoid bound) *)
Lemma ln_trapezoid y : 1 <= y -> ln y <= (y - / y) / 2.
Proof.
  intros Hy.
  assert (H : (fun x => (x - / x) / 2 - ln x) 1 <= (fun x => (x - / x) / 2 - ln x) y).
  { apply (derive_nonneg_le (fun x => (x - / x) / 2 - ln x) (fun x => (1 - / x) ^ 2 / 2)); [exact Hy| |].
    - intros c Hc. auto_derive; [split; lra|]. field; lra.
    - intros c Hc. assert (0 <= (1 - / c) ^ 2) by (apply pow2_ge_0). lra. }
  cbv beta in H. rewrite ln_1, Rinv_1 in H. lra.
Qed.
(** ln y >= 2 (y-1)/(y+1) for y >= 1 (midpoint bound) *)
Lemma ln_midpoint y : 1 <= y -> 2 * (y - 1) / (y + 1) <= ln y.
Proof.
  intros Hy.
  assert (H : (fun x => ln x - 2 * (x - 1) / (x + 1)) 1 <= (fun x => ln x - 2 * (x - 1) / (x + 1)) y).
  { apply (derive_nonneg_le (fun x => ln x - 2 * (x - 1) / (x + 1)) (fun x => (x - 1) ^ 2 / (x * (x + 1) ^ 2))); [exact Hy| |].
    - intros c Hc. auto_derive; [repeat split; lra|]. field; lra.
    - intros c Hc. apply Rmult_le_pos; [apply pow2_ge_0|].
      left. apply Rinv_0_lt_compat. apply Rmult_lt_0_compat; [lra|]. apply pow_lt; lra. }
  cbv beta in H. rewrite ln_1 in H. lra.
Qed.

Lemma ln_le_sqrt_step x r : 0 < x -> 0 < r -> x <= r * r -> ln x <= 2 * ln r.
Proof.
  intros Hx Hr H. replace (2 * ln r) with (ln (r * r)) by (rewrite ln_mult by assumption; ring).
  destruct (Req_dec x (r * r)) as [->|]; [lra|]. left; apply ln_increasing; lra.
Qed.
Lemma ln_ge_sqrt_step x r : 0 < r -> r * r <= x -> 2 * ln r <= ln x.
Proof.
  intros Hr H. replace (2 * ln r) with (ln (r * r)) by (rewrite ln_mult by assumption; ring).
  destruct (Req_dec x (r * r)) as [->|]; [lra|]. left; apply ln_increasing; nra.
Qed.
Lemma ln_le x y : 0 < x -> x <= y -> ln x <= ln y.
Proof. intros Hx H. destruct (Req_dec x y) as [->|]; [lra|]. left; apply ln_increasing; lra. Qed.
(** ln x <= x - 1 *)
Lemma ln_le_sub1 x : 0 < x -> ln x <= x - 1.
Proof.
  intros Hx. pose proof (exp_ineq1_le (ln x)). rewrite exp_ln in H by exact Hx. lra.
Qed.
Lemma ln_quot x y : 0 < x -> 0 < y -> ln (x / y) = ln x - ln y.
Proof.
  intros Hx Hy. unfold Rdiv. rewrite ln_mult, ln_Rinv; auto using Rinv_0_lt_compat; ring.
Qed.
