(** The correction factor of Benjamini-Yekutieli for more than 10000 hypotheses. *)
From Verif Require Import Base MTModel MTSpec MTProofs Analysis.
From Coq Require Import NArith.

Lemma ln50_upper : ln 50 <= 3.912033.
Proof.
  assert (H0 : ln (50) <= 2 * ln 7.07106781186548) by (apply ln_le_sqrt_step; lra).
  assert (H1 : ln (7.07106781186548) <= 2 * ln 2.65914794847250) by (apply ln_le_sqrt_step; lra).
  assert (H2 : ln (2.65914794847250) <= 2 * ln 1.63068940895332) by (apply ln_le_sqrt_step; lra).
  assert (H3 : ln (1.63068940895332) <= 2 * ln 1.27698449832147) by (apply ln_le_sqrt_step; lra).
  assert (H4 : ln (1.27698449832147) <= 2 * ln 1.13003738801930) by (apply ln_le_sqrt_step; lra).
  assert (H5 : ln (1.13003738801930) <= 2 * ln 1.06303216697300) by (apply ln_le_sqrt_step; lra).
  assert (H6 : ln (1.06303216697300) <= 2 * ln 1.03103451298829) by (apply ln_le_sqrt_step; lra).
  assert (H7 : ln (1.03103451298829) <= 2 * ln 1.01539869656618) by (apply ln_le_sqrt_step; lra).
  assert (H8 : ln (1.01539869656618) <= 2 * ln 1.00766993433673) by (apply ln_le_sqrt_step; lra).
  assert (H9 : ln (1.00766993433673) <= 2 * ln 1.00382764174770) by (apply ln_le_sqrt_step; lra).
  assert (K := ln_trapezoid 1.00382764174770 ltac:(lra)).
  lra.
Qed.
Lemma ln50h_lower : 3.921968 <= ln (101/2).
Proof.
  assert (H0 : 2 * ln 7.10633520177594 <= ln (101/2)) by (apply ln_ge_sqrt_step; lra).
  assert (H1 : 2 * ln 2.66577103326147 <= ln (7.10633520177594)) by (apply ln_ge_sqrt_step; lra).
  assert (H2 : 2 * ln 1.63271890822072 <= ln (2.66577103326147)) by (apply ln_ge_sqrt_step; lra).
  assert (H3 : 2 * ln 1.27777889645302 <= ln (1.63271890822072)) by (apply ln_ge_sqrt_step; lra).
  assert (H4 : 2 * ln 1.13038882533976 <= ln (1.27777889645302)) by (apply ln_ge_sqrt_step; lra).
  assert (H5 : 2 * ln 1.06319745359917 <= ln (1.13038882533976)) by (apply ln_ge_sqrt_step; lra).
  assert (H6 : 2 * ln 1.03111466559212 <= ln (1.06319745359917)) by (apply ln_ge_sqrt_step; lra).
  assert (H7 : 2 * ln 1.01543816433701 <= ln (1.03111466559212)) by (apply ln_ge_sqrt_step; lra).
  assert (H8 : 2 * ln 1.00768951782630 <= ln (1.01543816433701)) by (apply ln_ge_sqrt_step; lra).
  assert (H9 : 2 * ln 1.00383739610870 <= ln (1.00768951782630)) by (apply ln_ge_sqrt_step; lra).
  assert (K := ln_midpoint 1.00383739610870 ltac:(lra)).
  assert (E : 0.003830047 <= 2 * (1.00383739610870 - 1) / (1.00383739610870 + 1)) by lra.
  lra.
Qed.

Lemma harmonic50_lower : 4.499205 <= harmonic 50.
Proof. rewrite <- harmonic_sum. cbn [seq map Rsum]. rewrite !INR_IZR_INZ. simpl Z.of_nat. lra. Qed.
Lemma harmonic50_upper : harmonic 50 <= 4.499206.
Proof. rewrite <- harmonic_sum. cbn [seq map Rsum]. rewrite !INR_IZR_INZ. simpl Z.of_nat. lra. Qed.

(** H_n - ln n - 1/(2n) does not decrease *)
Lemma harmonic_lower_step n : (1 <= n)%nat ->
  harmonic n - ln (INR n) - / (2 * INR n) <= harmonic (S n) - ln (INR (S n)) - / (2 * INR (S n)).
Proof.
  intros Hn. cbn [harmonic]. assert (Hp : 1 <= INR n) by (apply INR_ge1; lia).
  rewrite S_INR. set (x := INR n) in *.
  assert (H := ln_trapezoid ((x + 1) / x)).
  assert (1 <= (x + 1) / x).
  { apply (Rmult_le_reg_r x); [lra|]. unfold Rdiv. rewrite Rmult_assoc, Rinv_l by lra. lra. }
  specialize (H H0). rewrite ln_quot in H by lra.
  replace (((x + 1) / x - / ((x + 1) / x)) / 2) with
    (/ (2 * x) + / (x + 1) - / (2 * (x + 1))) in H by (field; lra).
  lra.
Qed.
(** H_n - ln (n + 1/2) does not increase *)
Lemma harmonic_upper_step n : (1 <= n)%nat ->
  harmonic (S n) - ln (INR (S n) + 1/2) <= harmonic n - ln (INR n + 1/2).
Proof.
  intros Hn. cbn [harmonic]. assert (Hp : 1 <= INR n) by (apply INR_ge1; lia).
  rewrite S_INR. set (x := INR n) in *.
  assert (H := ln_midpoint ((x + 1 + 1/2) / (x + 1/2))).
  assert (1 <= (x + 1 + 1/2) / (x + 1/2)).
  { apply (Rmult_le_reg_r (x + 1/2)); [lra|]. unfold Rdiv at 2. rewrite Rmult_assoc, Rinv_l by lra. lra. }
  specialize (H H0). rewrite ln_quot in H by lra.
  replace (2 * ((x + 1 + 1 / 2) / (x + 1 / 2) - 1) / ((x + 1 + 1 / 2) / (x + 1 / 2) + 1))
    with (/ (x + 1)) in H by (field; lra).
  lra.
Qed.

Lemma harmonic_lower n : (50 <= n)%nat ->
  harmonic 50 - ln 50 - / 100 <= harmonic n - ln (INR n) - / (2 * INR n).
Proof.
  induction 1 as [|n Hn IH].
  - replace (INR 50) with 50 by (simpl; lra). lra.
  - eapply Rle_trans; [exact IH|]. apply harmonic_lower_step; lia.
Qed.
Lemma harmonic_upper n : (50 <= n)%nat ->
  harmonic n - ln (INR n + 1/2) <= harmonic 50 - ln (101/2).
Proof.
  induction 1 as [|n Hn IH].
  - replace (INR 50 + 1/2) with (101/2) by (simpl; lra). lra.
  - eapply Rle_trans; [|exact IH]. apply harmonic_upper_step; lia.
Qed.

Lemma by_factor_large n : (10000 < N.of_nat n)%N -> by_factor n = ln (INR n) + gamma_literal.
Proof.
  intros H. unfold by_factor. rewrite (proj2 (N.ltb_lt _ _) H). reflexivity.
Qed.

Definition big_m : nat := N.to_nat 10001.
Lemma big_m_INR : INR big_m = 10001.
Proof. unfold big_m. rewrite INR_IZR_INZ, N_nat_Z. reflexivity. Qed.

(** with 10001 hypotheses the factor is strictly below the harmonic number *)
Lemma by_factor_below_harmonic : by_factor big_m < harmonic big_m.
Proof.
  rewrite by_factor_large by (unfold big_m; rewrite N2Nat.id; reflexivity).
  assert (H := harmonic_lower big_m ltac:(unfold big_m; lia)).
  rewrite big_m_INR in *. pose proof ln50_upper. pose proof harmonic50_lower.
  unfold gamma_literal. lra.
Qed.

(** for every m > 10000 the harmonic number exceeds the factor by less than 1/10000 *)
Lemma harmonic_le_by_factor n : (10000 < N.of_nat n)%N -> harmonic n <= by_factor n + / 10000.
Proof.
  intros Hn. rewrite by_factor_large by exact Hn.
  assert (Hn' : 10000 <= INR n).
  { rewrite INR_IZR_INZ. apply IZR_le. lia. }
  assert (H := harmonic_upper n ltac:(lia)).
  pose proof ln50h_lower. pose proof harmonic50_upper.
  assert (ln (INR n + 1/2) <= ln (INR n) + / 20000).
  { assert (Hl := ln_le_sub1 ((INR n + 1/2) * / INR n)).
    assert (0 < / INR n) by (apply Rinv_0_lt_compat; lra).
    rewrite ln_mult, ln_Rinv in Hl; try lra.
    assert (/ INR n <= / 10000) by (apply Rinv_le_contravar; lra).
    assert (0 < (INR n + 1/2) * / INR n) by (apply Rmult_lt_0_compat; lra).
    specialize (Hl H4). rewrite Rmult_plus_distr_r, Rinv_r in Hl by lra. lra. }
  unfold gamma_literal. lra.
Qed.
Lemma by_factor_large_ge n : (10000 < N.of_nat n)%N -> 4 <= by_factor n.
Proof.
  intros Hn. rewrite by_factor_large by exact Hn.
  assert (Hn' : 10000 <= INR n).
  { rewrite INR_IZR_INZ. apply IZR_le. lia. }
  assert (ln (101/2) <= ln (INR n)) by (apply Analysis.ln_le; lra).
  pose proof ln50h_lower. unfold gamma_literal. lra.
Qed.
