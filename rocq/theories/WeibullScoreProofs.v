(** The expected order statistics of [gofns] (weibull.py:541-570) increase strictly. *)
From Verif Require Import Base WeibullModel Analysis.
From Coq Require Import Lra Lia Psatz.
From Coquelicot Require Import Coquelicot.
Local Open Scope R_scope.

(** the scores as a function of L = - log (1 - p) and eps = 1/(n + 2) *)
Definition score (eps L : R) : R :=
  let w := exp L - 1 in let s := / L in
  ln L + eps / 2 * (w * (s - s ^ 2))
  + eps ^ 2 * (w / 3 * (2 * s - 3 * s ^ 2 + 2 * s ^ 3) + w ^ 2 * (s / 12 - 3 / 8 * s ^ 2 + 5 / 6 * s ^ 3 - 3 / 4 * s ^ 4)).
Lemma gofns_score n i : (i < n)%nat ->
  gofns_at n i = score (/ (INR n + 2)) (- ln (1 - INR (S i) / (INR n + 1))).
Proof.
  intros Hi. unfold gofns_at, score. pose proof (pos_INR n) as Hn. assert (Hp : 0 < INR (S i)) by (apply lt_0_INR; lia).
  assert (Hq : INR (S i) < INR n + 1) by (rewrite <- S_INR; apply lt_INR; lia).
  set (p := INR (S i) / (INR n + 1)). assert (P : 0 < p < 1).
  { unfold p. split; [apply Rdiv_lt_0_compat; lra|]. apply (Rmult_lt_reg_r (INR n + 1)); [lra|]. unfold Rdiv. rewrite Rmult_assoc, Rinv_l; lra. }
  set (L := - ln (1 - p)). assert (EL : ln (1 - p) = - L) by (unfold L; ring).
  assert (HL : 0 < L) by (unfold L; rewrite <- Ropp_0; apply Ropp_lt_contravar; rewrite <- ln_1; apply ln_increasing; lra).
  assert (EX : exp L = / (1 - p)) by (unfold L; rewrite exp_Ropp, exp_ln; lra). rewrite EX, EL.
  assert (1 - p <> 0) by lra. assert (L <> 0) by lra. field. repeat split; lra.
Qed.
Definition score' (eps L : R) : R :=
  let w := exp L - 1 in let s := / L in
  s + eps / 2 * ((1 + w) * (s - s ^ 2) + w * (2 * s ^ 3 - s ^ 2))
  + eps ^ 2 * ((1 + w) / 3 * (2 * s - 3 * s ^ 2 + 2 * s ^ 3) + w / 3 * (6 * s ^ 3 - 2 * s ^ 2 - 6 * s ^ 4)
               + 2 * w * (1 + w) * (s / 12 - 3 / 8 * s ^ 2 + 5 / 6 * s ^ 3 - 3 / 4 * s ^ 4)
               + w ^ 2 * (3 / 4 * s ^ 3 - s ^ 2 / 12 - 5 / 2 * s ^ 4 + 3 * s ^ 5)).
Lemma score_derive eps L : 0 < L -> is_derive (score eps) L (score' eps L).
Proof. intros H. unfold score, score'. auto_derive; [repeat split; lra|]. field. lra. Qed.
Lemma score'_pos eps L : 0 <= eps -> 0 < L -> 0 < score' eps L.
Proof.
  intros He HL. pose proof (exp_ineq1 L ltac:(lra)) as E1. set (w := exp L - 1) in *. assert (Hw : 0 < w) by (unfold w; lra).
  assert (U1 : L <= w) by (unfold w; lra). assert (U2 : 2 * w <= L * (w + 2)).
  { pose proof (ln_midpoint (exp L) ltac:(lra)) as M. rewrite ln_exp in M. apply (Rmult_le_compat_r (exp L + 1)) in M; [|lra].
    unfold Rdiv in M. rewrite Rmult_assoc, Rinv_l in M by lra. unfold w. lra. }
  assert (Hs : 0 < / L) by now apply Rinv_0_lt_compat. set (s := / L) in *. set (u := w * s). assert (Es : s = u / w) by (unfold u; field; lra).
  assert (Hu1 : 1 <= u). { unfold u, s. apply (Rmult_le_reg_r L); [lra|]. rewrite Rmult_assoc, Rinv_l; lra. }
  assert (Hu2 : u <= 1 + w / 2). { unfold u, s. apply (Rmult_le_reg_r L); [lra|]. rewrite Rmult_assoc, Rinv_l; lra. }
  set (d := u - 1). set (e := w - 2 * d). assert (Hd : 0 <= d) by (unfold d; lra). assert (Hee : 0 <= e) by (unfold e, d; lra).
  assert (Eu : u = 1 + d) by (unfold d; ring). assert (Ew : w = 2 * d + e) by (unfold e; ring).
  set (A := 2 * d ^ 2 + 2 * d * e + d + (e ^ 2 - e + 1)).
  set (B := (1 / 6 * (1 - 2 * e) ^ 2 + e ^ 4 / 6) + d * (3 / 2 - 5 / 3 * e + 29 / 12 * e ^ 2 + e ^ 3 / 2) + d ^ 2 * (13 / 6 + 2 * e + 17 / 12 * e ^ 2)
            + d ^ 3 * (17 / 6 + e) + 2 / 3 * d ^ 4).
  assert (HA : 0 < A). { unfold A. assert (0 < e ^ 2 - e + 1) by nra. assert (0 <= d * e) by nra. nra. }
  assert (HB : 0 <= B).
  { unfold B. assert (0 <= (1 - 2 * e) ^ 2) by apply pow2_ge_0. assert (0 <= e ^ 4) by now apply pow_le. assert (0 <= e ^ 3) by now apply pow_le.
    assert (0 <= 3 / 2 - 5 / 3 * e + 29 / 12 * e ^ 2 + e ^ 3 / 2) by nra. assert (0 <= 13 / 6 + 2 * e + 17 / 12 * e ^ 2) by nra.
    assert (0 <= d ^ 2) by now apply pow_le. assert (0 <= d ^ 3) by now apply pow_le. assert (0 <= d ^ 4) by now apply pow_le.
    assert (0 <= d * (3 / 2 - 5 / 3 * e + 29 / 12 * e ^ 2 + e ^ 3 / 2)) by now apply Rmult_le_pos.
    assert (0 <= d ^ 2 * (13 / 6 + 2 * e + 17 / 12 * e ^ 2)) by now apply Rmult_le_pos.
    assert (0 <= d ^ 3 * (17 / 6 + e)) by (apply Rmult_le_pos; lra). lra. }
  assert (K : score' eps L = s * (1 + eps * (A / (2 * w)) + eps ^ 2 * (B / w ^ 2))).
  { unfold score'. fold w s. rewrite Es. unfold A, B. assert (Ed : d = u - 1) by reflexivity. assert (Ee : e = w - 2 * (u - 1)) by (unfold e; now rewrite Ed).
    clearbody d e u w. clear - Ed Ee Hw. subst e d. field. lra. }
  rewrite K. apply Rmult_lt_0_compat; trivial. assert (0 <= A / (2 * w)) by (apply Rlt_le, Rdiv_lt_0_compat; lra).
  assert (0 <= B / w ^ 2) by (apply Rmult_le_pos; [trivial|]; apply Rlt_le, Rinv_0_lt_compat, pow_lt; lra).
  assert (0 <= eps * (A / (2 * w))) by now apply Rmult_le_pos. assert (0 <= eps ^ 2 * (B / w ^ 2)) by (apply Rmult_le_pos; trivial; apply pow2_ge_0). lra.
Qed.
Lemma score_increasing eps x y : 0 <= eps -> 0 < x -> x < y -> score eps x < score eps y.
Proof.
  intros He Hx Hxy. apply (derive_pos_lt (score eps) (score' eps)); trivial; intros c Hc; [apply score_derive; lra|apply score'_pos; lra].
Qed.
Lemma gofns_increasing n i j : (i < j)%nat -> (j < n)%nat -> gofns_at n i < gofns_at n j.
Proof.
  intros Hij Hj. rewrite !gofns_score by lia. pose proof (pos_INR n) as Hn.
  assert (Hi : 0 < INR (S i)) by (apply lt_0_INR; lia). assert (Hl : INR (S i) < INR (S j)) by (apply lt_INR; lia).
  assert (Hq : INR (S j) < INR n + 1) by (rewrite <- S_INR; apply lt_INR; lia).
  assert (D : forall a, a / (INR n + 1) * (INR n + 1) = a) by (intros a; field; lra).
  assert (Pi : 0 < INR (S i) / (INR n + 1)) by (apply Rdiv_lt_0_compat; lra).
  assert (Pij : INR (S i) / (INR n + 1) < INR (S j) / (INR n + 1)) by (apply (Rmult_lt_reg_r (INR n + 1)); [lra|]; rewrite !D; lra).
  assert (Pj : INR (S j) / (INR n + 1) < 1) by (apply (Rmult_lt_reg_r (INR n + 1)); [lra|]; rewrite D; lra).
  apply score_increasing.
  - apply Rlt_le, Rinv_0_lt_compat. lra.
  - rewrite <- Ropp_0. apply Ropp_lt_contravar. rewrite <- ln_1. apply ln_increasing; lra.
  - apply Ropp_lt_contravar, ln_increasing; lra.
Qed.
