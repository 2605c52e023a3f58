(** Lemmas about the Student statistics. *)
From Coq Require Import String.
From Verif Require Import Base DecModel EdfModel EdfSpec GraphModel NormalLaw ExpModel NormModel StudentModel StudentSpec
  EdfProofs EdfRotProofs EdfPowerProofs NormProofs NormSymProofs NormReflProofs NormFiniteProofs EdfClaims.
From Coq Require Import Lra Lia.
Local Open Scope R_scope.

Lemma cauchy_inside x : 0 < cauchy_cdf x < 1.
Proof.
  unfold cauchy_cdf. pose proof (atan_bound x) as H. pose proof PI_RGT_0 as HP.
  assert (E1 : - (1 / 2) < atan x / PI) by (apply (Rmult_lt_reg_r PI); [lra|]; unfold Rdiv at 2; rewrite Rmult_assoc, Rinv_l by lra; lra).
  assert (E2 : atan x / PI < 1 / 2) by (apply (Rmult_lt_reg_r PI); [lra|]; unfold Rdiv at 1; rewrite Rmult_assoc, Rinv_l by lra; lra).
  lra.
Qed.
Lemma cauchy_increasing x y : x < y -> cauchy_cdf x < cauchy_cdf y.
Proof.
  intros H. unfold cauchy_cdf. pose proof (atan_increasing x y H). pose proof PI_RGT_0 as HP.
  apply Rplus_lt_compat_l. apply Rmult_lt_compat_r; [apply Rinv_0_lt_compat; lra|auto].
Qed.
Lemma cauchy_law : student_law (fun _ => cauchy_cdf) (fun _ => cauchy_ppf).
Proof.
  split.
  - intros _ _. split; [|split].
    + intros x y [H|<-]; [left; now apply cauchy_increasing|lra].
    + intros x. pose proof (cauchy_inside x). lra.
    + unfold cauchy_cdf. apply continuity_plus; [apply continuity_const; intros a b; reflexivity|].
      apply continuity_mult; [|apply continuity_const; intros a b; reflexivity].
      apply derivable_continuous. intros x. apply derivable_pt_atan.
  - intros _ x _. apply cauchy_inside.
  - intros _ x y _. apply cauchy_increasing.
  - intros _ x _. unfold cauchy_cdf. rewrite atan_opp. pose proof PI_RGT_0. field. lra.
  - intros _ p _ Hp. unfold cauchy_cdf, cauchy_ppf. pose proof PI_RGT_0. rewrite atan_tan by nra. field. lra.
Qed.

Section Law.
Variables (T Q : R -> R -> R).
Hypothesis HL : student_law T Q.
Variables (df loc scale : R).
Hypotheses (Hdf : 0 < df) (Hs : 0 < scale).
Let F := student_cdf T df loc scale.
Lemma std_le x y : x <= y -> (x - loc) / scale <= (y - loc) / scale.
Proof. intros H. apply Rmult_le_compat_r; [left; now apply Rinv_0_lt_compat|lra]. Qed.
Lemma std_lt x y : x < y -> (x - loc) / scale < (y - loc) / scale.
Proof. intros H. apply Rmult_lt_compat_r; [now apply Rinv_0_lt_compat|lra]. Qed.
Lemma student_continuous : continuous_cdf F.
Proof.
  destruct (sl_cdf _ _ HL df Hdf) as (A & B & C). split; [|split].
  - intros x y H. apply A, std_le, H.
  - intros x. apply B.
  - unfold F, student_cdf. apply (continuity_comp (fun x => (x - loc) / scale) (T df)); [|exact C].
    apply continuity_mult; [apply continuity_minus; [apply derivable_continuous, derivable_id|]|];
      apply continuity_const; intros a b; reflexivity.
Qed.
Lemma student_inside x : 0 < F x < 1. Proof. apply (sl_inside _ _ HL), Hdf. Qed.
Lemma student_increasing x y : x < y -> F x < F y.
Proof. intros H. apply (sl_increasing _ _ HL); [exact Hdf|now apply std_lt]. Qed.
Lemma student_mono x y : x <= y -> F x <= F y. Proof. apply (proj1 student_continuous). Qed.
End Law.

(** clipping *)
Lemma eps_small : 0 < clip_eps < / 4.
Proof. unfold clip_eps. lra. Qed.
Lemma clip_range u : clip_eps <= np_clip u <= 1 - clip_eps.
Proof. pose proof eps_small. unfold np_clip, Rmin, Rmax. repeat destruct (Rle_dec _ _); lra. Qed.
Lemma clip_inside u : 0 < np_clip u < 1.
Proof. pose proof eps_small. pose proof (clip_range u). lra. Qed.
Lemma clip_flip u : np_clip (1 - u) = 1 - np_clip u.
Proof. pose proof eps_small. unfold np_clip, Rmin, Rmax. repeat destruct (Rle_dec _ _); lra. Qed.
Lemma clip_lt u v : u < v -> u < 1 - clip_eps -> clip_eps < v -> np_clip u < np_clip v.
Proof. intros. pose proof eps_small. unfold np_clip, Rmin, Rmax. repeat destruct (Rle_dec _ _); lra. Qed.

(** the Zhang statistics *)
Lemma zc_term2_pos n i : 0 < zc_term2 n i.
Proof. unfold zc_term2. destruct (Rleb_spec ((n - 0.5) / INR (S i) - 1) 0); lra. Qed.
Lemma imap_sum_nonneg (f : nat -> R -> R) l : (forall i x, 0 <= f i x) -> 0 <= Rsum (imap f l).
Proof.
  intros H. induction l as [|x l IH] using rev_ind; [simpl; lra|]. rewrite imap_snoc, Rsum_app. cbn [Rsum fold_right].
  pose proof (H (length l) x). lra.
Qed.
Lemma zhang_zc_nonneg u : 0 <= zhang_zc_of u.
Proof.
  apply imap_sum_nonneg. intros i x. apply pow2_ge_0.
Qed.
Lemma zc_last n : (0 < n)%nat -> zc_term2 (INR n) (n - 1) = / 10 ^ 10.
Proof.
  intros H. unfold zc_term2. replace (S (n - 1)) with n by lia. assert (HN : 0 < INR n) by (apply lt_0_INR; lia).
  rewrite (proj2 (Rleb_true _ _)); [reflexivity|]. replace ((INR n - 0.5) / INR n - 1) with (- (0.5 / INR n)) by (field; lra).
  assert (0 < 0.5 / INR n) by (apply Rdiv_lt_0_compat; lra). lra.
Qed.
Lemma zhang_zc_snoc u x : zhang_zc_of (u ++ [x]) =
  Rsum (imap (fun i v => ln ((1 / v - 1) / zc_term2 (len u + 1) i) ^ 2) u) + ln ((1 / x - 1) / / 10 ^ 10) ^ 2.
Proof.
  unfold zhang_zc_of. rewrite imap_snoc, Rsum_app, len_snoc. f_equal. cbn [Rsum fold_right]. rewrite Rplus_0_r.
  replace (len u + 1) with (INR (length u + 1)) by (rewrite plus_INR; reflexivity).
  replace (length u) with (length u + 1 - 1)%nat at 2 by lia. now rewrite zc_last by lia.
Qed.
Lemma odds_lt x y : clip_eps <= x -> x < y -> y <= 1 - clip_eps ->
  1 < (1 / y - 1) / / 10 ^ 10 < (1 / x - 1) / / 10 ^ 10.
Proof.
  intros Hx Hxy Hy. pose proof eps_small as He. unfold clip_eps in *. set (e := / 10 ^ 10) in *. split.
  - apply (Rmult_lt_reg_r e); [lra|]. unfold Rdiv at 1. rewrite Rmult_assoc, Rinv_l by lra.
    rewrite Rmult_1_r, Rmult_1_l. apply (Rmult_lt_reg_r y); [lra|]. unfold Rdiv. rewrite Rmult_minus_distr_r.
    rewrite Rmult_assoc, Rinv_l by lra. nra.
  - apply Rmult_lt_compat_r; [apply Rinv_0_lt_compat; lra|]. unfold Rdiv. rewrite !Rmult_1_l.
    pose proof (Rinv_lt_contravar x y ltac:(nra) Hxy). lra.
Qed.
Lemma sq_ln_lt a b : 1 < a < b -> ln a ^ 2 < ln b ^ 2.
Proof.
  intros [H1 H2]. assert (0 < ln a) by (rewrite <- ln_1; apply ln_increasing; lra).
  assert (ln a < ln b) by (apply ln_increasing; lra). nra.
Qed.
Lemma zhang_za_pos u : u <> [] -> (forall x, In x u -> 0 < x < 1) -> 0 < zhang_za_of u.
Proof.
  intros Hu H. unfold zhang_za_of.
  assert (Hln : forall x, 0 < x < 1 -> ln x < 0) by (intros x Hx; rewrite <- ln_1; apply ln_increasing; lra).
  set (f := fun i x => ln x / (len u - INR (S i) + 0.5)). set (g := fun i x => ln (1 - x) / (INR (S i) - 0.5)).
  assert (Hf : forall i x, nth_error u i = Some x -> f i x < 0).
  { intros i x Hi. unfold f. assert (Hx := Hln x (H x (nth_error_In _ _ Hi))).
    assert (L : (i < length u)%nat) by (apply nth_error_Some; rewrite Hi; discriminate).
    assert (INR (S i) <= len u) by (apply le_INR; lia).
    apply Ropp_lt_cancel. rewrite Ropp_0. unfold Rdiv. rewrite <- Ropp_mult_distr_l_reverse.
    apply Rmult_lt_0_compat; [lra|apply Rinv_0_lt_compat; lra]. }
  assert (Hg : forall i x, nth_error u i = Some x -> g i x < 0).
  { intros i x Hi. unfold g. pose proof (H x (nth_error_In _ _ Hi)). assert (Hx := Hln (1 - x) ltac:(lra)).
    assert (0 < INR i + 1) by (pose proof (pos_INR i); lra). rewrite S_INR.
    apply Ropp_lt_cancel. rewrite Ropp_0. unfold Rdiv. rewrite <- Ropp_mult_distr_l_reverse.
    apply Rmult_lt_0_compat; [lra|apply Rinv_0_lt_compat; pose proof (pos_INR i); lra]. }
  assert (Hneg : forall h : nat -> R -> R, (forall i x, nth_error u i = Some x -> h i x < 0) -> Rsum (imap h u) < 0).
  { intros h Hh. clear f g Hf Hg Hln H. revert Hu h Hh.
    induction u as [|x v IH] using rev_ind; [congruence|]. intros _ h Hh. rewrite imap_snoc, Rsum_app. cbn [Rsum fold_right].
    assert (Hx : h (length v) x < 0) by (apply Hh; rewrite nth_error_app2, Nat.sub_diag by lia; reflexivity).
    destruct v as [|y v']; [cbn [imap imap_from Rsum fold_right]; lra|].
    assert (Rsum (imap h (y :: v')) < 0); [apply IH; [discriminate|]|lra].
    intros i z Hi. apply Hh. rewrite nth_error_app1; [exact Hi|]. apply nth_error_Some. rewrite Hi. discriminate. }
  pose proof (Hneg f Hf). pose proof (Hneg g Hg). lra.
Qed.
Lemma map_clip_flip u : map np_clip (flip u) = flip (map np_clip u).
Proof. unfold flip. rewrite map_rev, !map_map. f_equal. apply map_ext. intros x. apply clip_flip. Qed.
Lemma zhang_za_flip u : zhang_za_of (flip u) = zhang_za_of u.
Proof.
  unfold zhang_za_of. rewrite flip_len.
  rewrite (imap_flip_sum _ (fun i x => ln (1 - x) / (INR (S i) - 0.5))).
  2:{ intros i v Hi _. rewrite S_INR, INR_rev by exact Hi. rewrite S_INR. unfold len. apply (f_equal2 Rdiv); [reflexivity|lra]. }
  rewrite (imap_flip_sum (fun i x => ln (1 - x) / (INR (S i) - 0.5)) (fun i x => ln x / (len u - INR (S i) + 0.5))).
  2:{ intros i v Hi _. rewrite S_INR, INR_rev by exact Hi. rewrite S_INR. unfold len. apply (f_equal2 Rdiv); [apply (f_equal ln); lra|lra]. }
  ring.
Qed.
(** mirrored histograms *)
Lemma pd1_sum obs e : e <> 0 -> pd_sum 1 obs (repeat e (length obs)) = Some (Rsum (map (fun o => (o - e) ^ 2 / e) obs)).
Proof.
  intros He. induction obs as [|o obs IH]; [reflexivity|]. cbn [length repeat pd_sum]. rewrite IH. unfold pd_term.
  rewrite (proj2 (Reqb_true 1 1)), (proj2 (Reqb_false e 0)) by auto. reflexivity.
Qed.

Lemma count_map {A} (f : A -> A) p q (l : list A) : (forall x, In x l -> p (f x) = q x) ->
  length (filter p (map f l)) = length (filter q l).
Proof.
  induction l as [|x l IH]; intros H; [reflexivity|]. simpl. rewrite (H x) by (left; reflexivity).
  destruct (q x); simpl; rewrite IH; auto; intros y Hy; apply H; now right.
Qed.
Lemma histogram_mirror inner z : sortedR inner -> antisym inner -> (forall x, In x z -> ~ In x inner) ->
  histogram inner (neg z) = rev (histogram inner z).
Proof.
  intros Hs Hr Hz. apply (nth_ext _ _ 0%nat 0%nat); [now rewrite rev_length, !histogram_length|].
  intros i Hi. rewrite histogram_length in Hi. rewrite rev_nth by (rewrite histogram_length; lia). rewrite histogram_length.
  rewrite !histogram_nth by (auto; lia). apply count_map. intros x Hx.
  set (m := length inner) in *.
  assert (Y : forall j, (j < m)%nat -> nth (m - 1 - j) inner 0 = - nth j inner 0) by (intros j Hj; apply antisym_nth; auto).
  replace (S m - S i)%nat with (m - i)%nat by lia.
  assert (A : (if (i <? m)%nat then Rltb (- x) (nth i inner 0) else true) =
              match (m - i)%nat with 0%nat => true | S j => Rleb (nth j inner 0) x end).
  { destruct (Nat.ltb_spec i m) as [L|L].
    - destruct (m - i)%nat as [|j] eqn:E; [lia|]. replace j with (m - 1 - i)%nat by lia.
      rewrite Y by lia.
      assert (N : x <> - nth i inner 0) by (intros ->; apply (Hz _ Hx); rewrite <- Y by lia; apply nth_In; unfold m in *; lia).
      destruct (Rltb_spec (- x) (nth i inner 0)), (Rleb_spec (- nth i inner 0) x); auto; lra.
    - now replace (m - i)%nat with 0%nat by lia. }
  assert (B : match i with 0%nat => true | S j => Rleb (nth j inner 0) (- x) end =
              (if (m - i <? m)%nat then Rltb x (nth (m - i) inner 0) else true)).
  { destruct i as [|j].
    - rewrite Nat.sub_0_r. now rewrite Nat.ltb_irrefl.
    - rewrite (proj2 (Nat.ltb_lt _ _)) by lia. replace (m - S j)%nat with (m - 1 - j)%nat by lia.
      rewrite Y by lia.
      assert (N : x <> - nth j inner 0) by (intros ->; apply (Hz _ Hx); rewrite <- Y by lia; apply nth_In; unfold m in *; lia).
      destruct (Rltb_spec x (- nth j inner 0)), (Rleb_spec (nth j inner 0) (- x)); auto; lra. }
  rewrite A, B. apply andb_comm.
Qed.
