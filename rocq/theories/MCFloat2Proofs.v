(** Proofs about critical values in binary64. *)
From Verif Require Import Base DecModel DecSpec DecProofs MTFloat MTFloatModel MTFloatSpec MTFloatProofs MTFloatClaims MCFloatModel MCFloatSpec MCFloatProofs.
From Flocq Require Import Core.
From Coq Require Import Sorted Permutation Lra Lia.
Local Existing Instance b64_valid.

Definition least : R := bpow radix2 (-1074).
Lemma b64_gap x y : is_b64 x -> is_b64 y -> x < y -> least <= y - x.
Proof.
  intros Hx Hy H. unfold is_b64, b64 in *.
  apply generic_format_FIX_FLT in Hx. apply FIX_format_generic in Hx. destruct Hx as [[m e] -> He]. simpl in He. subst e.
  apply generic_format_FIX_FLT in Hy. apply FIX_format_generic in Hy. destruct Hy as [[k e] -> He]. simpl in He. subst e.
  unfold F2R in *. cbn [Fnum Fexp] in *. fold least in *. assert (P : 0 < least) by apply bpow_gt_0.
  assert (M : (m < k)%Z). { apply lt_IZR. apply (Rmult_lt_reg_r least); assumption. }
  assert (1 <= IZR k - IZR m). { rewrite <- minus_IZR. apply IZR_le. lia. } nra.
Qed.
Lemma dn_half D : least <= D -> exists y, is_b64 y /\ y <= D /\ fl D <= 2 * y.
Proof.
  intros H. assert (P : 0 < least) by apply bpow_gt_0. set (e := mag radix2 D). assert (M : bpow radix2 (e - 1) <= Rabs D < bpow radix2 e) by (apply bpow_mag_le || (unfold e; split; [apply bpow_mag_le; lra|apply bpow_mag_gt])).
  rewrite Rabs_pos_eq in M by lra. assert (E : (-1073 <= e)%Z).
  { destruct (Z_lt_le_dec e (-1073)) as [L|]; [|assumption]. exfalso. assert (bpow radix2 e <= least) by (apply bpow_le; lia). lra. }
  assert (B : is_b64 (bpow radix2 (e - 1))) by (apply generic_format_bpow; unfold b64, FLT_exp; lia).
  exists (bpow radix2 (e - 1)). split; [exact B|]. split; [lra|].
  apply fl_le; [now apply b64_double|]. replace (2 * bpow radix2 (e - 1)) with (bpow radix2 e); [lra|].
  change 2 with (bpow radix2 1). rewrite <- bpow_plus. f_equal. lia.
Qed.
Lemma step_bound D t : D = 0 \/ least <= D -> 0 <= t <= 1 / 2 -> 0 <= fl (fl D * t) <= D.
Proof.
  intros [->|H] T; [rewrite fl_0, Rmult_0_l, fl_0; lra|]. destruct (dn_half D H) as (y & By & Ly & Fy). assert (P : 0 < least) by apply bpow_gt_0.
  assert (F0 : 0 <= fl D) by (apply fl_nonneg; lra). split; [apply fl_nonneg; nra|].
  apply (Rle_trans _ y); [|exact Ly]. apply fl_le; [exact By|]. nra.
Qed.
Lemma lerp_between lo hi t : is_b64 lo -> is_b64 hi -> lo <= hi -> 0 <= t <= 1 -> lo <= lerp_float lo hi t <= hi.
Proof.
  intros Bl Bh H T. assert (D : hi - lo = 0 \/ least <= hi - lo) by (destruct H as [H| ->]; [right; now apply b64_gap|left; ring]).
  unfold lerp_float. destruct (Rleb_spec (1 / 2) t) as [G|G].
  - assert (C : 0 <= fl (1 - t) <= 1 / 2) by (split; [apply fl_nonneg; lra|apply fl_le; [apply b64_half|lra]]).
    pose proof (step_bound _ _ D C). split; [apply fl_ge; [exact Bl|lra]|apply fl_le; [exact Bh|lra]].
  - pose proof (step_bound _ t D ltac:(lra)). split; [apply fl_ge; [exact Bl|lra]|apply fl_le; [exact Bh|lra]].
Qed.

Lemma strict_nth a : StronglySorted Rlt a -> forall i j, (i < j < length a)%nat -> nth i a 0 < nth j a 0.
Proof.
  intros Hs. induction Hs as [|x a Hs IH Hf]; intros i j Hij; [simpl in Hij; lia|]. rewrite Forall_forall in Hf.
  destruct j as [|j]; [lia|]. simpl in Hij. destruct i as [|i]; simpl; [apply Hf, nth_In; lia|apply IH; lia].
Qed.
Lemma strict_neighbours a k : StronglySorted Rlt a -> (k + 1 < length a)%nat -> neighbours a (nth k a 0) (nth (k + 1) a 0).
Proof.
  intros Hs Hk. pose proof (strict_nth a Hs) as Sm.
  split; [apply nth_In; lia|]. split; [apply nth_In; lia|]. split; [left; apply Sm; lia|].
  intros x Hx. apply (In_nth _ _ 0) in Hx as (i & Hi & <-). destruct (lt_eq_lt_dec i k) as [[L| ->]|L]; [left; left; apply Sm; lia|left; right; reflexivity|].
  destruct (Nat.eq_dec i (k + 1)) as [->|]; [right; right; reflexivity|right; left; apply Sm; lia].
Qed.
Lemma quantile_float limit q : simulated limit -> (forall x, In x limit -> is_b64 x) -> is_b64 q -> 0 <= q <= 1 ->
  exists c k, np_quantile_float (ecdf_quantiles limit) q = Ok c /\ let a := ecdf_quantiles limit in let last := (length a - 1)%nat in
    (k <= last)%nat /\ (1 - ulp_half) * (INR last * q) - 1 < INR k <= (1 + ulp_half) * (INR last * q) /\
    ((k = last /\ c = nth last a 0) \/ ((k + 1 <= last)%nat /\ nth k a 0 <= c <= nth (k + 1) a 0)).
Proof.
  intros [Ne Big] B64 Bq Q. set (a := ecdf_quantiles limit).
  assert (Na : a <> []) by now apply quantiles_nonempty. assert (La : (length a <= length limit)%nat).
  { apply NoDup_incl_length; [|intros x; apply quantiles_in]. clear. unfold a. pose proof (quantiles_strict limit) as H. induction H as [|x l H IH F]; constructor; trivial. rewrite Forall_forall in F. intros I. specialize (F x I). lra. }
  assert (L1 : (1 <= length a)%nat) by (destruct a; [contradiction|simpl; lia]).
  unfold np_quantile_float. destruct (Rleb_spec 0 q); [|lra]. destruct (Rleb_spec q 1); [|lra]. cbn [andb negb].
  destruct a as [|a0 a'] eqn:Ea; [contradiction|]. rewrite <- Ea in *. cbv zeta. set (last := (length a - 1)%nat).
  assert (OI : of_int last = INR last) by (apply of_int_exact; unfold last; lia). rewrite OI. set (h := fl (INR last * q)).
  assert (P : 0 <= INR last) by apply pos_INR.
  assert (W : within ulp_half (INR last * q) h) by (unfold h; rewrite (Rmult_comm (INR last)); apply fl_multiple; lra || exact Bq). unfold within in W.
  assert (H1 : h <= INR last) by (apply fl_le; [apply b64_int; unfold last; lia|nra]). assert (Hh : 0 <= h) by (apply fl_nonneg; nra).
  destruct (Rleb_spec (INR last) h) as [G|G].
  - exists (nth last a 0), last. split; [reflexivity|]. split; [lia|]. split; [lra|]. left; auto.
  - pose proof (floor_nat_spec h Hh) as F. set (k := floor_nat h) in *. assert (K : (k < last)%nat) by (apply INR_lt; lra).
    exists (lerp_float (nth k a 0) (nth (k + 1) a 0) (fl (h - of_int k))), k. split; [reflexivity|]. split; [lia|]. split; [lra|]. right. split; [lia|].
    rewrite of_int_exact by (unfold last in *; lia). destruct (strict_neighbours a k) as (I1 & I2 & I3 & _); [apply quantiles_strict|unfold last in *; lia|].
    apply lerp_between; trivial.
    + apply B64. apply quantiles_in. exact I1.
    + apply B64. apply quantiles_in. exact I2.
    + split; [apply fl_nonneg; lra|apply fl_le; [apply b64_one|lra]].
Qed.
Lemma quantile_float_between limit q c : simulated limit -> (forall x, In x limit -> is_b64 x) -> is_b64 q -> 0 <= q <= 1 ->
  np_quantile_float (ecdf_quantiles limit) q = Ok c -> exists lo hi, neighbours limit lo hi /\ lo <= c <= hi.
Proof.
  intros S B Bq Q E. destruct (quantile_float limit q S B Bq Q) as (c' & k & E' & H). rewrite E in E'. injection E' as <-. cbv zeta in H. destruct H as (K & _ & C).
  pose proof (quantiles_strict limit) as St. set (a := ecdf_quantiles limit) in *. assert (In' : forall x, In x a <-> In x limit) by (intros; apply quantiles_in).
  destruct C as [[-> ->]|[K1 C]].
  - exists (nth (length a - 1) a 0), (nth (length a - 1) a 0). split; [|lra]. assert (a <> []) by (apply quantiles_nonempty, S).
    assert (I : In (nth (length a - 1) a 0) a) by (apply nth_In; destruct a; [contradiction|simpl; lia]). split; [now apply In'|]. split; [now apply In'|]. split; [lra|].
    intros x Hx. left. apply In' in Hx. apply (In_nth _ _ 0) in Hx as (i & Hi & <-).
    destruct (Nat.eq_dec i (length a - 1)) as [->|N]; [lra|]. left. apply (strict_nth a St). lia.
  - exists (nth k a 0), (nth (k + 1) a 0). split; [|exact C]. destruct (strict_neighbours a k St) as (I1 & I2 & I3 & I4); [lia|].
    split; [now apply In'|]. split; [now apply In'|]. split; [exact I3|]. intros x Hx. apply I4, In', Hx.
Qed.
