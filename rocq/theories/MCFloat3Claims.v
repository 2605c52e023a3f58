(** Property C115: the critical values of double precision are critical values of exact arithmetic at a
    neighbouring level, up to the rounding of the interpolation. *)
From Verif Require Import Base DecModel DecSpec DecProofs MTFloat MTFloatModel MTFloatSpec MTFloatProofs MTFloatClaims MCFloatModel MCFloatSpec MCFloatProofs MCFloat2Proofs MCFloatClaims.
From Flocq Require Import Core Sterbenz.
From Coq Require Import Lra Lia.
Local Existing Instance b64_valid.
Local Instance b64_monotone : Monotone_exp b64 := FLT_exp_monotone (-1074) 53.

Lemma fl_err x : Rabs (fl x - x) <= ulp_half * Rabs x + least.
Proof.
  pose proof (Rmult_le_pos _ _ (Rlt_le _ _ ulp_half_pos) (Rabs_pos x)). assert (L : 0 < least) by apply bpow_gt_0.
  destruct (Rlt_or_le (Rabs x) (bpow radix2 (-1022))) as [S|B]; [|pose proof (fl_error x B); lra].
  assert (E : Rabs (fl x - x) <= / 2 * ulp radix2 b64 x) by (apply error_le_half_ulp; auto with typeclass_instances).
  assert (U : ulp radix2 b64 x = least).
  { apply (@ulp_FLT_small radix2 (-1074) 53 eq_refl). replace (-1074 + 53)%Z with (-1021)%Z by reflexivity.
    apply (Rlt_trans _ _ _ S). apply bpow_lt. lia. }
  lra.
Qed.
Lemma rabs_in x b : Rabs x <= b <-> - b <= x <= b.
Proof. split; [intros H; apply Rabs_le_inv in H; lra|intros H; apply Rabs_le; lra]. Qed.
(** one interpolation step of width D from one end *)
Lemma step_err D t M : D = 0 \/ least <= D -> 0 <= t <= 1 / 2 -> D <= 2 * M ->
  Rabs (fl (fl D * t) - D * t) <= 3 * ulp_half * M + 2 * least.
Proof.
  intros HD T HM. assert (L : 0 < least) by apply bpow_gt_0. pose proof ulp_half_pos as U. pose proof ulp_half_small as US.
  assert (D0 : 0 <= D) by (destruct HD; lra).
  pose proof (fl_err D) as E1. rewrite (Rabs_pos_eq D) in E1 by lra. assert (F0 : 0 <= fl D) by (apply fl_nonneg; lra).
  pose proof (fl_err (fl D * t)) as E2. rewrite (Rabs_pos_eq (fl D * t)) in E2 by nra.
  apply rabs_in in E1. apply rabs_in in E2. apply rabs_in.
  assert (UD : ulp_half * D <= 2 * (ulp_half * M)) by nra.
  assert (Q : ulp_half * D <= D) by nra.
  assert (FD : fl D <= 2 * D + least) by lra.
  assert (A : ulp_half * (fl D * t) <= ulp_half * (D + least / 2)) by (apply Rmult_le_compat_l; [lra|nra]).
  assert (B : - (1 / 2 * (ulp_half * D + least)) <= fl D * t - D * t <= 1 / 2 * (ulp_half * D + least)) by nra.
  assert (Z : ulp_half * (least / 2) <= least / 2) by nra.
  lra.
Qed.
Lemma lerp_err lo hi t M : is_b64 lo -> is_b64 hi -> is_b64 t -> lo <= hi -> 0 <= t <= 1 -> Rabs lo <= M -> Rabs hi <= M ->
  Rabs (lerp_float lo hi t - (lo + (hi - lo) * t)) <= 4 * ulp_half * M + 3 * least.
Proof.
  intros Bl Bh Bt H T Ml Mh. apply rabs_in in Ml. apply rabs_in in Mh. pose proof ulp_half_pos as U.
  assert (D : hi - lo = 0 \/ least <= hi - lo) by (destruct H as [H| ->]; [right; now apply b64_gap|left; ring]).
  unfold lerp_float. destruct (Rleb_spec (1 / 2) t) as [G|G].
  - assert (ES : fl (1 - t) = 1 - t).
    { apply fl_id. apply sterbenz; auto with typeclass_instances; [apply b64_one|lra]. }
    rewrite ES. pose proof (step_bound _ (1 - t) D ltac:(lra)) as SB. pose proof (step_err _ (1 - t) M D ltac:(lra) ltac:(lra)) as SE.
    set (p := fl (fl (hi - lo) * (1 - t))) in *. pose proof (fl_err (hi - p)) as E.
    assert (A : Rabs (hi - p) <= M) by (apply rabs_in; lra).
    assert (A2 : ulp_half * Rabs (hi - p) <= ulp_half * M) by (apply Rmult_le_compat_l; lra).
    apply rabs_in in E. apply rabs_in in SE. apply rabs_in. lra.
  - pose proof (step_bound _ t D ltac:(lra)) as SB. pose proof (step_err _ t M D ltac:(lra) ltac:(lra)) as SE.
    set (p := fl (fl (hi - lo) * t)) in *. pose proof (fl_err (lo + p)) as E.
    assert (A : Rabs (lo + p) <= M) by (apply rabs_in; lra).
    assert (A2 : ulp_half * Rabs (lo + p) <= ulp_half * M) by (apply Rmult_le_compat_l; lra).
    apply rabs_in in E. apply rabs_in in SE. apply rabs_in. lra.
Qed.

Lemma floor_nat_int n : floor_nat (INR n) = n.
Proof.
  pose proof (floor_nat_spec (INR n) (pos_INR n)) as H. set (k := floor_nat (INR n)) in *.
  assert (k <= n)%nat by (apply INR_le; lra). assert (n < k + 1)%nat by (apply INR_lt; rewrite plus_INR; simpl; lra). lia.
Qed.
Lemma quantile_backward limit q c M : simulated limit -> (forall x, In x limit -> is_b64 x /\ Rabs x <= M) -> is_b64 q -> 0 <= q <= 1 ->
  np_quantile_float (ecdf_quantiles limit) q = Ok c ->
  exists q' e, 0 <= q' <= 1 /\ Rabs (q' - q) <= ulp_half * q /\ np_quantile (ecdf_quantiles limit) q' = Ok e /\
    Rabs (c - e) <= 4 * ulp_half * M + 3 * least.
Proof.
  intros [Ne Big] B64 Bq Q. set (a := ecdf_quantiles limit).
  assert (Na : a <> []) by now apply quantiles_nonempty. assert (La : (length a <= length limit)%nat).
  { apply NoDup_incl_length; [|intros x; apply quantiles_in]. clear. unfold a. pose proof (quantiles_strict limit) as H. induction H as [|x l H IH F]; constructor; trivial. rewrite Forall_forall in F. intros I. specialize (F x I). lra. }
  assert (L1 : (1 <= length a)%nat) by (destruct a; [contradiction|simpl; lia]).
  assert (M0 : 0 <= M). { destruct limit as [|x l]; [contradiction|]. destruct (B64 x (or_introl eq_refl)) as [_ HM]. pose proof (Rabs_pos x). lra. }
  assert (L : 0 < least) by apply bpow_gt_0. pose proof ulp_half_pos as U.
  assert (Bd : 0 <= 4 * ulp_half * M + 3 * least) by nra.
  unfold np_quantile_float. destruct (Rleb_spec 0 q); [|lra]. destruct (Rleb_spec q 1); [|lra]. cbn [andb negb].
  destruct a as [|a0 a'] eqn:Ea; [contradiction|]. rewrite <- Ea in *. cbv zeta. set (last := (length a - 1)%nat).
  assert (OI : of_int last = INR last) by (apply of_int_exact; unfold last; lia). rewrite OI. set (h := fl (INR last * q)).
  assert (P : 0 <= INR last) by apply pos_INR.
  assert (W : within ulp_half (INR last * q) h) by (unfold h; rewrite (Rmult_comm (INR last)); apply fl_multiple; lra || exact Bq). unfold within in W.
  assert (H1 : h <= INR last) by (apply fl_le; [apply b64_int; unfold last; lia|nra]). assert (Hh : 0 <= h) by (apply fl_nonneg; nra).
  assert (Exact : forall q', 0 <= q' <= 1 -> np_quantile a q' =
    Ok (nth (floor_nat (INR last * q')) a 0 + (nth (Nat.min (floor_nat (INR last * q') + 1) last) a 0 - nth (floor_nat (INR last * q')) a 0) * (INR last * q' - INR (floor_nat (INR last * q'))))).
  { intros q' Q'. unfold np_quantile. destruct (Rleb_spec 0 q'); [|lra]. destruct (Rleb_spec q' 1); [|lra]. cbn [andb negb]. rewrite Ea at 1. reflexivity. }
  destruct (Nat.eq_dec last 0) as [Z|NZ].
  { assert (IZ : INR last = 0) by (rewrite Z; reflexivity). intros E. exists q, (nth last a 0). split; [lra|]. split; [rewrite Rminus_eq_0, Rabs_R0; nra|].
    assert (F0 : floor_nat (INR last * q) = 0%nat).
    { replace (INR last * q) with (INR 0) by (rewrite IZ; simpl; ring). apply floor_nat_int. }
    split.
    - rewrite (Exact q) by lra. rewrite F0, Z. simpl. f_equal. ring.
    - destruct (Rleb_spec (INR last) h); [|lra]. injection E as <-. rewrite Rminus_eq_0, Rabs_R0. exact Bd. }
  assert (LP : 0 < INR last) by (apply lt_0_INR; lia).
  assert (EH : INR last * (h / INR last) = h) by (field; lra).
  assert (Q' : 0 <= h / INR last <= 1).
  { split; [apply Rmult_le_pos; [lra|left; now apply Rinv_0_lt_compat]|]. apply (Rmult_le_reg_l (INR last)); [lra|]. rewrite EH. lra. }
  assert (QD : Rabs (h / INR last - q) <= ulp_half * q).
  { apply rabs_in. split; (apply (Rmult_le_reg_l (INR last)); [lra|]); rewrite ?Rmult_minus_distr_l, ?EH; lra. }
  intros E. exists (h / INR last). destruct (Rleb_spec (INR last) h) as [G|G].
  - assert (h = INR last) by lra. exists (nth last a 0). split; [exact Q'|]. split; [exact QD|]. split.
    + rewrite Exact, EH by exact Q'. replace h with (INR last). rewrite floor_nat_int, Nat.min_r by lia. f_equal. ring.
    + injection E as <-. rewrite Rminus_eq_0, Rabs_R0. exact Bd.
  - pose proof (floor_nat_spec h Hh) as F. set (k := floor_nat h) in *. assert (K : (k < last)%nat) by (apply INR_lt; lra).
    exists (nth k a 0 + (nth (k + 1) a 0 - nth k a 0) * (h - INR k)). split; [exact Q'|]. split; [exact QD|]. split.
    + rewrite Exact, EH by exact Q'. fold k. rewrite Nat.min_l by lia. reflexivity.
    + injection E as <-. rewrite of_int_exact by (unfold last in *; lia).
      assert (Bk : is_b64 (INR k)) by (apply b64_int; unfold last in *; lia).
      assert (Bh : is_b64 (h - INR k)).
      { destruct (Nat.eq_dec k 0) as [->|K0]; [simpl; rewrite Rminus_0_r; apply fl_b64|]. apply sterbenz; auto with typeclass_instances; [apply fl_b64|].
        assert (1 <= INR k) by (apply (le_INR 1); lia). lra. }
      rewrite (fl_id _ Bh).
      destruct (strict_neighbours a k) as (I1 & I2 & I3 & _); [apply quantiles_strict|unfold last in *; lia|].
      apply (proj1 (quantiles_in _ _)), B64 in I1. apply (proj1 (quantiles_in _ _)), B64 in I2.
      apply lerp_err; try tauto. lra.
Qed.

Lemma least_tiny : 0 < least /\ 4 * least <= ulp_half.
Proof.
  split; [apply bpow_gt_0|]. change 4 with (bpow radix2 2). unfold least, ulp_half. rewrite <- bpow_plus. apply bpow_le. lia.
Qed.
(** every critical value is within 4 * 2^-53 * M + 3 * 2^-1074 of the exact one of a level at most 2^-50 away (one
    level for each end of a two-sided interval), where M bounds the simulated values *)
Lemma C115_critical_value_error_holds : forall limit level M, simulated limit -> (forall x, In x limit -> is_b64 x /\ Rabs x <= M) ->
  is_b64 level -> 0 <= level <= 1 ->
  let close c e := Rabs (c - e) <= 4 * bpow radix2 (-53) * M + 3 * bpow radix2 (-1074) in
  let near level' := 0 <= level' /\ Rabs (level' - level) <= 8 * bpow radix2 (-53) in
  (forall alt, alt <> TWO_TAILED -> exists c level' e, critical_value_float_of alt limit level = Ok (CV1 c) /\
     near level' /\ critical_value_of alt limit level' = Ok (CV1 e) /\ close c e) /\
  exists l r, critical_value_float_of TWO_TAILED limit level = Ok (CV2 l r) /\
    (exists level' el er, near level' /\ critical_value_of TWO_TAILED limit level' = Ok (CV2 el er) /\ close l el) /\
    (exists level' el er, near level' /\ critical_value_of TWO_TAILED limit level' = Ok (CV2 el er) /\ close r er).
Proof.
  intros limit level M S B Bl Hl. cbv zeta. fold ulp_half. fold least.
  assert (B' : forall x, In x limit -> is_b64 x) by (intros x Hx; apply (B x Hx)).
  destruct least_tiny as [L0 L1]. pose proof ulp_half_pos as U. pose proof ulp_half_small as US.
  assert (Run : forall q, is_b64 q -> 0 <= q <= 1 -> exists c q' e, np_quantile_float (ecdf_quantiles limit) q = Ok c /\ 0 <= q' <= 1 /\
    - ulp_half <= q' - q <= ulp_half /\ np_quantile (ecdf_quantiles limit) q' = Ok e /\ Rabs (c - e) <= 4 * ulp_half * M + 3 * least).
  { intros q Bq Q. destruct (quantile_float limit q S B' Bq Q) as (c & _ & E & _). destruct (quantile_backward limit q c M S B Bq Q E) as (q' & e & Q' & N & E' & C).
    exists c, q', e. apply rabs_in in N. repeat split; try tauto; nra. }
  assert (Total : forall q, 0 <= q <= 1 -> exists e, np_quantile (ecdf_quantiles limit) q = Ok e).
  { intros q Q. unfold np_quantile. destruct (Rleb_spec 0 q); [|lra]. destruct (Rleb_spec q 1); [|lra]. cbn [andb negb].
    assert (N : ecdf_quantiles limit <> []) by (apply quantiles_nonempty, S). destruct (ecdf_quantiles limit); [contradiction|]. eexists. reflexivity. }
  assert (Cmp : forall x, 0 <= x <= 1 -> is_b64 (fl (1 - x)) /\ 0 <= fl (1 - x) <= 1 /\ - (2 * ulp_half) <= fl (1 - x) - (1 - x) <= 2 * ulp_half).
  { intros x Hx. split; [apply fl_b64|]. split; [split; [apply fl_nonneg; lra|apply fl_le; [apply b64_one|lra]]|].
    pose proof (fl_err (1 - x)) as E. rewrite (Rabs_pos_eq (1 - x)) in E by lra. apply rabs_in in E. nra. }
  split.
  - intros alt N. destruct alt; [| |contradiction].
    + destruct (Cmp level Hl) as (Bc & Rc & Ec). destruct (Run _ Bc Rc) as (c & q' & e & E & Q' & D & E' & C).
      exists c, (1 - q'), e. cbn [critical_value_float_of critical_value_of]. rewrite E. split; [reflexivity|]. split; [split; [lra|apply rabs_in; lra]|].
      unfold right_critical_value. replace (1 - (1 - q')) with q' by ring. rewrite E'. split; [reflexivity|exact C].
    + destruct (Run _ Bl Hl) as (c & q' & e & E & Q' & D & E' & C).
      exists c, q', e. cbn [critical_value_float_of critical_value_of]. rewrite E. split; [reflexivity|]. split; [split; [lra|apply rabs_in; lra]|].
      unfold left_critical_value. rewrite E'. split; [reflexivity|exact C].
  - set (sl := fl (level / 2)). assert (Bs : is_b64 sl) by apply fl_b64.
    assert (Rs : 0 <= sl <= 1) by (split; [apply fl_nonneg; lra|apply fl_le; [apply b64_one|lra]]).
    assert (Es : - (2 * ulp_half) <= 2 * sl - level <= 2 * ulp_half).
    { pose proof (fl_err (level / 2)) as E. rewrite (Rabs_pos_eq (level / 2)) in E by lra. apply rabs_in in E. fold sl in E. nra. }
    destruct (Run _ Bs Rs) as (l & ql & el & El & Ql & Dl & El' & Cl).
    destruct (Cmp sl Rs) as (Bc & Rc & Ec). destruct (Run _ Bc Rc) as (r & qr & er & Er & Qr & Dr & Er' & Cr).
    destruct (Total (1 - ql) ltac:(lra)) as (er2 & Er2). destruct (Total (1 - qr) ltac:(lra)) as (el2 & El2).
    exists l, r. cbn [critical_value_float_of critical_value_of]. fold sl. rewrite El, Er. split; [reflexivity|]. unfold two_sided_critical_value. split.
    + exists (2 * ql), el, er2. split; [split; [lra|apply rabs_in; lra]|]. replace (2 * ql / 2) with ql by field. cbv zeta. rewrite El'. cbn [bind]. rewrite Er2. split; [reflexivity|exact Cl].
    + exists (2 * (1 - qr)), el2, er. split; [split; [lra|apply rabs_in; lra]|]. replace (2 * (1 - qr) / 2) with (1 - qr) by field. cbv zeta. rewrite El2. cbn [bind].
      replace (1 - (1 - qr)) with qr by ring. rewrite Er'. split; [reflexivity|exact Cr].
Qed.
