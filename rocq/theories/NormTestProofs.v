(** The transformed skewness and kurtosis statistics as functions of the sample skewness and kurtosis. *)
From Verif Require Import Base DecModel EdfModel EdfSpec GraphModel RegistryModel NormalLaw ExpModel ExpSpec NormModel NormRangeSpec NormFormSpec EdfProofs ExpProofs NormProofs NormSymProofs NormAffProofs NormReflProofs NormRangeProofs NormFiniteProofs NormDistProofs NormDist2Proofs NormClaims.
From Coq Require Import Lra Lia.
Local Open Scope R_scope.

Lemma asinh_incr t u : t < u -> ln (t + sqrt (t ^ 2 + 1)) < ln (u + sqrt (u ^ 2 + 1)).
Proof.
  intros H. assert (P : forall x, 0 < x + sqrt (x ^ 2 + 1)).
  { intros x. assert (Rabs x < sqrt (x ^ 2 + 1)); [|pose proof (Rle_abs (- x)); rewrite Rabs_Ropp in *; lra].
    rewrite <- sqrt_Rsqr_abs. apply sqrt_lt_1; unfold Rsqr; nra. }
  apply ln_increasing; [apply P|].
  set (A := sqrt (t ^ 2 + 1)). set (B := sqrt (u ^ 2 + 1)). assert (A2 : A * A = t ^ 2 + 1) by (apply sqrt_sqrt; nra). assert (B2 : B * B = u ^ 2 + 1) by (apply sqrt_sqrt; nra).
  pose proof (P t) as Pt. pose proof (P u) as Pu. fold A in Pt. fold B in Pu. pose proof (P (- t)) as Nt. pose proof (P (- u)) as Nu.
  replace ((- t) ^ 2 + 1) with (t ^ 2 + 1) in Nt by ring. replace ((- u) ^ 2 + 1) with (u ^ 2 + 1) in Nu by ring. fold A in Nt. fold B in Nu.
  destruct (Rlt_le_dec (t + A) (u + B)) as [|C]; trivial. exfalso.
  (* (u + B)(B - u) = 1 = (t + A)(A - t) *)
  assert (F : (u + B) * (B - u) = 1) by nra. assert (G : (t + A) * (A - t) = 1) by nra.
  assert (K : A - t <= B - u). { apply (Rmult_le_reg_l (u + B)); [lra|]. nra. }
  lra.
Qed.
Section SkewConstants.
  Context (n : R) (Hn : 8 <= n).
  Lemma sk_alpha_pos : 0 < sk_alpha n.
  Proof. unfold sk_alpha. apply sqrt_lt_R0, Rdiv_lt_0_compat; [lra|]. pose proof (sk_w2_gt1 n Hn). lra. Qed.
  Lemma sk_delta_pos : 0 < sk_delta n.
  Proof.
    unfold sk_delta. apply Rdiv_lt_0_compat; [lra|]. apply sqrt_lt_R0. pose proof (sk_w2_gt1 n Hn) as H. assert (0 < ln (sk_w2 n)) by (rewrite <- ln_1; apply ln_increasing; lra). lra.
  Qed.
  Lemma sk_z_incr x y : x < y -> sk_z n x < sk_z n y.
  Proof.
    intros H. unfold sk_z. cbv zeta. apply Rmult_lt_compat_l; [apply sk_delta_pos|]. apply asinh_incr. apply Rmult_lt_compat_r; trivial. apply Rinv_0_lt_compat, sk_alpha_pos.
  Qed.
  Lemma sk_z_0 : sk_z n 0 = 0.
  Proof. unfold sk_z. cbv zeta. replace (0 / sk_alpha n) with 0 by (unfold Rdiv; ring). replace (0 + sqrt (0 ^ 2 + 1)) with 1 by (replace (0 ^ 2 + 1) with 1 by ring; rewrite sqrt_1; ring). rewrite ln_1. ring. Qed.
  Lemma sk_factor_pos : 0 < sqrt ((n + 1) * (n + 3) / (6 * (n - 2))).
  Proof. apply sqrt_lt_R0, Rdiv_lt_0_compat; nra. Qed.
  Lemma sk_y_incr a b : a < b -> sk_y n a < sk_y n b.
  Proof. intros H. unfold sk_y. apply Rmult_lt_compat_r; trivial. apply sk_factor_pos. Qed.
  Lemma sk_y_zero b : sk_y n b = 0 <-> b = 0.
  Proof. pose proof sk_factor_pos. unfold sk_y. split; [|intros ->; ring]. intros E. apply Rmult_integral in E as [|]; lra. Qed.
End SkewConstants.
Lemma skew_inv l v : skew_norm l = Ok (Some (Fin v)) -> (8 <= length l)%nat /\ varying l = true /\
  v = sk_z (len l) (if Reqb (skewness l) 0 then 1 else sk_y (len l) (skewness l)).
Proof.
  unfold skew_norm, skew_test. destruct (Nat.ltb_spec (length (rsort l)) 8) as [|L]; [discriminate|]. rewrite rsort_length in L. cbn [some_num bind].
  unfold len. rewrite rsort_length. rewrite (skewness_rsort l), (varying_perm (rsort l) l (rsort_perm l)). destruct (varying l); [|discriminate]. intros E. injection E as <-.
  split; [trivial|]. split; [trivial|]. fold (len l). f_equal. pose proof (len_ge l 8 L) as N. rewrite INR_IZR_INZ in N. simpl in N.
  destruct (Reqb_spec (sk_y (len l) (skewness l)) 0) as [E|E], (Reqb_spec (skewness l) 0) as [F|F]; trivial; exfalso.
  - apply F. now apply (sk_y_zero (len l)).
  - apply E. now apply (sk_y_zero (len l)).
Qed.
Lemma len8 l : (8 <= length l)%nat -> 8 <= @len R l.
Proof. intros H. pose proof (len_ge l 8 H) as N. rewrite INR_IZR_INZ in N. simpl in N. exact N. Qed.
Lemma skew_increasing l l' v v' : length l = length l' -> skew_norm l = Ok (Some (Fin v)) -> skew_norm l' = Ok (Some (Fin v')) ->
  skewness l <> 0 -> skewness l' <> 0 -> (skewness l < skewness l' <-> v < v').
Proof.
  intros L E E' Z Z'. apply skew_inv in E as (H8 & _ & ->). apply skew_inv in E' as (_ & _ & ->). pose proof (len8 l H8) as N. assert (LL : len l' = len l) by (unfold len; now rewrite L). rewrite LL.
  destruct (Reqb_spec (skewness l) 0); [easy|]. destruct (Reqb_spec (skewness l') 0); [easy|].
  split; intros K.
  - now apply sk_z_incr, sk_y_incr.
  - destruct (Rtotal_order (skewness l) (skewness l')) as [|[Eq|G]]; trivial; exfalso.
    + rewrite Eq in K. lra.
    + apply (sk_y_incr _ N), (sk_z_incr _ N) in G. lra.
Qed.
Lemma skew_sign l v : skew_norm l = Ok (Some (Fin v)) -> (0 < v <-> 0 <= skewness l) /\ (v < 0 <-> skewness l < 0).
Proof.
  intros E. apply skew_inv in E as (H8 & _ & ->). pose proof (len8 l H8) as N. pose proof (sk_z_0 (len l)) as Z0.
  assert (Y0 : sk_y (len l) 0 = 0) by (unfold sk_y; ring).
  destruct (Reqb_spec (skewness l) 0) as [Z|Z].
  - rewrite Z. assert (0 < sk_z (len l) 1) by (rewrite <- Z0; apply sk_z_incr; lra). split; split; intros; lra.
  - destruct (Rtotal_order (skewness l) 0) as [G|[|G]]; [|easy|].
    + apply (sk_y_incr _ N) in G as G'. apply (sk_z_incr _ N) in G'. rewrite Y0, Z0 in G'. split; split; intros; lra.
    + apply (sk_y_incr _ N) in G as G'. apply (sk_z_incr _ N) in G'. rewrite Y0, Z0 in G'. split; split; intros; lra.
Qed.

(** ** kurtosis *)
Section KurtosisConstants.
  Context (n : R) (Hn : 5 <= n).
  Lemma ku_b_pos : 0 < ku_sqrt_beta1 n.
  Proof.
    unfold ku_sqrt_beta1. apply Rmult_lt_0_compat; [apply Rdiv_lt_0_compat; nra|]. apply sqrt_lt_R0, Rdiv_lt_0_compat; repeat apply Rmult_lt_0_compat; lra.
  Qed.
  Lemma ku_a_gt6 : 6 < ku_a n.
  Proof.
    unfold ku_a. cbv zeta. pose proof ku_b_pos as B. set (b := ku_sqrt_beta1 n) in *. assert (0 < 8 / b) by (apply Rdiv_lt_0_compat; lra). assert (0 < 2 / b) by (apply Rdiv_lt_0_compat; lra).
    pose proof (sqrt_pos (1 + 4 / b ^ 2)). assert (0 < 8 / b * (2 / b + sqrt (1 + 4 / b ^ 2))) by (apply Rmult_lt_0_compat; lra). lra.
  Qed.
  Lemma ku_var_pos : 0 < ku_var n.
  Proof. unfold ku_var. apply Rdiv_lt_0_compat; repeat apply Rmult_lt_0_compat; lra. Qed.
  Lemma ku_slope_pos : 0 < sqrt (2 / (ku_a n - 4)) / sqrt (ku_var n).
  Proof. pose proof ku_a_gt6. apply Rdiv_lt_0_compat; apply sqrt_lt_R0; [apply Rdiv_lt_0_compat; lra|apply ku_var_pos]. Qed.
  Lemma ku_denom_incr a b : a < b -> ku_denom n a < ku_denom n b.
  Proof.
    intros H. unfold ku_denom. pose proof ku_slope_pos as S. assert (V : 0 < sqrt (ku_var n)) by (apply sqrt_lt_R0, ku_var_pos).
    replace ((a - ku_e n) / sqrt (ku_var n) * sqrt (2 / (ku_a n - 4))) with ((a - ku_e n) * (sqrt (2 / (ku_a n - 4)) / sqrt (ku_var n))) by (field; lra).
    replace ((b - ku_e n) / sqrt (ku_var n) * sqrt (2 / (ku_a n - 4))) with ((b - ku_e n) * (sqrt (2 / (ku_a n - 4)) / sqrt (ku_var n))) by (field; lra).
    apply Rplus_lt_compat_l, Rmult_lt_compat_r; lra.
  Qed.
  (** the statistic as a function of the denominator *)
  Definition ku_value (d : R) : R := (1 - 2 / (9 * ku_a n) - Rsgn d * np_pow ((1 - 2 / ku_a n) / Rabs d) (1 / 3)) / sqrt (2 / (9 * ku_a n)).
  Lemma ku_scale_pos : 0 < sqrt (2 / (9 * ku_a n)).
  Proof. pose proof ku_a_gt6. apply sqrt_lt_R0, Rdiv_lt_0_compat; lra. Qed.
  Lemma ku_c_pos : 0 < 1 - 2 / ku_a n.
  Proof. pose proof ku_a_gt6. assert (2 / ku_a n < 1); [|lra]. apply (Rmult_lt_reg_r (ku_a n)); [lra|]. unfold Rdiv. rewrite Rmult_assoc, Rinv_l; lra. Qed.
  Definition ku_root (d : R) : R := Rpower ((1 - 2 / ku_a n) / Rabs d) (1 / 3).
  Lemma ku_root_pos d : 0 < ku_root d. Proof. apply exp_pos. Qed.
  Lemma ku_root_decr d e : d <> 0 -> Rabs d < Rabs e -> ku_root e < ku_root d.
  Proof.
    intros D H. pose proof (Rabs_pos_lt d D) as P. unfold ku_root. apply Rlt_Rpower_l; [lra|]. pose proof ku_c_pos as C. split; [apply Rdiv_lt_0_compat; lra|].
    apply Rmult_lt_compat_l; trivial. apply Rinv_lt_contravar; trivial. apply Rmult_lt_0_compat; lra.
  Qed.
  Lemma ku_value_pos_branch d : 0 < d -> ku_value d = (1 - 2 / (9 * ku_a n) - ku_root d) / sqrt (2 / (9 * ku_a n)).
  Proof.
    intros H. unfold ku_value, ku_root, Rsgn, np_pow. destruct (Rltb_spec 0 d); [|lra]. destruct (Reqb_spec ((1 - 2 / ku_a n) / Rabs d) 0) as [E|].
    - exfalso. pose proof ku_c_pos. assert (0 < (1 - 2 / ku_a n) / Rabs d) by (apply Rdiv_lt_0_compat; trivial; apply Rabs_pos_lt; lra). lra.
    - now rewrite Rmult_1_l.
  Qed.
  Lemma ku_value_neg_branch d : d < 0 -> ku_value d = (1 - 2 / (9 * ku_a n) + ku_root d) / sqrt (2 / (9 * ku_a n)).
  Proof.
    intros H. unfold ku_value, ku_root, Rsgn, np_pow. destruct (Rltb_spec 0 d); [lra|]. destruct (Rltb_spec d 0); [|lra]. destruct (Reqb_spec ((1 - 2 / ku_a n) / Rabs d) 0) as [E|].
    - exfalso. pose proof ku_c_pos. assert (0 < (1 - 2 / ku_a n) / Rabs d) by (apply Rdiv_lt_0_compat; trivial; apply Rabs_pos_lt; lra). lra.
    - f_equal. ring.
  Qed.
  Lemma over_scale x y : x < y -> x / sqrt (2 / (9 * ku_a n)) < y / sqrt (2 / (9 * ku_a n)).
  Proof. intros H. apply Rmult_lt_compat_r; trivial. apply Rinv_0_lt_compat, ku_scale_pos. Qed.
  Lemma ku_value_incr d e : d < e -> 0 < d \/ e < 0 -> ku_value d < ku_value e.
  Proof.
    intros H [P|P].
    - rewrite !ku_value_pos_branch by lra. apply over_scale. assert (ku_root e < ku_root d) by (apply ku_root_decr; [lra|]; rewrite !Rabs_pos_eq; lra). lra.
    - rewrite !ku_value_neg_branch by lra. apply over_scale. assert (ku_root d < ku_root e) by (apply ku_root_decr; [lra|]; rewrite !Rabs_left; lra). lra.
  Qed.
  Lemma ku_value_jump d e : d < 0 -> 0 < e -> ku_value e < ku_value d.
  Proof.
    intros H P. rewrite ku_value_pos_branch, ku_value_neg_branch by lra. apply over_scale. pose proof (ku_root_pos d). pose proof (ku_root_pos e). lra.
  Qed.
End KurtosisConstants.
Lemma kurt_rsort l : kurt (rsort l) = kurt l. Proof. apply kurt_perm, rsort_perm. Qed.
Lemma kurtosis_inv l v : kurtosis_norm l = Ok (Some (Fin v)) -> (5 <= length l)%nat /\ varying l = true /\ ku_denom (len l) (kurt l) <> 0 /\
  v = ku_value (len l) (ku_denom (len l) (kurt l)).
Proof.
  unfold kurtosis_norm, kurtosis_test. destruct (Nat.ltb_spec (length (rsort l)) 5) as [|L]; [discriminate|]. rewrite rsort_length in L. cbv zeta. cbn [some_num bind].
  unfold len. rewrite rsort_length. rewrite (kurt_rsort l), (varying_perm (rsort l) l (rsort_perm l)). destruct (varying l); [|discriminate]. fold (len l).
  destruct (Reqb_spec (ku_denom (len l) (kurt l)) 0); [discriminate|]. intros E. cbn [andb negb] in E. injection E as <-. repeat split; trivial.
Qed.
Lemma len5 l : (5 <= length l)%nat -> 5 <= @len R l.
Proof. intros H. pose proof (len_ge l 5 H) as N. rewrite INR_IZR_INZ in N. simpl in N. exact N. Qed.
Lemma kurtosis_increasing l l' v v' : length l = length l' -> kurtosis_norm l = Ok (Some (Fin v)) -> kurtosis_norm l' = Ok (Some (Fin v')) ->
  kurt l < kurt l' -> 0 < ku_denom (len l) (kurt l) \/ ku_denom (len l) (kurt l') < 0 -> v < v'.
Proof.
  intros L E E' K B. apply kurtosis_inv in E as (H5 & _ & _ & ->). apply kurtosis_inv in E' as (_ & _ & _ & ->). pose proof (len5 l H5) as N. assert (LL : len l' = len l) by (unfold len; now rewrite L). rewrite LL.
  apply ku_value_incr; trivial. now apply ku_denom_incr.
Qed.
Lemma kurtosis_jump l l' v v' : length l = length l' -> kurtosis_norm l = Ok (Some (Fin v)) -> kurtosis_norm l' = Ok (Some (Fin v')) ->
  ku_denom (len l) (kurt l) < 0 -> 0 < ku_denom (len l) (kurt l') -> v' < v.
Proof.
  intros L E E' K B. apply kurtosis_inv in E as (H5 & _ & _ & ->). apply kurtosis_inv in E' as (_ & _ & _ & ->). pose proof (len5 l H5) as N. assert (LL : len l' = len l) by (unfold len; now rewrite L). rewrite LL.
  now apply ku_value_jump.
Qed.
Lemma sqrt_ge x y : 0 <= y -> y * y <= x -> y <= sqrt x.
Proof. intros H K. rewrite <- (sqrt_square y H). now apply sqrt_le_1_alt. Qed.
Lemma sqrt_le' x y : 0 <= y -> x <= y * y -> sqrt x <= y.
Proof. intros H K. rewrite <- (sqrt_square y H). now apply sqrt_le_1_alt. Qed.
Lemma ku_denom_100 : ku_denom 100 1 < 0.
Proof.
  assert (B : 1.27 <= ku_sqrt_beta1 100).
  { unfold ku_sqrt_beta1. assert (S : 0.2612 <= sqrt (6 * (100 + 3) * (100 + 5) / (100 * (100 - 2) * (100 - 3)))) by (apply sqrt_ge; lra).
    assert (R0 : 4.888 <= 6 * (100 * 100 - 5 * 100 + 2) / ((100 + 7) * (100 + 9))) by lra.
    apply Rle_trans with (4.888 * 0.2612); [lra|]. apply Rmult_le_compat; lra. }
  assert (A : 6 < ku_a 100 <= 28).
  { split; [apply ku_a_gt6; lra|]. unfold ku_a. cbv zeta. set (b := ku_sqrt_beta1 100) in *. assert (I : / b <= / 1.27) by (apply Rinv_le_contravar; lra). assert (I0 : 0 < / b) by (apply Rinv_0_lt_compat; lra).
    assert (I1 : / 1.27 <= 0.7875) by lra. assert (S : sqrt (1 + 4 / b ^ 2) <= 1.88).
    { apply sqrt_le'; [lra|]. replace (4 / b ^ 2) with (4 * (/ b * / b)) by (field; lra). nra. }
    pose proof (sqrt_pos (1 + 4 / b ^ 2)). unfold Rdiv at 1 2. apply Rle_trans with (6 + 8 * 0.7875 * (2 * 0.7875 + 1.88)); [|lra].
    apply Rplus_le_compat_l. apply Rmult_le_compat; try lra. }
  unfold ku_denom. assert (V : sqrt (ku_var 100) <= 0.455) by (apply sqrt_le'; [lra|unfold ku_var; lra]).
  assert (V0 : 0 < sqrt (ku_var 100)) by (apply sqrt_lt_R0, ku_var_pos; lra).
  assert (S : 0.2886 <= sqrt (2 / (ku_a 100 - 4))).
  { apply sqrt_ge; [lra|]. apply Rle_trans with (2 / 24); [lra|]. apply Rmult_le_compat_l; [lra|]. apply Rinv_le_contravar; lra. }
  assert (E : 1.94 <= ku_e 100 - 1) by (unfold ku_e; lra).
  assert (I : / 0.455 <= / sqrt (ku_var 100)) by (apply Rinv_le_contravar; lra).
  assert (P : 1.2 <= (ku_e 100 - 1) / sqrt (ku_var 100) * sqrt (2 / (ku_a 100 - 4))).
  { apply Rle_trans with (1.94 * / 0.455 * 0.2886); [lra|]. apply Rmult_le_compat; try lra. apply Rmult_le_compat; lra. }
  replace ((1 - ku_e 100) / sqrt (ku_var 100)) with (- ((ku_e 100 - 1) / sqrt (ku_var 100))) by (unfold Rdiv; ring). lra.
Qed.
Definition light_tails : list R := repeat 1 50 ++ repeat (-1) 50.
Definition heavy_tails : list R := 1 :: -1 :: repeat 0 98.
Lemma light_len : @len R light_tails = 100. Proof. unfold len, light_tails. rewrite app_length, !repeat_length. rewrite INR_IZR_INZ. reflexivity. Qed.
Lemma heavy_len : @len R heavy_tails = 100. Proof. unfold len, heavy_tails. cbn [length]. rewrite repeat_length, INR_IZR_INZ. reflexivity. Qed.
Lemma Rsum_rep (f : R -> R) x n : Rsum (map f (repeat x n)) = INR n * f x.
Proof. induction n as [|n IH]; [simpl; ring|]. cbn [repeat map Rsum]. rewrite IH, S_INR. ring. Qed.
Lemma INR50 : INR 50 = 50. Proof. rewrite INR_IZR_INZ. reflexivity. Qed.
Lemma INR98 : INR 98 = 98. Proof. rewrite INR_IZR_INZ. reflexivity. Qed.
Lemma light_mean : mean light_tails = 0.
Proof. unfold mean. rewrite light_len. unfold light_tails. rewrite <- (map_id (repeat 1 50 ++ _)), map_app, Rsum_app, !Rsum_rep, INR50. lra. Qed.
Lemma heavy_mean : mean heavy_tails = 0.
Proof. unfold mean. rewrite heavy_len. unfold heavy_tails. cbn [Rsum]. rewrite <- (map_id (repeat 0 98)), Rsum_rep, INR98. lra. Qed.
Lemma len_map' (f : R -> R) l : len (map f l) = len l. Proof. unfold len. now rewrite map_length. Qed.
Lemma light_moment k : moment (2 * k) light_tails = 1.
Proof.
  unfold moment. rewrite light_mean. unfold mean. rewrite len_map', light_len. unfold light_tails. rewrite map_app, Rsum_app, !Rsum_rep, INR50.
  rewrite !pow_mult. replace ((1 - 0) ^ 2) with 1 by ring. replace ((-1 - 0) ^ 2) with 1 by ring. rewrite !pow1. lra.
Qed.
Lemma heavy_moment k : (k <> 0)%nat -> moment (2 * k) heavy_tails = 1 / 50.
Proof.
  intros K. unfold moment. rewrite heavy_mean. unfold mean. rewrite len_map', heavy_len. unfold heavy_tails. cbn [map Rsum]. rewrite Rsum_rep, INR98.
  rewrite !pow_mult. replace ((1 - 0) ^ 2) with 1 by ring. replace ((-1 - 0) ^ 2) with 1 by ring. replace ((0 - 0) ^ 2) with 0 by ring. rewrite !pow1, pow_i by lia. lra.
Qed.
Lemma light_kurt : kurt light_tails = 1.
Proof. unfold kurt. pose proof (light_moment 2) as A. pose proof (light_moment 1) as B. simpl Nat.mul in A, B. rewrite A, B. field. Qed.
Lemma heavy_kurt : kurt heavy_tails = 50.
Proof. unfold kurt. pose proof (heavy_moment 2 ltac:(lia)) as A. pose proof (heavy_moment 1 ltac:(lia)) as B. simpl Nat.mul in A, B. rewrite A, B. field. Qed.
Lemma varying_moment l : moment 2 l <> 0 -> varying l = true.
Proof. intros H. apply varying_iff. pose proof (ssq_nonneg l) as S. rewrite moment2_ssq in H. destruct (Req_dec (ssq l) 0) as [E|]; [|lra]. exfalso. apply H. rewrite E. unfold Rdiv. ring. Qed.
Lemma kurtosis_value l : (5 <= length l)%nat -> varying l = true -> ku_denom (len l) (kurt l) <> 0 -> kurtosis_norm l = Ok (Some (Fin (ku_value (len l) (ku_denom (len l) (kurt l))))).
Proof.
  intros L V D. unfold kurtosis_norm, kurtosis_test. rewrite rsort_length. destruct (Nat.ltb_spec (length l) 5); [lia|]. cbv zeta. cbn [some_num bind].
  unfold len. rewrite rsort_length. rewrite (kurt_rsort l), (varying_perm (rsort l) l (rsort_perm l)), V. fold (len l). destruct (Reqb_spec (ku_denom (len l) (kurt l)) 0); [easy|]. reflexivity.
Qed.
Lemma heavy_denom : 0 < ku_denom 100 50.
Proof.
  unfold ku_denom. assert (V0 : 0 < sqrt (ku_var 100)) by (apply sqrt_lt_R0, ku_var_pos; lra). assert (E : 0 < 50 - ku_e 100) by (unfold ku_e; lra).
  assert (0 <= (50 - ku_e 100) / sqrt (ku_var 100) * sqrt (2 / (ku_a 100 - 4))); [|lra]. apply Rmult_le_pos; [left; apply Rdiv_lt_0_compat; lra|apply sqrt_pos].
Qed.
Lemma kurtosis_wrong_way : exists v v', kurtosis_norm light_tails = Ok (Some (Fin v)) /\ kurtosis_norm heavy_tails = Ok (Some (Fin v')) /\ v' < v.
Proof.
  assert (L : length light_tails = 100%nat) by (unfold light_tails; now rewrite app_length, !repeat_length). assert (H : length heavy_tails = 100%nat) by (unfold heavy_tails; cbn [length]; now rewrite repeat_length).
  pose proof (kurtosis_value light_tails) as A. pose proof (kurtosis_value heavy_tails) as B. rewrite light_len, light_kurt in A. rewrite heavy_len, heavy_kurt in B.
  pose proof ku_denom_100 as D1. pose proof heavy_denom as D2.
  assert (VA : varying light_tails = true) by (apply varying_moment; change 2%nat with (2 * 1)%nat; rewrite light_moment; lra). assert (VB : varying heavy_tails = true) by (apply varying_moment; change 2%nat with (2 * 1)%nat; rewrite heavy_moment by lia; lra).
  specialize (A ltac:(lia) VA ltac:(lra)). specialize (B ltac:(lia) VB ltac:(lra)). eexists. eexists. split; [exact A|]. split; [exact B|].
  eapply (kurtosis_jump light_tails heavy_tails); [now rewrite L, H|exact A|exact B| |]; rewrite light_len; [now rewrite light_kurt|now rewrite heavy_kurt].
Qed.
