(** The normality statistics as distances: zeros and minima. *)
From Verif Require Import Base DecModel EdfModel EdfSpec GraphModel RegistryModel NormalLaw ExpModel ExpSpec NormModel NormRangeSpec NormFormSpec UniformModel UniformSpec EdfProofs ExpProofs ExpRangeProofs NormProofs NormSymProofs NormAffProofs NormReflProofs NormRangeProofs NormFiniteProofs NormBoundProofs NormFormProofs EdfRotProofs UniformStatProofs EdfClaims.
From Coq Require Import Lra Lia.
Local Open Scope R_scope.

Lemma num_inv b w v : num b w = Ok (Some (Fin v)) -> b = true /\ v = w.
Proof. unfold num. destruct b; intros H; [injection H as <-; auto|discriminate]. Qed.
Lemma gt3_inv l o v : gt3 l o = Ok (Some (Fin v)) -> (3 < length l)%nat /\ o = Ok (Some (Fin v)).
Proof. unfold gt3. destruct (Nat.ltb_spec 3 (length l)); intros H1; [auto|discriminate]. Qed.
Lemma len_ge l k : (k <= length l)%nat -> INR k <= @len R l.
Proof. intros H. now apply le_INR. Qed.
Lemma sd1_pos l : varying l = true -> (2 <= length l)%nat -> 0 < sd1 l.
Proof.
  intros V N. apply varying_iff in V. pose proof (len_ge l 2 N) as H. simpl in H. unfold sd1. apply sqrt_lt_R0, Rdiv_lt_0_compat; [|lra].
  pose proof (ssq_nonneg l). lra.
Qed.
Lemma standardised_zscores l : standardised l = zscores (sd1 l) l.
Proof. reflexivity. Qed.

(** ** the pairs of a sample *)
Lemma pair_sum_pairs l : pair_sum l = sum_pairs (fun x y => Rabs (x - y)) l.
Proof. induction l as [|x l IH]; cbn [pair_sum sum_pairs]; [reflexivity|]. now rewrite IH. Qed.
Lemma pair_sum_perm l l' : Permutation l l' -> pair_sum l = pair_sum l'.
Proof. intros H. rewrite !pair_sum_pairs. apply sum_pairs_perm; trivial. intros x y. apply Rabs_minus_sym. Qed.
Lemma subsamples_1 l : subsamples 1 l = map (fun y => [y]) l.
Proof. induction l as [|x l IH]; [reflexivity|].
  change (subsamples 1 (x :: l)) with (map (cons x) (subsamples 0 l) ++ subsamples 1 l). rewrite IH. now destruct l. Qed.
Lemma pair_sum_sorted l : sortedR l -> pair_sum l = Rsum (map (fun s => nth 1 s 0 - nth 0 s 0) (subsamples 2 l)).
Proof.
  induction l as [|x l IH]; intros H; [reflexivity|]. apply sorted_cons_inv in H as [Hs Hx].
  change (subsamples 2 (x :: l)) with (map (cons x) (subsamples 1 l) ++ subsamples 2 l). cbn [pair_sum].
  rewrite map_app, Rsum_app, <- IH, subsamples_1, !map_map by trivial. f_equal. apply Rsum_map_ext. intros y Hy. cbn [nth].
  rewrite Rabs_minus_sym, Rabs_pos_eq; [reflexivity|]. specialize (Hx y Hy). lra.
Qed.
Lemma rank_sum l : Rsum (imap (fun i v => (INR (S i) - 0.5 * (len l + 1)) * v) (rsort l)) = pair_sum l / 2.
Proof.
  rewrite (pair_sum_perm l (rsort l)) by (first [apply rsort_perm | apply Permutation_sym, rsort_perm]). rewrite pair_sum_sorted by apply rsort_sorted.
  rewrite Rsum_map_minus, !subsamples_dot by lia. rewrite (imap_dot (fun i => INR (S i) - 0.5 * (len l + 1))).
  set (x := rsort l). assert (L : len l = INR (length x)) by (unfold len, x; now rewrite rsort_length). rewrite L.
  apply (Rmult_eq_reg_l 2); [|lra]. rewrite <- dot_mul_l. field_simplify.
  rewrite (dot_ext_l _ (fun i => lcoef 2 1 (length x) i + (-1) * lcoef 2 0 (length x) i)).
  - rewrite (dot_plus_l (lcoef 2 1 (length x)) (fun i => -1 * lcoef 2 0 (length x) i)), dot_mul_l. ring.
  - intros i Hi. unfold lcoef. change (2 - 1 - 1)%nat with 0%nat. change (2 - 1 - 0)%nat with 1%nat.
    rewrite !choose_0, !choose_1, !minus_INR, S_INR by lia. simpl (INR 1). lra.
Qed.
Lemma second_l_moment l : (2 <= length l)%nat -> l_moment 0 2 l = pair_sum l / (len l * (len l - 1)).
Proof.
  intros Hn. pose proof (len_ge l 2 Hn) as N. simpl in N. rewrite (pair_sum_perm l (rsort l)) by (first [apply rsort_perm | apply Permutation_sym, rsort_perm]). rewrite pair_sum_sorted by apply rsort_sorted.
  unfold l_moment, mean, len. rewrite map_length, subsamples_length, rsort_length. change (2 + 2 * 0)%nat with 2%nat. rewrite choose_2. fold (len l).
  change (2 - 1)%nat with 1%nat. cbn [difference]. unfold Rdiv at 2. rewrite (Rsum_map_scal_r (/ INR 2) (fun s => nth 1 s 0 - nth 0 s 0)). simpl (INR 2). field. lra.
Qed.

(** ** Zhang-Wu *)
Lemma phiz_fitted l : 0 < sd1 l -> phiz l = map (fitted_normal l) (rsort l).
Proof.
  intros H. unfold phiz, zscores. rewrite map_map. rewrite <- rsort_map_mono.
  - reflexivity.
  - intros x y L. unfold fitted_normal. apply norm_cdf_le. change (sample_sd l) with (sd1 l). apply Rmult_le_compat_r; [left; now apply Rinv_0_lt_compat|lra].
Qed.
Lemma phiz_sorted l : sortedR (phiz l). Proof. apply rsort_sorted. Qed.
Lemma phiz_nth l i : 0 < sd1 l -> (i < length l)%nat -> nth_error (phiz l) i = Some (fitted_normal l (nth i (rsort l) 0)).
Proof.
  intros H Hi. rewrite phiz_fitted by trivial. rewrite nth_error_map. rewrite nth_error_nth' with (d := 0) by (now rewrite rsort_length). reflexivity.
Qed.
Lemma phiz_all (P : nat -> R -> Prop) l : 0 < sd1 l ->
  (forall i p, nth_error (phiz l) i = Some p -> P i p) <-> (forall i, (i < length l)%nat -> P i (fitted_normal l (nth i (rsort l) 0))).
Proof.
  intros H. split.
  - intros K i Hi. apply K. now apply phiz_nth.
  - intros K i p E. assert (Hi : (i < length l)%nat) by (rewrite <- phiz_length; apply nth_error_Some; congruence).
    rewrite phiz_nth in E by trivial. injection E as <-. now apply K.
Qed.
Lemma imap_sq_zero (f : nat -> R -> R) u : Rsum (imap (fun i p => f i p ^ 2) u) = 0 <-> forall i p, nth_error u i = Some p -> f i p = 0.
Proof.
  destruct (Rsum_imap_le_eq (fun _ _ => 0) (fun i p => f i p ^ 2) u) as [A B]; [intros; apply pow2_ge_0|].
  assert (Z : Rsum (imap (fun (_ : nat) (_ : R) => 0) u) = 0) by (rewrite (Rsum_imap_idx (fun _ => 0)), Rsum_map_const; ring).
  split.
  - intros E i p Hi. rewrite Z in B. symmetry in E. specialize (B E i p Hi). simpl in B. nra.
  - intros E. rewrite <- Z. destruct (Rsum_imap_le_eq (fun i p => f i p ^ 2) (fun _ _ => 0) u) as [C _]; [intros i x Hx; rewrite (E i x Hx); lra|]. lra.
Qed.
Lemma zwc_zero l v : zwc l = Ok (Some (Fin v)) ->
  (v = 0 <-> forall i, (i < length l)%nat -> fitted_normal l (nth i (rsort l) 0) = (INR (S i) - 3 / 4) / (len l - 1 / 2)).
Proof.
  unfold zwc. cbv zeta. intros H. apply gt3_inv in H as [Hn H]. apply num_inv in H as [V ->]. pose proof (sd1_pos l V ltac:(lia)) as Hs.
  pose proof (len_ge l 4 Hn) as N. simpl in N.
  rewrite (imap_sq_zero (fun i p => ln ((1 / p - 1) / ((len l - 0.5) / (INR (S i) - 0.75) - 1)))).
  rewrite <- (phiz_all (fun i p => p = (INR (S i) - 3 / 4) / (len l - 1 / 2)) l Hs).
  assert (K : forall i p, nth_error (phiz l) i = Some p -> (ln ((1 / p - 1) / ((len l - 0.5) / (INR (S i) - 0.75) - 1)) = 0 <-> p = (INR (S i) - 3 / 4) / (len l - 1 / 2))).
  { intros i p E. assert (Hi : (i < length l)%nat) by (rewrite <- phiz_length; apply nth_error_Some; congruence).
    pose proof (phiz_01 l p (nth_error_In _ _ E)) as P. apply le_INR in Hi. fold (len l) in Hi. rewrite S_INR in *. pose proof (pos_INR i) as Pi.
    set (k := INR i) in *. set (n := len l) in *. replace 0.5 with (1 / 2) by lra. replace 0.75 with (3 / 4) by lra.
    assert (D : (1 / p - 1) / ((n - 1 / 2) / (k + 1 - 3 / 4) - 1) = (1 - p) * (k + 1 / 4) / (p * (n - k - 3 / 4))) by (field; lra).
    rewrite D. assert (0 < (1 - p) * (k + 1 / 4) / (p * (n - k - 3 / 4))) by (apply Rdiv_lt_0_compat; apply Rmult_lt_0_compat; lra).
    split.
    - intros Z. assert (O : (1 - p) * (k + 1 / 4) / (p * (n - k - 3 / 4)) = 1) by (rewrite <- (exp_ln _ H), Z; apply exp_0).
      assert (X : (1 - p) * (k + 1 / 4) = p * (n - k - 3 / 4)).
      { apply (Rmult_eq_reg_r (/ (p * (n - k - 3 / 4)))); [|apply Rinv_neq_0_compat; nra]. change ((1 - p) * (k + 1 / 4) / (p * (n - k - 3 / 4)) = p * (n - k - 3 / 4) / (p * (n - k - 3 / 4))). rewrite O. field. lra. }
      apply (Rmult_eq_reg_r (n - 1 / 2)); [|lra]. field_simplify; lra.
    - intros ->. replace ((1 - (k + 1 - 3 / 4) / (n - 1 / 2)) * (k + 1 / 4) / ((k + 1 - 3 / 4) / (n - 1 / 2) * (n - k - 3 / 4))) with 1 by (field; lra). apply ln_1. }
  split; intros Z i p E; apply (K i p E), (Z i p E).
Qed.
Lemma zwa_zhang l : 10 * - Rsum (imap (fun i p => ln p / (len l - INR (S i) + 0.5) + ln (1 - p) / (INR (S i) - 0.5)) (phiz l)) - 32 = 10 * zhang_a (phiz l) - 32.
Proof. rewrite zhang_a_terms. unfold len. rewrite phiz_length. reflexivity. Qed.
Lemma zwa_floor_ideal n : zwa_floor n = 10 * zhang_a (ideal_unit n) - 32.
Proof.
  unfold zwa_floor. rewrite zhang_a_terms. unfold len, ideal_unit. rewrite map_length, seq_length. rewrite (imap_seq _ _ 0), map_length, seq_length.
  rewrite (Rsum_map_ext (fun i => za_term (INR n) i (nth i (map (midrank (INR n)) (seq 0 n)) 0)) (fun i => ln (midrank (INR n) i) / (INR n - INR (S i) + 1 / 2) + ln (1 - midrank (INR n) i) / (INR (S i) - 1 / 2))).
  - unfold midrank. lra.
  - intros i Hi. apply in_seq in Hi. rewrite nth_indep with (d' := midrank (INR n) 0) by (rewrite map_length, seq_length; lia). rewrite map_nth, seq_nth by lia.
    cbn [plus]. unfold za_term. replace 0.5 with (1 / 2) by lra. reflexivity.
Qed.
Lemma zwa_min l v : zwa l = Ok (Some (Fin v)) -> zwa_floor (length l) <= v /\
  (v = zwa_floor (length l) <-> forall i, (i < length l)%nat -> fitted_normal l (nth i (rsort l) 0) = (INR (S i) - 1 / 2) / len l).
Proof.
  unfold zwa. cbv zeta. rewrite zwa_zhang. intros H. apply gt3_inv in H as [Hn H]. apply num_inv in H as [V ->]. pose proof (sd1_pos l V ltac:(lia)) as Hs.
  rewrite zwa_floor_ideal. rewrite <- phiz_length. destruct (zhang_a_min (phiz l)) as [A B].
  - apply phiz_sorted.
  - intros E. apply (f_equal (@length R)) in E. rewrite phiz_length in E. simpl in E. lia.
  - apply phiz_01.
  - split; [lra|]. rewrite phiz_length in *. split.
    + intros E i Hi. assert (Q : phiz l = ideal_unit (length l)) by (apply B; lra). pose proof (phiz_nth l i Hs Hi) as P. rewrite Q, nth_error_ideal in P by trivial.
      injection P as P. rewrite <- P. unfold midrank, len. field. apply not_0_INR. lia.
    + intros E. assert (Q : phiz l = ideal_unit (length l)); [|now rewrite Q].
      apply list_nth_error_eq; [now rewrite phiz_length, ideal_unit_length|]. intros i x Hx. assert (Hi : (i < length l)%nat) by (rewrite <- phiz_length; apply nth_error_Some; congruence).
      rewrite phiz_nth in Hx by trivial. rewrite nth_error_ideal by trivial. rewrite <- Hx, E by trivial. unfold midrank, len. f_equal. field. apply not_0_INR. lia.
Qed.
