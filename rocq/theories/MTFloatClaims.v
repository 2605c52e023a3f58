(** Claims about the corrections in binary64. *)
From Verif Require Import Base MTModel MTSpec MTProofs MTMoreProofs MTFloat MTFloatModel ProbSpec ProbProofs MTErrorSpec MTErrorProofs MTFloatSpec MTFloatProofs.
From Flocq Require Import Core.
From Coq Require Import Lra Lia.

Lemma float_valid p : float_pvalues p -> pvalues p.
Proof. intros H x Hx. apply (H x Hx). Qed.
Lemma validate_ok p : pvalues p -> validate_p_values p = Ok tt.
Proof.
  intros H. unfold validate_p_values, p_values_valid.
  replace (forallb _ p) with true; [reflexivity|]. symmetry. apply forallb_forall. intros x Hx. destruct (H x Hx).
  apply andb_true_intro. split; apply Rleb_true; lra.
Qed.
Lemma pointwise_map (f : R -> R) p (Q : R -> R -> Prop) : (forall x, In x p -> Q x (f x)) -> pointwise Q p (map f p).
Proof.
  intros H. split; [apply map_length|]. intros i Hi. rewrite (nth_indep (map f p) 0 (f 0)) by (rewrite map_length; exact Hi).
  rewrite map_nth. apply H, nth_In, Hi.
Qed.
Lemma order_map (f : R -> R) p : (forall x y, In x p -> In y p -> x <= y -> f x <= f y) -> order_kept p (map f p).
Proof.
  intros H i j Hi Hj Hij. rewrite (nth_indep (map f p) 0 (f 0)) by (rewrite map_length; exact Hi).
  rewrite (nth_indep (map f p) 0 (f 0) (n := j)) by (rewrite map_length; exact Hj). rewrite !map_nth.
  apply H; auto using nth_In.
Qed.
Lemma sidak_float_good pow p m : pow_ok pow -> 0 <= p <= 1 -> 0 <= sidak_float pow p m <= 1.
Proof.
  intros [A _] Hp. assert (B : 0 <= fl (1 - p) <= 1).
  { split; [apply fl_nonneg; lra|apply fl_le; [apply b64_one|lra]]. }
  destruct (A _ m B) as [L U]. unfold sidak_float. split; [apply fl_nonneg; lra|apply fl_le; [apply b64_one|lra]].
Qed.
Lemma sidak_float_mono pow p q m : pow_ok pow -> 0 <= p <= q -> q <= 1 -> sidak_float pow p m <= sidak_float pow q m.
Proof.
  intros [_ A] H H1. unfold sidak_float. apply fl_mono.
  assert (0 <= fl (1 - q) <= fl (1 - p)) by (split; [apply fl_nonneg; lra|apply fl_mono; lra]).
  assert (fl (1 - p) <= 1) by (apply fl_le; [apply b64_one|lra]). pose proof (A (fl (1 - q)) (fl (1 - p)) m). lra.
Qed.
Lemma empty_pointwise (Q : R -> R -> Prop) : pointwise Q [] [].
Proof. split; auto. simpl. lia. Qed.
Lemma empty_order : order_kept [] [].
Proof. intros i j Hi. simpl in Hi. lia. Qed.

(** all five procedures: values in [0,1], order of the hypotheses kept *)
Lemma C111_float_range_and_order_holds : forall pow factor mt p a,
  pow_ok pow -> factor_ok factor -> float_pvalues p -> (Z.of_nat (length p) < 2 ^ 53)%Z ->
  adjust_float pow factor mt p = Ok a -> pointwise (fun x v => 0 <= v <= 1) p a /\ order_kept p a.
Proof.
  intros pow factor mt p a Hpow Hf Hp Hn E. pose proof (float_valid p Hp) as Hv.
  assert (W : pointwise (fun x v => x <= v <= 1) p a -> pointwise (fun x v => 0 <= v <= 1) p a).
  { intros [La H]. split; auto. intros i Hi. specialize (H i Hi). pose proof (Hv _ (nth_In p 0 Hi)). lra. }
  destruct mt; simpl in E.
  - unfold bonferroni_adjust_float in E. rewrite validate_ok in E by exact Hv. simpl in E. injection E as <-.
    destruct p as [|x0 p0] eqn:Ep; [split; [apply empty_pointwise|apply empty_order]|]. rewrite <- Ep in *.
    assert (L : (1 <= length p)%nat) by (rewrite Ep; simpl; lia). split.
    + apply W, pointwise_map. intros x Hx. destruct (Hp x Hx). apply bonferroni_float_range; auto.
    + apply order_map. intros x y Hx Hy Hxy. unfold bonferroni_float. apply Rle_min_compat_r, fl_mono.
      apply Rmult_le_compat_r; [apply fl_nonneg, pos_INR|exact Hxy].
  - unfold sidak_adjust_float in E. rewrite validate_ok in E by exact Hv. simpl in E. injection E as <-. split.
    + apply pointwise_map. intros x Hx. apply sidak_float_good; auto.
    + apply order_map. intros x y Hx Hy Hxy. destruct (Hv x Hx), (Hv y Hy). apply sidak_float_mono; auto; lra.
  - destruct (holm_float_good p Hp a E). auto.
  - assert (E' : Ok (map (fun x => Rmin 1 (sidak_float pow x (length p))) p) = Ok a) by (rewrite <- E; destruct p; reflexivity).
    injection E' as <-. split.
    + apply pointwise_map. intros x Hx. destruct (sidak_float_good pow x (length p) Hpow (Hv x Hx)).
      split; [apply Rmin_glb; lra|apply Rmin_l].
    + apply order_map. intros x y Hx Hy Hxy. destruct (Hv x Hx), (Hv y Hy). apply Rle_min_compat_l, sidak_float_mono; auto; lra.
  - destruct (by_float_good p Hp factor a Hf Hn E). auto.
Qed.
(** three of them never fall below the raw value *)
Lemma C111_float_never_below_raw_holds : forall pow factor mt p a,
  In mt [Bonferroni; Holm; BenjaminiYekutieli] -> factor_ok factor -> float_pvalues p -> (Z.of_nat (length p) < 2 ^ 53)%Z ->
  adjust_float pow factor mt p = Ok a -> pointwise (fun x v => x <= v <= 1) p a.
Proof.
  intros pow factor mt p a Hmt Hf Hp Hn E. destruct Hmt as [<-|[<-|[<-|[]]]]; simpl in E.
  - unfold bonferroni_adjust_float in E. rewrite validate_ok in E by (apply float_valid, Hp). simpl in E. injection E as <-.
    destruct p as [|x0 p0] eqn:Ep; [apply empty_pointwise|]. rewrite <- Ep in *.
    apply pointwise_map. intros x Hx. destruct (Hp x Hx). apply bonferroni_float_range; auto. rewrite Ep; simpl; lia.
  - apply (holm_float_good p Hp a E).
  - apply (by_float_good p Hp factor a Hf Hn E).
Qed.

Lemma fold_sum_ge l : forall s, is_b64 s -> s <= fold_left (fun s i => fl (s + fl (1 / of_int i))) l s.
Proof.
  induction l as [|i l IH]; simpl; intros s Hs; [lra|].
  eapply Rle_trans; [|apply IH, fl_b64]. apply fl_ge; auto.
  assert (0 <= fl (1 / of_int i)); [|lra]. apply fl_nonneg. unfold Rdiv. rewrite Rmult_1_l.
  assert (H : 0 <= of_int i) by (apply fl_nonneg, pos_INR). destruct H as [H|<-]; [apply Rlt_le, Rinv_0_lt_compat, H|].
  rewrite Rinv_0. lra.
Qed.
Lemma b64_dyadic k e : (Z.abs k < 2 ^ 53)%Z -> (-1074 <= e)%Z -> is_b64 (IZR k * bpow radix2 e).
Proof.
  intros Hk He. unfold is_b64, b64. apply generic_format_FLT. exists (Float radix2 k e); auto.
Qed.
(** the harmonic factor summed from left to right satisfies the assumption *)
Lemma C111_plain_factor_ok_holds : factor_ok factor_plain.
Proof.
  assert (E1 : of_int 1 = 1) by (rewrite of_int_exact; [reflexivity|simpl; lia]).
  assert (E2 : of_int 2 = 2) by (rewrite of_int_exact; [reflexivity|simpl; lia]).
  assert (F1 : fl (0 + fl (1 / of_int 1)) = 1).
  { rewrite E1. replace (1 / 1) with 1 by field. rewrite (fl_id 1) by apply b64_one. rewrite Rplus_0_l. apply fl_id, b64_one. }
  assert (H2 : fl (1 / of_int 2) = 1 / 2).
  { rewrite E2. apply fl_id. replace (1 / 2) with (IZR 1 * bpow radix2 (-1)) by (simpl; lra). apply b64_dyadic; lia. }
  assert (F2 : fl (1 + fl (1 / of_int 2)) = 3 / 2).
  { rewrite H2. replace (1 + 1 / 2) with (3 / 2) by lra. apply fl_id. replace (3 / 2) with (IZR 3 * bpow radix2 (-1)) by (simpl; lra). apply b64_dyadic; lia. }
  split.
  - unfold factor_plain. cbn [seq fold_left]. rewrite F1. lra.
  - intros n Hn. destruct n as [|[|n]]; try lia. unfold factor_plain. cbn [seq fold_left]. rewrite F1, F2.
    apply fold_sum_ge. replace (3 / 2) with (IZR 3 * bpow radix2 (-1)) by (simpl; lra). apply b64_dyadic; lia.
Qed.

Lemma factor_plain_snoc n : factor_plain (S n) = fl (factor_plain n + fl (1 / of_int (S n))).
Proof. unfold factor_plain. rewrite seq_S, fold_left_app. reflexivity. Qed.
Lemma factor_plain_1 : factor_plain 1 = 1.
Proof.
  unfold factor_plain. cbn [seq fold_left]. rewrite of_int_exact by (simpl; lia). replace (1 / INR 1) with 1 by (simpl; field).
  rewrite (fl_id 1) by apply b64_one. rewrite Rplus_0_l. apply fl_id, b64_one.
Qed.
Lemma factor_plain_ge1 n : (1 <= n)%nat -> 1 <= factor_plain n.
Proof.
  intros H. destruct n as [|[|n]]; [lia|rewrite factor_plain_1; lra|]. assert (3 / 2 <= factor_plain (S (S n))); [|lra].
  apply C111_plain_factor_ok_holds. lia.
Qed.
Definition harmonic_sum n := Rsum (map (fun i => 1 / INR i) (seq 1 n)).
Lemma harmonic_sum_S n : harmonic_sum (S n) = harmonic_sum n + 1 / INR (S n).
Proof. unfold harmonic_sum. rewrite seq_S, map_app, Rsum_app. simpl Rsum. ring_simplify. reflexivity. Qed.
Lemma harmonic_sum_nonneg n : 0 <= harmonic_sum n.
Proof.
  induction n; [unfold harmonic_sum; simpl; lra|]. rewrite harmonic_sum_S.
  assert (0 < 1 / INR (S n)); [|lra]. apply Rdiv_lt_0_compat; [lra|apply lt_0_INR; lia].
Qed.
Lemma bpow_1022_tiny : bpow radix2 (-1022) <= ulp_half.
Proof. unfold ulp_half. apply bpow_le. lia. Qed.
(** the error of the sum grows with the number of its terms *)
Lemma factor_plain_within n : (1 <= n)%nat -> (Z.of_nat n <= 10000)%Z -> within (2 * INR n * ulp_half) (harmonic_sum n) (factor_plain n).
Proof.
  intros H1. induction n as [|n IH]; [lia|]. intros Hn. pose proof ulp_half_pos as Up. pose proof ulp_half_small as Us.
  destruct (Nat.eq_dec n 0) as [->|N0].
  { rewrite factor_plain_1. unfold harmonic_sum, within. simpl. lra. }
  assert (Hn' : (Z.of_nat n <= 10000)%Z) by lia. specialize (IH ltac:(lia) Hn').
  rewrite factor_plain_snoc, harmonic_sum_S. rewrite of_int_exact by lia.
  assert (I1 : 1 <= INR n) by (apply INR_ge1; lia).
  assert (I2 : INR n <= 10000) by (rewrite INR_IZR_INZ; apply IZR_le; exact Hn').
  assert (D : 2 * INR n * ulp_half <= 1 / 2).
  { eapply Rle_trans; [apply Rmult_le_compat_r; [lra|apply Rmult_le_compat_l; [lra|exact I2]]|]. unfold ulp_half. simpl. lra. }
  assert (T : within ulp_half (1 / INR (S n)) (fl (1 / INR (S n)))).
  { apply fl_within. eapply Rle_trans; [apply bpow_1022_tiny|]. rewrite S_INR. unfold Rdiv. rewrite Rmult_1_l.
    replace ulp_half with (/ / ulp_half) by apply Rinv_inv. apply Rinv_le_contravar; [lra|].
    eapply Rle_trans; [apply (Rplus_le_compat_r 1), I2|]. unfold ulp_half. simpl. lra. }
  set (h := harmonic_sum n) in *. pose proof (harmonic_sum_nonneg n) as Hh. fold h in Hh.
  set (x := 1 / INR (S n)) in *. assert (Hx : 0 < x) by (apply Rdiv_lt_0_compat; [lra|apply lt_0_INR; lia]).
  set (d := 2 * INR n * ulp_half) in *. assert (Du : ulp_half <= d) by (unfold d; nra).
  pose proof (factor_plain_ge1 n ltac:(lia)) as G1. destruct IH as [L1 U1]. destruct T as [L2 U2].
  assert (Y : within d (h + x) (factor_plain n + fl x)) by (unfold within; split; nra).
  assert (Z : within ulp_half (factor_plain n + fl x) (fl (factor_plain n + fl x))).
  { apply fl_within. eapply Rle_trans; [apply bpow_1022_tiny|]. assert (0 <= fl x) by (apply fl_nonneg; lra). lra. }
  pose proof (within_trans d ulp_half (h + x) _ _ ltac:(lra) ltac:(lra) ltac:(lra) Y Z) as [A B].
  assert (E : 2 * INR (S n) * ulp_half = d + 2 * ulp_half) by (unfold d; rewrite S_INR; ring). rewrite E.
  unfold within. split.
  - eapply Rle_trans; [|exact A]. apply Rmult_le_compat_r; [lra|]. nra.
  - eapply Rle_trans; [exact B|]. apply Rmult_le_compat_r; [lra|]. nra.
Qed.
Lemma C111_plain_factor_error_holds : forall n, (1 <= n)%nat -> (Z.of_nat n <= 10000)%Z ->
  within (2 * INR n * ulp_half) (by_factor n) (factor_plain n).
Proof.
  intros n H1 H2. unfold by_factor. replace (N.ltb 10000 (N.of_nat n)) with false by (symmetry; apply N.ltb_ge; lia).
  apply (factor_plain_within n H1 H2).
Qed.

(** errors *)
Lemma C111_relative_error_holds : forall pow factor mt p a b d,
  In mt [Bonferroni; Holm; BenjaminiYekutieli] -> factor_ok factor -> float_pvalues p -> (Z.of_nat (length p) < 2 ^ 53)%Z ->
  (mt = BenjaminiYekutieli -> normal_or_zero p /\ 0 <= d <= 1 / 2 /\ within d (by_factor (length p)) (factor (length p))) ->
  adjust mt p = Ok a -> adjust_float pow factor mt p = Ok b ->
  forall i, (i < length p)%nat -> within (method_error mt d) (nth i a 0) (nth i b 0).
Proof.
  intros pow factor mt p a b d Hmt Hf Hp Hn Hby Ea Eb i Hi. pose proof (float_valid p Hp) as Hv.
  pose proof ulp_half_le1 as U1.
  assert (K : forall t f e, 0 <= e <= 1 -> 
    (forall k, (k < length p)%nat -> get a (nth k (sorted_indices p) 0%nat) = sm t k (length p - k)) ->
    (forall k, (k < length p)%nat -> get b (nth k (sorted_indices p) 0%nat) = sm f k (length p - k)) ->
    (forall k, (k < length p)%nat -> within e (t k) (f k)) -> within e (nth i a 0) (nth i b 0)).
  { intros t f e He Ga Gb H. destruct (sorted_indices_rank p i Hi) as [k [Hk <-]].
    fold (get a (nth k (sorted_indices p) 0%nat)). fold (get b (nth k (sorted_indices p) 0%nat)).
    rewrite Ga, Gb by exact Hk. apply sm_within; auto. intros j Hj. apply H. lia. }
  destruct Hmt as [<-|[<-|[<-|[]]]]; simpl in Ea, Eb; unfold method_error.
  - unfold bonferroni_adjust in Ea. unfold bonferroni_adjust_float in Eb. rewrite validate_ok in Ea, Eb by exact Hv.
    simpl in Ea, Eb. injection Ea as <-. injection Eb as <-.
    rewrite (nth_indep (map (fun x => Rmin (x * INR (length p)) 1) p) 0 (Rmin (0 * INR (length p)) 1)) by (rewrite map_length; exact Hi).
    rewrite (nth_indep (map (fun x => bonferroni_float x (length p)) p) 0 (bonferroni_float 0 (length p))) by (rewrite map_length; exact Hi).
    rewrite (map_nth (fun x => Rmin (x * INR (length p)) 1)), (map_nth (fun x => bonferroni_float x (length p))).
    destruct (Hp _ (nth_In p 0 Hi)) as [F B]. unfold bonferroni_float. fold (of_int (length p)). rewrite of_int_exact by exact Hn.
    rewrite !(Rmin_comm _ 1). apply within_min; auto.
    + apply Rmult_le_pos; [lra|apply pos_INR].
    + apply fl_multiple; [exact F|lra].
  - destruct (holm_adjust_char p) as (a' & Ea' & La & Ga). rewrite Ea in Ea'. injection Ea' as <-.
    destruct (holm_float_char p) as (b' & Eb' & Lb & Gb). rewrite Eb in Eb'. injection Eb' as <-.
    apply (K _ _ _ U1 Ga Gb). intros k Hk. destruct (sorted_float p Hp k Hk) as [F B].
    unfold holm_term, holm_fterm. rewrite of_int_exact by lia. apply within_min; auto.
    + apply Rmult_le_pos; [lra|apply pos_INR].
    + apply fl_multiple; [exact F|lra].
  - destruct (Hby eq_refl) as (Hz & Hd & Hc). pose proof ulp_half_small. destruct Hf as [F1 F2].
    destruct (by_adjust_char p) as (a' & Ea' & La & Ga). rewrite Ea in Ea'. injection Ea' as <-.
    destruct (by_float_char factor p) as (b' & Eb' & Lb & Gb). rewrite Eb in Eb'. injection Eb' as <-.
    refine (K _ _ _ _ Ga Gb _); [lra|]. intros k Hk. destruct (sorted_float p Hp k Hk) as [F B].
    unfold by_term, by_fterm. rewrite !of_int_exact by lia.
    assert (Hh : 0 <= by_factor (length p)) by apply by_factor_ge_gamma.
    apply within_min; [lra| |].
    + unfold Rdiv. repeat apply Rmult_le_pos; try lra; try apply pos_INR. apply Rlt_le, Rinv_0_lt_compat, lt_0_INR. lia.
    + apply by_value_within; auto.
      * apply Hz. apply rsort_in, nth_In. rewrite rsort_length. exact Hk.
      * lia.
      * destruct (Nat.eq_dec (length p) 1) as [E1|N1]; [left; split; auto; rewrite E1; exact F1|right].
        split; [lia|]. apply F2. lia.
Qed.

(** Benjamini-Yekutieli as computed, up to 10000 hypotheses *)
Lemma C111_by_error_holds : forall pow p a b,
  float_pvalues p -> normal_or_zero p -> (Z.of_nat (length p) <= 10000)%Z ->
  adjust BenjaminiYekutieli p = Ok a -> adjust_float pow factor_plain BenjaminiYekutieli p = Ok b ->
  forall i, (i < length p)%nat -> within ((2 * INR (length p) + 7) * ulp_half) (nth i a 0) (nth i b 0).
Proof.
  intros pow p a b Hp Hz Hn Ea Eb i Hi. pose proof ulp_half_pos as Up.
  pose proof (C111_relative_error_holds pow factor_plain BenjaminiYekutieli p a b (2 * INR (length p) * ulp_half)) as H.
  unfold method_error in H. replace ((2 * INR (length p) + 7) * ulp_half) with (2 * INR (length p) * ulp_half + 7 * ulp_half) by ring.
  apply H; auto.
  - right; right; left; auto.
  - apply C111_plain_factor_ok_holds.
  - lia.
  - intros _. split; auto. split; [split|apply C111_plain_factor_error_holds; lia].
    + pose proof (pos_INR (length p)). nra.
    + assert (I2 : INR (length p) <= 10000) by (rewrite INR_IZR_INZ; apply IZR_le; exact Hn).
      eapply Rle_trans; [apply Rmult_le_compat_r; [lra|apply Rmult_le_compat_l; [lra|exact I2]]|]. unfold ulp_half. simpl. lra.
Qed.

(** decisions *)
Lemma nth_flags (f : R -> bool) l i : (i < length l)%nat -> nth i (map f l) false = f (nth i l 0).
Proof.
  intros H. rewrite (nth_indep _ false (f 0)) by (rewrite map_length; exact H). apply map_nth.
Qed.
Lemma exact_flags mt p thr a : pvalues p -> adjust mt p = Ok a -> decisions mt p thr = map (fun x => Rltb x thr) a.
Proof. intros Hv E. unfold decisions, mt_test. rewrite validate_ok by exact Hv. simpl. rewrite E. reflexivity. Qed.
Lemma float_flags pow factor mt p thr a : pvalues p -> adjust_float pow factor mt p = Ok a ->
  float_decisions pow factor mt p thr = map (fun x => Rltb x thr) a.
Proof. intros Hv E. unfold float_decisions, mt_test_float. rewrite validate_ok by exact Hv. simpl. rewrite E. reflexivity. Qed.
Lemma adjust_lengths mt p a : pvalues p -> adjust mt p = Ok a -> length a = length p.
Proof.
  intros Hv E. destruct mt; simpl in E.
  - unfold bonferroni_adjust in E. rewrite validate_ok in E by exact Hv. simpl in E. injection E as <-. apply map_length.
  - unfold sidak_adjust in E. rewrite validate_ok in E by exact Hv. simpl in E. injection E as <-. apply map_length.
  - destruct (holm_adjust_char p) as (a' & E' & L & _). congruence.
  - assert (E' : Ok (map (fun x => Rmin 1 (1 - (1 - x) ^ length p)) p) = Ok a) by (rewrite <- E; destruct p; reflexivity).
    injection E' as <-. apply map_length.
  - destruct (by_adjust_char p) as (a' & E' & L & _). congruence.
Qed.
Lemma float_lengths pow factor mt p a : pvalues p -> adjust_float pow factor mt p = Ok a -> length a = length p.
Proof.
  intros Hv E. destruct mt; simpl in E.
  - unfold bonferroni_adjust_float in E. rewrite validate_ok in E by exact Hv. simpl in E. injection E as <-. apply map_length.
  - unfold sidak_adjust_float in E. rewrite validate_ok in E by exact Hv. simpl in E. injection E as <-. apply map_length.
  - destruct (holm_float_char p) as (a' & E' & L & _). congruence.
  - assert (E' : Ok (map (fun x => Rmin 1 (sidak_float pow x (length p))) p) = Ok a) by (rewrite <- E; destruct p; reflexivity).
    injection E' as <-. apply map_length.
  - destruct (by_float_char factor p) as (a' & E' & L & _). congruence.
Qed.
Lemma adjust_total mt p : pvalues p -> exists a, adjust mt p = Ok a.
Proof.
  intros Hv. destruct mt; simpl.
  - unfold bonferroni_adjust. rewrite validate_ok by exact Hv. eexists. reflexivity.
  - unfold sidak_adjust. rewrite validate_ok by exact Hv. eexists. reflexivity.
  - destruct (holm_adjust_char p) as (a' & E' & _). eauto.
  - unfold sidak_holm_adjust. destruct p; eexists; reflexivity.
  - destruct (by_adjust_char p) as (a' & E' & _). eauto.
Qed.
Lemma float_total pow factor mt p : pvalues p -> exists a, adjust_float pow factor mt p = Ok a.
Proof.
  intros Hv. destruct mt; simpl.
  - unfold bonferroni_adjust_float. rewrite validate_ok by exact Hv. eexists. reflexivity.
  - unfold sidak_adjust_float. rewrite validate_ok by exact Hv. eexists. reflexivity.
  - destruct (holm_float_char p) as (a' & E' & _). eauto.
  - unfold sidak_holm_adjust_float. destruct p; eexists; reflexivity.
  - destruct (by_float_char factor p) as (a' & E' & _). eauto.
Qed.
Lemma C111_decisions_agree_away_from_threshold_holds : forall pow factor mt p a d threshold,
  In mt [Bonferroni; Holm; BenjaminiYekutieli] -> factor_ok factor -> float_pvalues p -> (Z.of_nat (length p) < 2 ^ 53)%Z ->
  (mt = BenjaminiYekutieli -> normal_or_zero p /\ 0 <= d <= 1 / 2 /\ within d (by_factor (length p)) (factor (length p))) ->
  adjust mt p = Ok a ->
  forall i, (i < length p)%nat ->
  threshold <= (1 - method_error mt d) * nth i a 0 \/ (1 + method_error mt d) * nth i a 0 < threshold ->
  rejected_at (float_decisions pow factor mt p threshold) i = rejected_at (decisions mt p threshold) i.
Proof.
  intros pow factor mt p a d thr Hmt Hf Hp Hn Hby Ea i Hi Ht. pose proof (float_valid p Hp) as Hv.
  destruct (float_total pow factor mt p Hv) as [b Eb].
  pose proof (C111_relative_error_holds pow factor mt p a b d Hmt Hf Hp Hn Hby Ea Eb i Hi) as [L U].
  unfold rejected_at. rewrite (exact_flags mt p thr a), (float_flags pow factor mt p thr b) by auto.
  rewrite !nth_flags by (rewrite ?(adjust_lengths mt p a), ?(float_lengths pow factor mt p b); auto).
  assert (E0 : 0 <= method_error mt d).
  { pose proof ulp_half_pos. destruct mt; simpl; try lra. destruct (Hby eq_refl) as (_ & Hd & _). lra. }
  assert (A0 : 0 <= nth i a 0).
  { destruct Hmt as [<-|[<-|[<-|[]]]].
    - simpl in Ea. unfold bonferroni_adjust in Ea. rewrite validate_ok in Ea by exact Hv. simpl in Ea. injection Ea as <-.
      rewrite (nth_indep (map (fun x => Rmin (x * INR (length p)) 1) p) 0 (Rmin (0 * INR (length p)) 1)) by (rewrite map_length; exact Hi).
      rewrite (map_nth (fun x => Rmin (x * INR (length p)) 1)). pose proof (Hv _ (nth_In p 0 Hi)).
      apply Rmin_glb; [apply Rmult_le_pos; [lra|apply pos_INR]|lra].
    - destruct (holm_adjust_char p) as (a' & Ea' & La & Ga). simpl in Ea. rewrite Ea in Ea'. injection Ea' as <-.
      destruct (sorted_indices_rank p i Hi) as [k [Hk <-]]. fold (get a (nth k (sorted_indices p) 0%nat)). rewrite Ga by exact Hk.
      apply sm_ge; [lra|]. intros j Hj. unfold holm_term. apply Rmin_glb; [lra|]. apply Rmult_le_pos; [apply sorted_pvalues, Hv|apply pos_INR].
    - destruct (by_adjust_char p) as (a' & Ea' & La & Ga). simpl in Ea. rewrite Ea in Ea'. injection Ea' as <-.
      destruct (sorted_indices_rank p i Hi) as [k [Hk <-]]. fold (get a (nth k (sorted_indices p) 0%nat)). rewrite Ga by exact Hk.
      apply sm_ge; [lra|]. intros j Hj. unfold by_term. apply Rmin_glb; [lra|]. unfold Rdiv.
      repeat apply Rmult_le_pos; try apply pos_INR; [apply sorted_pvalues, Hv|apply by_factor_ge_gamma|].
      apply Rlt_le, Rinv_0_lt_compat, lt_0_INR. lia. }
  destruct (Rltb_spec (nth i b 0) thr), (Rltb_spec (nth i a 0) thr); auto; exfalso; nra.
Qed.
(** rounding never creates a rejection *)
Lemma C111_float_rejections_are_rejections_holds : forall pow factor mt p threshold i,
  In mt [Bonferroni; Holm] -> float_pvalues p -> (Z.of_nat (length p) < 2 ^ 53)%Z -> is_b64 threshold ->
  rejected_at (float_decisions pow factor mt p threshold) i = true -> rejected_at (decisions mt p threshold) i = true.
Proof.
  intros pow factor mt p thr i Hmt Hp Hn Ht H. pose proof (float_valid p Hp) as Hv.
  destruct (float_total pow factor mt p Hv) as [b Eb]. destruct (adjust_total mt p Hv) as [a Ea].
  unfold rejected_at in *. rewrite (exact_flags mt p thr a) by auto. rewrite (float_flags pow factor mt p thr b) in H by auto.
  pose proof (adjust_lengths mt p a Hv Ea) as La. pose proof (float_lengths pow factor mt p b Hv Eb) as Lb.
  destruct (le_lt_dec (length p) i) as [Hi|Hi]; [rewrite nth_overflow in H by (rewrite map_length; lia); discriminate|].
  rewrite nth_flags in H by lia. rewrite nth_flags by lia. apply Rltb_true in H. apply Rltb_true.
  assert (C : forall x, fl x < thr -> x < thr).
  { intros x Hx. apply Rnot_le_lt. intros Hle. apply (Rlt_not_le _ _ Hx). apply fl_ge; auto. }
  destruct Hmt as [<-|[<-|[]]]; simpl in Ea, Eb.
  - unfold bonferroni_adjust in Ea. unfold bonferroni_adjust_float in Eb. rewrite validate_ok in Ea, Eb by exact Hv.
    simpl in Ea, Eb. injection Ea as <-. injection Eb as <-.
    rewrite (nth_indep (map (fun x => Rmin (x * INR (length p)) 1) p) 0 (Rmin (0 * INR (length p)) 1)) by (rewrite map_length; exact Hi).
    rewrite (nth_indep (map (fun x => bonferroni_float x (length p)) p) 0 (bonferroni_float 0 (length p))) in H by (rewrite map_length; exact Hi).
    rewrite (map_nth (fun x => Rmin (x * INR (length p)) 1)). rewrite (map_nth (fun x => bonferroni_float x (length p))) in H.
    unfold bonferroni_float in H. fold (of_int (length p)) in H. rewrite of_int_exact in H by exact Hn.
    unfold Rmin in *. destruct (Rle_dec (fl (nth i p 0 * INR (length p))) 1) as [G|G].
    + apply C in H. destruct (Rle_dec (nth i p 0 * INR (length p)) 1); lra.
    + destruct (Rle_dec (nth i p 0 * INR (length p)) 1); lra.
  - destruct (holm_adjust_char p) as (a' & Ea' & _ & Ga). rewrite Ea in Ea'. injection Ea' as <-.
    destruct (holm_float_char p) as (b' & Eb' & _ & Gb). rewrite Eb in Eb'. injection Eb' as <-.
    destruct (sorted_indices_rank p i Hi) as [k [Hk <-]].
    fold (get a (nth k (sorted_indices p) 0%nat)). fold (get b (nth k (sorted_indices p) 0%nat)) in H.
    rewrite Ga by exact Hk. rewrite Gb in H by exact Hk.
    destruct (sm_attained (holm_fterm p) k (length p - k)) as [E|(j & Hj & E)]; rewrite E in H.
    + eapply Rle_lt_trans; [apply sm_le1|exact H].
    + eapply Rle_lt_trans; [apply (sm_le _ k _ j Hj)|]. unfold holm_fterm in H. unfold holm_term.
      rewrite of_int_exact in H by lia. unfold Rmin in *.
      destruct (Rle_dec 1 (fl (nth j (rsort p) 0 * INR (length p - j)))) as [G|G].
      * destruct (Rle_dec 1 (nth j (rsort p) 0 * INR (length p - j))); lra.
      * apply C in H. destruct (Rle_dec 1 (nth j (rsort p) 0 * INR (length p - j))); lra.
Qed.
(** so the error rate of the program as it runs is at most that of the exact procedure *)
Lemma C111_float_fwer_at_most_exact_holds : forall (Om : Type) (E : (Om -> R) -> R) pow factor mt m nulls X threshold,
  is_expectation E -> In mt [Bonferroni; Holm] -> (forall w, length (X w) = m /\ float_pvalues (X w)) -> (Z.of_nat m < 2 ^ 53)%Z ->
  is_b64 threshold ->
  float_FWER pow factor E mt m nulls X threshold <= FWER E mt m nulls X threshold.
Proof.
  intros Om E pow factor mt m nulls X thr HE Hmt Hf Hm Ht.
  unfold float_FWER, FWER, Pr. apply (E_mono E HE); try apply bounded_ind.
  intros w. cbv beta. destruct (some_false_rejection m nulls (float_decisions pow factor mt (X w) thr)) eqn:S1.
  - replace (some_false_rejection m nulls (decisions mt (X w) thr)) with true; [apply Rle_refl|]. symmetry.
    unfold some_false_rejection in *. apply existsb_exists in S1. destruct S1 as (i & Hi & Hr). apply existsb_exists. exists i. split; auto.
    apply andb_prop in Hr. destruct Hr as [-> Hr]. simpl. destruct (Hf w) as [L F].
    apply (C111_float_rejections_are_rejections_holds pow factor mt (X w) thr i); auto. rewrite L. exact Hm.
  - unfold ind. destruct (some_false_rejection m nulls (decisions mt (X w) thr)); cbv iota; lra.
Qed.
Lemma C111_bonferroni_float_fwer_holds : forall (Om : Type) (E : (Om -> R) -> R) pow factor m nulls X threshold,
  is_expectation E -> valid_null_pvalues E m nulls X -> (forall w, float_pvalues (X w)) -> (Z.of_nat m < 2 ^ 53)%Z ->
  is_b64 threshold -> 0 <= threshold ->
  float_FWER pow factor E Bonferroni m nulls X threshold <= threshold.
Proof.
  intros Om E pow factor m nulls X thr HE HX Hf Hm Ht H0.
  eapply Rle_trans; [|apply (bonferroni_fwer E m nulls X thr HE HX H0)].
  apply C111_float_fwer_at_most_exact_holds; auto; [left; auto|]. intros w. split; auto. apply HX.
Qed.
(** a rejection can be lost in rounding *)
Lemma C111_decisions_equal_refuted_holds : exists p threshold, float_pvalues p /\ length p = 5%nat /\ is_b64 threshold /\ 0 < threshold < 1 /\
  forall pow factor, rejected_at (decisions Bonferroni p threshold) 0 = true /\ rejected_at (float_decisions pow factor Bonferroni p threshold) 0 = false.
Proof.
  set (x := IZR 4503599627370499 * bpow radix2 (-55)). set (thr := IZR 5629499534213124 * bpow radix2 (-53)).
  assert (Bx : is_b64 x) by (apply b64_dyadic; lia). assert (Bt : is_b64 thr) by (apply b64_dyadic; lia).
  assert (X1 : 0 <= x <= 1) by (unfold x; simpl; lra). assert (T1 : 0 < thr < 1) by (unfold thr; simpl; lra).
  assert (Lt : x * 5 < thr) by (unfold x, thr; simpl; lra).
  assert (Hm : mag_val radix2 _ (mag radix2 (x * 5)) = 0%Z).
  { apply mag_unique. rewrite Rabs_pos_eq by lra. unfold x. simpl. lra. }
  assert (Fl : fl (x * 5) = thr).
  { unfold fl, round, F2R, scaled_mantissa, cexp. rewrite Hm. change (b64 0) with (-53)%Z. cbn [Fexp Fnum].
    assert (Hn : ZnearestE (x * 5 * bpow radix2 (- -53)) = 5629499534213124%Z).
    { apply Znearest_imp. unfold x. simpl. rewrite Rabs_left1; lra. }
    rewrite Hn. reflexivity. }
  exists [x; 1; 1; 1; 1], thr. assert (Fp : float_pvalues [x; 1; 1; 1; 1]).
  { intros y [<-|[<-|[<-|[<-|[<-|[]]]]]]; split; auto using b64_one; lra. }
  split; [exact Fp|]. split; [reflexivity|]. split; [exact Bt|]. split; [exact T1|]. intros pow factor. split.
  - pose proof (float_valid _ Fp) as Hv. destruct (adjust_total Bonferroni _ Hv) as [a Ea].
    rewrite (exact_flags _ _ thr a Hv Ea). simpl in Ea. unfold bonferroni_adjust in Ea. rewrite validate_ok in Ea by exact Hv.
    simpl in Ea. injection Ea as <-. unfold rejected_at. simpl. apply Rltb_true. eapply Rle_lt_trans; [apply Rmin_l|]. 
    replace (1 + 1 + 1 + 1 + 1) with 5 by ring. exact Lt.
  - pose proof (float_valid _ Fp) as Hv. destruct (float_total pow factor Bonferroni _ Hv) as [a Ea].
    rewrite (float_flags pow factor _ _ thr a Hv Ea). simpl in Ea. unfold bonferroni_adjust_float in Ea. rewrite validate_ok in Ea by exact Hv.
    simpl in Ea. injection Ea as <-. unfold rejected_at. cbn [map nth]. apply Rltb_false. unfold bonferroni_float.
    fold (of_int 5). rewrite of_int_exact by (simpl; lia). replace (INR 5) with 5 by (simpl; ring). rewrite Fl.
    apply Rmin_glb; lra.
Qed.
(** non-vacuity: on [1/4; 1/2] the products are exact *)
Lemma C111_nonvacuous_values_holds : forall pow factor,
  float_pvalues [1 / 4; 1 / 2] /\ adjust_float pow factor Bonferroni [1 / 4; 1 / 2] = Ok [1 / 2; 1].
Proof.
  intros pow factor. assert (B1 : is_b64 (1 / 4)).
  { replace (1 / 4) with (IZR 1 * bpow radix2 (-2)) by (simpl; lra). apply b64_dyadic; lia. }
  assert (B2 : is_b64 (1 / 2)).
  { replace (1 / 2) with (IZR 1 * bpow radix2 (-1)) by (simpl; lra). apply b64_dyadic; lia. }
  assert (Fp : float_pvalues [1 / 4; 1 / 2]) by (intros y [<-|[<-|[]]]; split; auto; lra).
  split; auto. simpl. unfold bonferroni_adjust_float. rewrite validate_ok by (apply float_valid, Fp). simpl.
  unfold bonferroni_float. fold (of_int 2). rewrite of_int_exact by (simpl; lia). replace (INR 2) with 2 by (simpl; ring).
  replace (1 / 4 * 2) with (1 / 2) by lra. replace (1 / 2 * 2) with 1 by lra. rewrite (fl_id (1 / 2)), (fl_id 1) by auto using b64_one.
  rewrite Rmin_left by lra. rewrite Rmin_left by lra. reflexivity.
Qed.
(** non-vacuity: the exact power satisfies the assumption on the power function *)
Lemma C111_nonvacuous_pow_holds : pow_ok (fun x k => x ^ k).
Proof.
  split.
  - intros x k Hx. split; [apply pow_le; lra|]. rewrite <- (pow1 k). apply pow_incr. lra.
  - intros x y k Hx Hy. apply pow_incr. lra.
Qed.
