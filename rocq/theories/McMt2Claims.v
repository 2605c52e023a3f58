(** Property C120 for the step-up corrections: Holm and Benjamini-Yekutieli on Monte-Carlo p-values. *)
From Verif Require Import Base MTModel MTSpec MTProofs ProbSpec ProbProofs MTErrorSpec MTErrorProofs DecModel DecSpec DecProofs DecMoreProofs SizeSpec SizeClaims ConvSpec ConvClaims McMtSpec McMtClaims.
From Coq Require Import Permutation Lra Lia.

(** super-uniform up to e *)
Definition nearly {Om} (E : (Om -> R) -> R) (e : R) (X : Om -> R) : Prop := forall c, 0 <= c -> Pr E (fun w => Rltb (X w) c) <= c + e.
Lemma tail_nearly {Om} (E : (Om -> R) -> R) (HE : is_expectation E) e b k c X : 0 <= b -> 0 <= e -> (1 <= k)%nat -> nearly E e X ->
  E (fun w => tail b k c (X w)) <= b * (1 + hsum k c) + e / INR k.
Proof.
  intros Hb He Hk HX; revert k Hk; induction c as [|c IH]; intros k Hk.
  - cbn [tail hsum]. rewrite (E_scal E HE (/ INR k)) by apply bounded_ind. assert (P : 0 < INR k) by (apply INR_pos; lia).
    pose proof (HX (b * INR k) ltac:(apply Rmult_le_pos; lra)) as B. unfold Pr in B. apply Rle_trans with (/ INR k * (b * INR k + e)).
    + apply Rmult_le_compat_l; [left; now apply Rinv_0_lt_compat|exact B].
    + right. field. lra.
  - cbn [tail hsum]. rewrite (E_plus E HE) by (try apply tail_bounded; apply bounded_scal, bounded_ind).
    rewrite (E_scal E HE) by apply bounded_ind. assert (P : 0 < INR k) by (apply INR_pos; lia). assert (P' : 0 < INR (S k)) by (apply INR_pos; lia).
    pose proof (HX (b * INR k) ltac:(apply Rmult_le_pos; lra)) as B. unfold Pr in B. specialize (IH (S k) ltac:(lia)).
    assert (M : (/ INR k - / INR (S k)) * E (fun w => ind (Rltb (X w) (b * INR k))) <= (/ INR k - / INR (S k)) * (b * INR k + e)) by (apply Rmult_le_compat_l; [apply inv_step; exact Hk|exact B]).
    assert (I1 : / INR k * (b * INR k) = b) by (field; lra).
    assert (I2 : / INR (S k) * (b * INR k) = b - b * / INR (S k)) by (rewrite S_INR in *; field; lra).
    unfold Rdiv in *. nra.
Qed.
Lemma by_fdr_nearly {Om} (E : (Om -> R) -> R) e m nulls X t :
  is_expectation E -> (0 < m)%nat -> 0 <= e -> (forall w, length (X w) = m /\ pvalues (X w)) -> (forall i, (i < m)%nat -> nulls i = true -> nearly E e (fun w => nth i (X w) 0)) -> 0 <= t <= 1 ->
  0 < by_factor m ->
  FDR E BenjaminiYekutieli m nulls X t
   <= t * (INR (null_count m nulls) / INR m) * (harmonic m / by_factor m) + INR (null_count m nulls) * e.
Proof.
  intros HE Hm He HX Hn Ht Hc.
  assert (Hm' : 0 < INR m) by (apply INR_pos; auto).
  set (b := t / (INR m * by_factor m)).
  assert (Hmc : 0 < INR m * by_factor m) by (apply Rmult_lt_0_compat; auto).
  assert (Hb : 0 <= b).
  { unfold b. apply Rmult_le_pos; [lra|left; apply Rinv_0_lt_compat; auto]. }
  (* pointwise bound of the false discovery proportion *)
  assert (Hpt : forall w, fdp m nulls (decisions BenjaminiYekutieli (X w) t)
     <= Rsum (map (fun i => tail b 1 (m - 1) (nth i (X w) 0)) (filter nulls (seq 0 m)))).
  { intros w. destruct (HX w) as [Hl Hp].
    assert (Htail : forall x, 0 <= tail b 1 (m - 1) x) by (intros; apply tail_nonneg; lia).
    unfold fdp. destruct (Nat.eqb_spec (rejections m (decisions BenjaminiYekutieli (X w) t)) 0) as [|HR].
    - apply Rsum_map_nonneg. auto.
    - set (r := decisions BenjaminiYekutieli (X w) t) in *.
      set (k := rejections m r) in *.
      assert (Hk : (k <= m)%nat).
      { unfold k, rejections. etransitivity; [apply count_le_length|]. rewrite seq_length; auto. }
      assert (Hk' : 0 < INR k) by (apply INR_pos; lia).
      apply Rle_trans with
        (Rsum (map (fun i => if rejected_at r i then / INR k else 0) (filter nulls (seq 0 m)))).
      + right. rewrite (sum_ind_count (rejected_at r)). unfold false_rejections, Rdiv. f_equal. f_equal.
        unfold count. clear. induction (seq 0 m) as [|i l IH]; simpl; auto.
        destruct (nulls i); simpl; [|exact IH]. destruct (rejected_at r i); simpl; auto.
      + apply Rsum_map_le. intros i Hi. apply filter_In in Hi. destruct Hi as [Hi Ni].
        destruct (rejected_at r i) eqn:Er; [|apply Htail].
        destruct (by_is_step_up (X w) Hp) as (adj & Ha & Hpw); [rewrite Hl; lra|].
        rewrite Hl in Hpw.
        destruct (step_up_self_consistent BenjaminiYekutieli
           (fun k => INR (length (X w)) * by_factor m / INR k) (X w) t adj i) as (j & Hj & Hx & Hlt & HjR); auto; [lra|].
        rewrite Hl in *. fold r k in HjR.
        apply tail_ge; auto; try lia.
        assert (Hj' : 0 < INR j) by (apply INR_pos; lia).
        apply Rlt_le_trans with (b * INR j).
        * eapply Rle_lt_trans; [exact Hx|]. unfold b.
          apply (Rmult_lt_reg_r (INR m * by_factor m / INR j)).
          { apply Rmult_lt_0_compat; [auto|apply Rinv_0_lt_compat; auto]. }
          rewrite Rmult_comm. eapply Rlt_le_trans; [exact Hlt|]. right. field.
          split; [|split]; lra.
        * apply Rmult_le_compat_l; [exact Hb|apply le_INR; exact HjR]. }
  unfold FDR.
  eapply Rle_trans.
  { apply (E_mono _ HE); [apply fdp_bounded| |exact Hpt].
    apply bounded_sum. intros; apply (tail_bounded b 1 (m - 1) (fun w => nth a (X w) 0)). }
  rewrite (E_sum E HE (fun i w => tail b 1 (m - 1) (nth i (X w) 0))).
  2:{ intros; apply (tail_bounded b 1 (m - 1) (fun w => nth a (X w) 0)). }
  apply Rle_trans with (Rsum (map (fun _ : nat => b * harmonic m + e) (filter nulls (seq 0 m)))).
  - apply Rsum_map_le. intros i Hi. apply filter_In in Hi. destruct Hi as [Hi Ni].
    apply in_seq in Hi. rewrite <- hsum_1 by lia. replace e with (e / INR 1) at 1 by (simpl; field).
    apply (tail_nearly E HE e b 1 (m - 1) (fun w => nth i (X w) 0)); auto. apply Hn; auto; lia.
  - rewrite Rsum_map_const. unfold null_count, count, b. right. field. split; lra.
Qed.
Lemma holm_fwer_nearly {Om} (E : (Om -> R) -> R) e m nulls X t :
  is_expectation E -> 0 <= e -> (forall w, length (X w) = m /\ pvalues (X w)) -> (forall i, (i < m)%nat -> nulls i = true -> nearly E e (fun w => nth i (X w) 0)) -> 0 <= t ->
  FWER E Holm m nulls X t <= t * harmonic (null_count m nulls) + INR (null_count m nulls) * e.
Proof.
  intros HE He HX Hn Ht. assert (PE : 0 <= INR (null_count m nulls) * e) by (apply Rmult_le_pos; [apply pos_INR|exact He]).
  set (m0 := null_count m nulls).
  destruct (Nat.eq_dec m0 0) as [Hz|Hz].
  { unfold FWER. rewrite Pr_false by (auto; intros; apply fwer_m0_nulls; auto).
    fold m0 in PE. apply Rplus_le_le_0_compat; [|exact PE]. apply Rmult_le_pos; [auto|apply harmonic_pos]. }
  assert (H1 : 1 <= harmonic m0) by (apply harmonic_ge1; lia).
  destruct (Rle_dec t 1) as [Ht1|Ht1].
  2:{ apply Rle_trans with 1; [apply fwer_le1; auto|].
      fold m0 in PE. apply Rle_trans with (t * 1); [lra|]. apply Rle_trans with (t * harmonic m0); [apply Rmult_le_compat_l; lra|lra]. }
  assert (Hm0 : 0 < INR m0) by (apply INR_pos; lia).
  set (b := t / INR m0).
  assert (Hb : 0 <= b).
  { unfold b. apply Rmult_le_pos; [lra|left; apply Rinv_0_lt_compat; auto]. }
  assert (Hpt : forall w, ind (some_false_rejection m nulls (decisions Holm (X w) t))
     <= Rsum (map (fun i => tail b 1 (m0 - 1) (nth i (X w) 0)) (filter nulls (seq 0 m)))).
  { intros w. destruct (HX w) as [Hl Hp].
    assert (Htail : forall x, 0 <= tail b 1 (m0 - 1) x) by (intros; apply tail_nonneg; lia).
    destruct (some_false_rejection m nulls _) eqn:Hs; [|apply Rsum_map_nonneg; auto].
    apply existsb_exists in Hs. destruct Hs as [i [Hi Hr]].
    apply andb_true_iff in Hr. destruct Hr as [Ni Hr]. apply in_seq in Hi.
    destruct (holm_is_hochberg (X w) Hp) as (adj & Ha & [_ Hpw]).
    apply (decisions_at Holm _ _ _ Hp Ha) in Hr. destruct Hr as [_ Hr].
    apply (step_up_rejects _ _ _ _ _ (Hpw i ltac:(lia)) Ht1) in Hr.
    destruct Hr as (j & Hj & Hx & Hlt). rewrite Hl in *.
    set (y := order_stat (X w) j) in *.
    set (Q := fun i => Rleb (nth i (X w) 0) y).
    (* k = number of true nulls with p-value at most p_(j) *)
    set (k := count (fun i => nulls i && Q i) (seq 0 m)).
    assert (Hk1 : (1 <= k)%nat).
    { apply (count_pos _ _ i); [apply in_seq; lia|]. rewrite Ni. apply Rleb_true, Hx. }
    assert (Hkm : (k <= m0)%nat).
    { apply count_mono. intros z _ Hz'. apply andb_true_iff in Hz'; tauto. }
    assert (Hjk : (j <= k + (m - m0))%nat).
    { assert (j <= count Q (seq 0 m))%nat.
      { unfold Q. rewrite <- Hl at 1. rewrite (count_seq_nth (fun z => Rleb z y)).
        apply count_order_stat. lia. }
      pose proof (count_and_negb nulls Q (seq 0 m)).
      pose proof (count_negb nulls (seq 0 m)). rewrite seq_length in H2.
      unfold k, m0, null_count. lia. }
    assert (Hfac : (m0 <= k * (m - j + 1))%nat).
    { pose proof (null_count_le m nulls : (m0 <= m)%nat) as Hm0m.
      assert (exists d, m0 = k + d)%nat as [d Hd] by (exists (m0 - k)%nat; lia).
      assert (exists r, m - j + 1 = d + 1 + r)%nat as [r Hr] by (exists (m - j - d)%nat; lia).
      rewrite Hr, Hd. nia. }
    assert (Hy : 0 <= y).
    { assert (In y (X w)) as Hin by (apply order_stat_in; lia). apply Hp in Hin. lra. }
    assert (Hyk : y < b * INR k).
    { apply (Rmult_lt_reg_l (INR m0)); [auto|]. unfold b.
      replace (INR m0 * (t / INR m0 * INR k)) with (INR k * t) by (field; lra).
      apply Rle_lt_trans with (INR k * (INR (m - j + 1) * y)).
      - rewrite <- Rmult_assoc, <- mult_INR. apply Rmult_le_compat_r; [auto|apply le_INR; auto].
      - apply Rmult_lt_compat_l; [apply INR_pos; lia|exact Hlt]. }
    apply Rle_trans with
      (Rsum (map (fun i => if Q i then / INR k else 0) (filter nulls (seq 0 m)))).
    - rewrite (sum_ind_count Q). right.
      replace (count Q (filter nulls (seq 0 m))) with k.
      + simpl. rewrite Rinv_r; [auto|]. apply Rgt_not_eq. apply INR_pos; lia.
      + unfold k, count. clear. induction (seq 0 m) as [|i l IH]; simpl; auto.
        destruct (nulls i); simpl; [|exact IH]. destruct (Q i); simpl; auto.
    - apply Rsum_map_le. intros z Hz'. destruct (Q z) eqn:HQ; [|apply Htail].
      apply tail_ge; auto; try lia. apply Rleb_true in HQ. lra. }
  unfold FWER, Pr.
  eapply Rle_trans.
  { apply (E_mono _ HE); [apply bounded_ind| |exact Hpt].
    apply bounded_sum. intros; apply (tail_bounded b 1 (m0 - 1) (fun w => nth a (X w) 0)). }
  rewrite (E_sum E HE (fun i w => tail b 1 (m0 - 1) (nth i (X w) 0))).
  2:{ intros; apply (tail_bounded b 1 (m0 - 1) (fun w => nth a (X w) 0)). }
  apply Rle_trans with (Rsum (map (fun _ : nat => b * harmonic m0 + e) (filter nulls (seq 0 m)))).
  - apply Rsum_map_le. intros i Hi. apply filter_In in Hi. destruct Hi as [Hi Ni].
    apply in_seq in Hi. rewrite <- hsum_1 by lia. replace e with (e / INR 1) at 1 by (simpl; field).
    apply (tail_nearly E HE e b 1 (m0 - 1) (fun w => nth i (X w) 0)); auto. apply Hn; auto; lia.
  - rewrite Rsum_map_const. fold (count nulls (seq 0 m)). fold (null_count m nulls). fold m0.
    unfold b. right. field. lra.
Qed.

Lemma mc_nearly (Om : Type) (E : (Om -> R) -> R) n m alt Z nulls : is_expectation E -> (0 < n)%nat ->
  (forall i, (i < m)%nat -> nulls i = true -> exchangeable E (S n) (Z i) /\ forall w, NoDup (Z i w)) ->
  forall i, (i < m)%nat -> nulls i = true -> nearly E (2 / INR (S n)) (fun w => nth i (mc_p_values m alt Z w) 0).
Proof.
  intros HE Hn HN i Hi Ni c Hc. destruct (HN i Hi Ni) as [HX Hd]. assert (P : 0 < 2 / INR (S n)) by (apply Rdiv_lt_0_compat; [lra|apply INR_pos; lia]).
  destruct (Rle_dec c 1) as [H1|H1].
  - eapply Rle_trans; [|apply (mc_tail Om E n (alt i) (Z i) c HE HX Hn Hd (conj Hc H1))].
    apply (Pr_mono E HE). intros w Hw. rewrite nth_mc in Hw by exact Hi. exact Hw.
  - apply Rle_trans with 1; [|lra]. rewrite <- (E_one E HE) at 1. unfold Pr. apply (E_mono E HE); [apply bounded_ind|apply bounded_const|]. intros w. apply ind_range.
Qed.
(** Holm.test (a step-up rule in this code): threshold times the harmonic number of the true hypotheses, plus 2/(n+1) for each of them *)
Lemma C120_holm_fwer_holds : forall (Om : Type) (E : (Om -> R) -> R) n m alt Z nulls t,
  is_expectation E -> (0 < n)%nat -> 0 <= t -> (forall i w, (i < m)%nat -> length (Z i w) = S n) ->
  (forall i, (i < m)%nat -> nulls i = true -> exchangeable E (S n) (Z i) /\ forall w, NoDup (Z i w)) ->
  FWER E Holm m nulls (mc_p_values m alt Z) t <= t * harmonic (null_count m nulls) + INR (null_count m nulls) * (2 / INR (S n)).
Proof.
  intros Om E n m alt Z nulls t HE Hn Ht HL HN. assert (P : 0 < 2 / INR (S n)) by (apply Rdiv_lt_0_compat; [lra|apply INR_pos; lia]).
  apply holm_fwer_nearly; [exact HE|lra| |apply (mc_nearly Om E n m alt Z nulls HE Hn HN)|exact Ht].
  intros w. split; [apply mc_length|]. apply (mc_pvalues n); [exact Hn|]. intros i Hi. apply HL. exact Hi.
Qed.
(** Benjamini-Yekutieli: the false discovery rate exceeds the threshold by at most 2/(n+1) for every true hypothesis *)
Lemma C120_by_fdr_holds : forall (Om : Type) (E : (Om -> R) -> R) n m alt Z nulls t,
  is_expectation E -> (0 < n)%nat -> (0 < m)%nat -> (N.of_nat m <= 10000)%N -> 0 <= t <= 1 -> (forall i w, (i < m)%nat -> length (Z i w) = S n) ->
  (forall i, (i < m)%nat -> nulls i = true -> exchangeable E (S n) (Z i) /\ forall w, NoDup (Z i w)) ->
  FDR E BenjaminiYekutieli m nulls (mc_p_values m alt Z) t <= t * (INR (null_count m nulls) / INR m) + INR (null_count m nulls) * (2 / INR (S n)).
Proof.
  intros Om E n m alt Z nulls t HE Hn Hm Hs Ht HL HN. assert (P : 0 < 2 / INR (S n)) by (apply Rdiv_lt_0_compat; [lra|apply INR_pos; lia]).
  assert (Hh : 1 <= harmonic m) by (apply harmonic_ge1; lia). pose proof (by_factor_harmonic m Hs) as F.
  eapply Rle_trans; [apply (by_fdr_nearly E (2 / INR (S n))); [exact HE|exact Hm|lra| |apply (mc_nearly Om E n m alt Z nulls HE Hn HN)|exact Ht|rewrite F; lra]|].
  - intros w. split; [apply mc_length|]. apply (mc_pvalues n); [exact Hn|]. intros i Hi. apply HL. exact Hi.
  - rewrite F. unfold Rdiv at 2. rewrite Rinv_r by lra. lra.
Qed.
