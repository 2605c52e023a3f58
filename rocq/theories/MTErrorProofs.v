From Verif Require Import Base MTModel MTSpec MTProofs ProbSpec ProbProofs MTErrorSpec.
From Coq Require Import NArith.

Lemma p_values_valid_iff p : p_values_valid p = true <-> pvalues p.
Proof.
  unfold p_values_valid, pvalues. rewrite forallb_forall. split; intros H x Hx; specialize (H x Hx).
  - apply andb_true_iff in H. destruct H as [A B]. apply Rleb_true in A, B. lra.
  - apply andb_true_iff; split; apply Rleb_true; lra.
Qed.
Lemma validate_ok p : pvalues p -> validate_p_values p = Ok tt.
Proof. intros H. unfold validate_p_values. rewrite (proj2 (p_values_valid_iff p) H). reflexivity. Qed.

Lemma adjust_ok mt p : pvalues p -> exists a, adjust mt p = Ok a /\ length a = length p.
Proof.
  intros Hp. destruct mt; simpl.
  - unfold bonferroni_adjust. rewrite validate_ok by exact Hp. eexists; split; [reflexivity|].
    rewrite map_length; reflexivity.
  - unfold sidak_adjust. rewrite validate_ok by exact Hp. eexists; split; [reflexivity|].
    rewrite map_length; reflexivity.
  - destruct (holm_adjust_char p) as (a & E & Hl & _). eauto.
  - unfold sidak_holm_adjust. destruct p; [exists []; auto|]. eexists; split; [reflexivity|].
    rewrite map_length; reflexivity.
  - destruct (by_adjust_char p) as (a & E & Hl & _). eauto.
Qed.

Lemma mt_test_ok mt p t : pvalues p -> exists a, adjust mt p = Ok a /\ length a = length p /\
  mt_test mt p t = Ok (map (fun x => Rltb x t) a, a).
Proof.
  intros Hp. destruct (adjust_ok mt p Hp) as (a & Ha & Hl). exists a; repeat split; auto.
  unfold mt_test. rewrite validate_ok by exact Hp. simpl. rewrite Ha. reflexivity.
Qed.

Lemma decisions_at mt p t a : pvalues p -> adjust mt p = Ok a -> forall i,
  rejected_at (decisions mt p t) i = true <-> (i < length p)%nat /\ nth i a 0 < t.
Proof.
  intros Hp Ha i. destruct (mt_test_ok mt p t Hp) as (a' & Ha' & Hl & E).
  rewrite Ha in Ha'; injection Ha' as <-. unfold decisions, rejected_at. rewrite E.
  destruct (le_lt_dec (length p) i) as [H|H].
  - rewrite nth_overflow by (rewrite map_length; lia). split; [discriminate|lia].
  - rewrite (nth_indep _ false (Rltb 0 t)) by (rewrite map_length; lia).
    rewrite (map_nth (fun x => Rltb x t)). rewrite Rltb_true. intuition.
Qed.

(** ** Bonferroni *)
Lemma nth_map_R (f : R -> R) l i : (i < length l)%nat -> nth i (map f l) 0 = f (nth i l 0).
Proof.
  intros H. rewrite (nth_indep _ 0 (f 0)) by (rewrite map_length; exact H). apply map_nth.
Qed.

Lemma bonferroni_rejects p t i : pvalues p -> 0 <= t <= 1 ->
  rejected_at (decisions Bonferroni p t) i = true -> nth i p 0 < t / INR (length p).
Proof.
  intros Hp Ht H. destruct (adjust_ok Bonferroni p Hp) as (a & Ha & Hl).
  apply (decisions_at _ _ _ _ Hp Ha) in H. destruct H as [Hi H].
  simpl in Ha. unfold bonferroni_adjust in Ha. rewrite validate_ok in Ha by exact Hp.
  injection Ha as <-. rewrite nth_map_R in H by exact Hi.
  assert (0 < INR (length p)) by (apply INR_pos; lia).
  assert (nth i p 0 * INR (length p) < t).
  { unfold Rmin in H. destruct (Rle_dec _ _); lra. }
  apply (Rmult_lt_reg_r (INR (length p))); [assumption|].
  unfold Rdiv. rewrite Rmult_assoc, Rinv_l by lra. lra.
Qed.

Lemma sum_ind_count {A} (P : A -> bool) c l :
  Rsum (map (fun i => if P i then c else 0) l) = INR (count P l) * c.
Proof.
  induction l as [|x l IH]; [unfold count; simpl; lra|].
  rewrite count_cons. cbn [map Rsum]. rewrite IH. destruct (P x); [|simpl; lra].
  rewrite plus_INR. simpl. lra.
Qed.

Lemma fwer_single_step {Om} (E : (Om -> R) -> R) mt m nulls X t c :
  is_expectation E -> valid_null_pvalues E m nulls X -> 0 <= c ->
  (forall w i, (i < m)%nat -> rejected_at (decisions mt (X w) t) i = true -> nth i (X w) 0 < c) ->
  FWER E mt m nulls X t <= INR (null_count m nulls) * c.
Proof.
  intros HE [HX Hn] Hc Hrej. unfold FWER, some_false_rejection.
  eapply Rle_trans.
  { apply (Pr_union E HE (fun i w => nulls i && rejected_at (decisions mt (X w) t) i)). }
  unfold null_count. rewrite <- (sum_ind_count nulls c (seq 0 m)).
  apply Rsum_map_le. intros i Hi. apply in_seq in Hi.
  destruct (nulls i) eqn:Ni.
  - eapply Rle_trans; [|apply (superuniform_lt E HE (fun w => nth i (X w) 0) c); auto; apply Hn; auto; lia].
    apply Pr_mono; auto. intros w Hw. simpl in Hw. apply Rltb_true. eapply Hrej; eauto; lia.
  - rewrite Pr_false by auto. simpl; lra.
Qed.

Lemma null_count_le m nulls : (null_count m nulls <= m)%nat.
Proof.
  unfold null_count. etransitivity; [apply count_le_length|]. rewrite seq_length; auto.
Qed.

Lemma bonferroni_fwer_sharp {Om} (E : (Om -> R) -> R) m nulls X t :
  is_expectation E -> (0 < m)%nat -> valid_null_pvalues E m nulls X -> 0 <= t <= 1 ->
  FWER E Bonferroni m nulls X t <= t * INR (null_count m nulls) / INR m.
Proof.
  intros HE Hm HX Ht.
  assert (0 < INR m) by (apply INR_pos; exact Hm).
  eapply Rle_trans; [apply (fwer_single_step E Bonferroni m nulls X t (t / INR m)); auto|].
  - apply Rmult_le_pos; [lra|]. left; apply Rinv_0_lt_compat; lra.
  - intros w i Hi Hr. destruct (proj1 HX w) as [Hl Hp].
    rewrite <- Hl. apply bonferroni_rejects; auto.
  - right. field. lra.
Qed.

Lemma fwer_le1 {Om} (E : (Om -> R) -> R) mt m nulls X t :
  is_expectation E -> FWER E mt m nulls X t <= 1.
Proof. intros HE. apply Pr_le1; auto. Qed.

Lemma fwer_m0 {Om} (E : (Om -> R) -> R) mt nulls X t :
  is_expectation E -> FWER E mt 0 nulls X t = 0.
Proof. intros HE. apply Pr_false; auto. Qed.

Lemma ratio_le1 a b : (0 < b)%nat -> (a <= b)%nat -> INR a / INR b <= 1.
Proof.
  intros Hb Hab. assert (0 < INR b) by (apply INR_pos; auto).
  apply (Rmult_le_reg_r (INR b)); [auto|]. unfold Rdiv.
  rewrite Rmult_assoc, Rinv_l, Rmult_1_r, Rmult_1_l by lra. apply le_INR; auto.
Qed.

Lemma bonferroni_fwer {Om} (E : (Om -> R) -> R) m nulls X t :
  is_expectation E -> valid_null_pvalues E m nulls X -> 0 <= t ->
  FWER E Bonferroni m nulls X t <= t.
Proof.
  intros HE HX Ht. destruct (Rle_dec t 1) as [H1|H1].
  2:{ pose proof (fwer_le1 E Bonferroni m nulls X t HE); lra. }
  destruct m as [|m]; [rewrite fwer_m0; auto; lra|].
  eapply Rle_trans; [apply bonferroni_fwer_sharp; auto; lia|].
  unfold Rdiv. rewrite Rmult_assoc. rewrite <- (Rmult_1_r t) at 2.
  apply Rmult_le_compat_l; [lra|]. apply ratio_le1; [lia|apply null_count_le].
Qed.

(** ** Sidak under independence *)
Lemma Rprod_ge {A} (f : A -> R) l c : 0 <= c <= 1 -> (forall a, In a l -> c <= f a) ->
  c ^ length l <= Rprod (map f l).
Proof.
  intros Hc. induction l as [|a l IH]; intros H; simpl; [lra|].
  apply Rmult_le_compat; [lra|apply pow_le; lra|apply H; simpl; auto|].
  apply IH; intros; apply H; simpl; auto.
Qed.
Lemma pow_antitone c a b : 0 <= c <= 1 -> (a <= b)%nat -> c ^ b <= c ^ a.
Proof.
  intros Hc Hab. replace b with (a + (b - a))%nat by lia. rewrite pow_add.
  rewrite <- (Rmult_1_r (c ^ a)) at 2. apply Rmult_le_compat_l; [apply pow_le; lra|].
  rewrite <- (pow1 (b - a)). apply pow_incr; lra.
Qed.

Lemma forallb_existsb {A} (P : A -> bool) l : forallb (fun a => negb (P a)) l = negb (existsb P l).
Proof. induction l as [|a l IH]; simpl; [auto|]. rewrite IH, negb_orb; auto. Qed.

Lemma existsb_filter {A} (P Q : A -> bool) l :
  existsb (fun a => P a && Q a) l = existsb Q (filter P l).
Proof. induction l as [|a l IH]; simpl; [auto|]. destruct (P a); simpl; rewrite IH; auto. Qed.

Definition nullX {Om} (X : Om -> list R) (i : nat) (w : Om) : R := nth i (X w) 0.

Lemma indep_fwer {Om} (E : (Om -> R) -> R) mt m nulls X t c :
  is_expectation E -> valid_null_pvalues E m nulls X ->
  independent_nulls E m nulls (nullX X) -> 0 <= c <= 1 ->
  (forall w i, (i < m)%nat -> rejected_at (decisions mt (X w) t) i = true -> nth i (X w) 0 < c) ->
  FWER E mt m nulls X t <= 1 - (1 - c) ^ (null_count m nulls).
Proof.
  intros HE [HX Hn] Hind Hc Hrej.
  assert (Hno : (1 - c) ^ (null_count m nulls)
     <= Pr E (fun w => forallb (fun i => Rleb c (nullX X i w)) (filter nulls (seq 0 m)))).
  { rewrite (Hind (fun _ => c)). unfold null_count, count.
    apply (Rprod_ge (fun i => Pr E (fun w => Rleb c (nullX X i w)))); [lra|].
    intros i Hi. apply filter_In in Hi. destruct Hi as [Hi Ni]. apply in_seq in Hi.
    assert (Pr E (fun w => Rltb (nullX X i w) c) <= c).
    { apply superuniform_lt; auto; [apply Hn; auto; lia|lra]. }
    pose proof (Pr_negb E HE (fun w => Rltb (nullX X i w) c)) as HN.
    assert (Pr E (fun w => negb (Rltb (nullX X i w) c)) <= Pr E (fun w => Rleb c (nullX X i w))).
    { apply Pr_mono; auto. intros w Hw. apply negb_true_iff, Rltb_false in Hw.
      apply Rleb_true; exact Hw. }
    lra. }
  assert (FWER E mt m nulls X t
    <= Pr E (fun w => negb (forallb (fun i => Rleb c (nullX X i w)) (filter nulls (seq 0 m))))).
  { apply Pr_mono; auto. intros w Hw. unfold some_false_rejection in Hw.
    rewrite existsb_filter in Hw. apply existsb_exists in Hw. destruct Hw as [i [Hi Hr]].
    apply negb_true_iff. apply not_true_is_false. intros Hall.
    rewrite forallb_forall in Hall. specialize (Hall i Hi). apply Rleb_true in Hall.
    apply filter_In in Hi. destruct Hi as [Hi _]. apply in_seq in Hi.
    specialize (Hrej w i ltac:(lia) Hr). unfold nullX in Hall. lra. }
  rewrite Pr_negb in H by auto. lra.
Qed.

(** the cut-off of the Sidak rule *)
Lemma sidak_cutoff m t : (0 < m)%nat -> 0 <= t < 1 ->
  exists c, 0 <= c <= 1 /\ (1 - c) ^ m = 1 - t.
Proof.
  intros Hm Ht. set (r := Rpower (1 - t) (/ INR m)).
  assert (0 < INR m) by (apply INR_pos; auto).
  assert (Hr : 0 < r) by apply exp_pos.
  assert (Hp : r ^ m = 1 - t).
  { rewrite <- Rpower_pow by exact Hr. unfold r. rewrite Rpower_mult, Rinv_l by lra.
    apply Rpower_1; lra. }
  assert (r <= 1).
  { destruct (Rle_dec r 1) as [|Hgt]; auto. exfalso.
    assert (1 < r ^ m); [|lra]. apply Rlt_pow_R1; [lra|auto]. }
  exists (1 - r). split; [lra|]. replace (1 - (1 - r)) with r by ring. exact Hp.
Qed.

Lemma sidak_family_rejects mt p t c i : mt = Sidak \/ mt = SidakHolm ->
  pvalues p -> 0 <= c <= 1 -> t < 1 -> (1 - c) ^ length p = 1 - t ->
  rejected_at (decisions mt p t) i = true -> nth i p 0 < c.
Proof.
  intros Hmt Hp Hc Ht1 Ht H. destruct (adjust_ok mt p Hp) as (a & Ha & Hl).
  apply (decisions_at _ _ _ _ Hp Ha) in H. destruct H as [Hi H].
  assert (HpI : 0 <= nth i p 0 <= 1) by (apply Hp, nth_In, Hi).
  assert (Hlt : 1 - (1 - nth i p 0) ^ length p < t).
  { destruct Hmt as [-> | ->]; simpl in Ha.
    - unfold sidak_adjust in Ha. rewrite validate_ok in Ha by exact Hp. injection Ha as <-.
      rewrite nth_map_R in H by exact Hi. exact H.
    - unfold sidak_holm_adjust in Ha. destruct p as [|x p0] eqn:Ep; [simpl in Hi; lia|].
      rewrite <- Ep in *. injection Ha as <-.
      rewrite (nth_map_R (fun x => Rmin 1 (1 - (1 - x) ^ length p))) in H by exact Hi.
      unfold Rmin in H. destruct (Rle_dec _ _); lra. }
  destruct (Rlt_dec (nth i p 0) c) as [|Hge]; auto. exfalso.
  assert ((1 - nth i p 0) ^ length p <= (1 - c) ^ length p) by (apply pow_incr; lra).
  lra.
Qed.

Lemma sidak_fwer {Om} (E : (Om -> R) -> R) mt m nulls X t : mt = Sidak \/ mt = SidakHolm ->
  is_expectation E -> valid_null_pvalues E m nulls X ->
  independent_nulls E m nulls (nullX X) -> 0 <= t ->
  FWER E mt m nulls X t <= t.
Proof.
  intros Hmt HE HX Hind Ht. destruct (Rlt_dec t 1) as [H1|H1].
  2:{ pose proof (fwer_le1 E mt m nulls X t HE); lra. }
  destruct m as [|m]; [rewrite fwer_m0; auto; lra|].
  destruct (sidak_cutoff (S m) t) as (c & Hc & Hp); [lia|lra|].
  eapply Rle_trans; [apply (indep_fwer E mt (S m) nulls X t c); auto|].
  - intros w i Hi Hr. destruct (proj1 HX w) as [Hl Hv].
    eapply sidak_family_rejects; eauto. rewrite Hl; exact Hp.
  - assert ((1 - c) ^ S m <= (1 - c) ^ null_count (S m) nulls).
    { apply pow_antitone; [lra|apply null_count_le]. }
    lra.
Qed.

(** ** Step-up procedures *)
Lemma count_sorted_ge l k : sortedR l -> (k < length l)%nat ->
  (S k <= count (fun y => Rleb y (nth k l 0%R)) l)%nat.
Proof.
  intros Hs Hk.
  set (P := fun y => Rleb y (nth k l 0)).
  assert (Hsp : count P l = (count P (firstn (S k) l) + count P (skipn (S k) l))%nat)
    by (rewrite <- count_app, firstn_skipn; reflexivity).
  rewrite Hsp, (count_all P (firstn (S k) l)).
  - rewrite firstn_length. lia.
  - intros x Hx. apply Rleb_true. destruct (In_nth _ _ 0 Hx) as [i [Hi <-]].
    rewrite firstn_length in Hi.
    assert (nth i (firstn (S k) l) 0 = nth i l 0) as ->.
    { rewrite <- (firstn_skipn (S k) l) at 2. rewrite app_nth1; [auto|rewrite firstn_length; lia]. }
    apply sorted_nth_le; [exact Hs|lia].
Qed.
Lemma count_order_stat p k : (1 <= k <= length p)%nat ->
  (k <= count (fun y => Rleb y (order_stat p k)) p)%nat.
Proof.
  intros Hk. rewrite <- (count_perm _ _ _ (rsort_perm p)). unfold order_stat.
  assert (H := count_sorted_ge (rsort p) (k - 1) (rsort_sorted p)). rewrite rsort_length in H.
  specialize (H ltac:(lia)). lia.
Qed.

Lemma count_seq_nth {A} (P : A -> bool) l d : count (fun i => P (nth i l d)) (seq 0 (length l)) = count P l.
Proof. rewrite <- (count_map P (fun i => nth i l d)), map_nth_seq. reflexivity. Qed.

(** a step-up rule rejects x iff some rank k with x <= p_(k) has a_k p_(k) < t *)
Lemma step_up_rejects a p t x v : step_up_adjusted a p x v -> t <= 1 ->
  (v < t <-> exists k, (1 <= k <= length p)%nat /\ x <= order_stat p k /\ a k * order_stat p k < t).
Proof.
  intros [Hv Hmin] Ht. split.
  - intros H. destruct Hv as [->|(k & Hk & Hx & ->)]; [lra|]. eauto.
  - intros (k & Hk & Hx & Hlt). eapply Rle_lt_trans; [apply Hmin; right|exact Hlt]. eauto.
Qed.

(** if hypothesis i is rejected, its p-value lies below t / a_R' for some R' <= number rejected *)
Lemma step_up_self_consistent mt a p t adj i :
  pvalues p -> t <= 1 -> adjust mt p = Ok adj -> pointwise (step_up_adjusted a p) p adj ->
  rejected_at (decisions mt p t) i = true ->
  exists k, (1 <= k <= length p)%nat /\ nth i p 0 <= order_stat p k /\ a k * order_stat p k < t /\
    (k <= rejections (length p) (decisions mt p t))%nat.
Proof.
  intros Hp Ht Ha [Hl Hpt] H.
  apply (decisions_at _ _ _ _ Hp Ha) in H. destruct H as [Hi H].
  apply (step_up_rejects _ _ _ _ _ (Hpt i Hi) Ht) in H. destruct H as (k & Hk & Hx & Hlt).
  exists k. repeat split; try lia; auto.
  etransitivity; [apply count_order_stat; exact Hk|].
  unfold rejections. rewrite <- (count_seq_nth _ p 0).
  apply count_mono. intros j Hj Hle. apply in_seq in Hj. apply Rleb_true in Hle.
  apply (decisions_at _ _ _ _ Hp Ha). split; [lia|].
  apply (step_up_rejects _ _ _ _ _ (Hpt j ltac:(lia)) Ht). eauto.
Qed.

Lemma hsum_harmonic k c : hsum k c = harmonic (k + c) - harmonic k.
Proof.
  revert k; induction c as [|c IH]; intros k; cbn [hsum].
  - rewrite Nat.add_0_r; lra.
  - rewrite IH. replace (S k + c)%nat with (k + S c)%nat by lia. cbn [harmonic]. lra.
Qed.
Lemma hsum_1 m : (1 <= m)%nat -> 1 + hsum 1 (m - 1) = harmonic m.
Proof.
  intros H. rewrite hsum_harmonic. replace (1 + (m - 1))%nat with m by lia.
  cbn [harmonic]. change (INR 1) with 1. rewrite Rinv_1. lra.
Qed.

Lemma fdp_range m nulls r : 0 <= fdp m nulls r <= 1.
Proof.
  unfold fdp. destruct (Nat.eqb_spec (rejections m r) 0) as [|H]; [lra|].
  assert (0 < INR (rejections m r)) by (apply INR_pos; lia). split.
  - apply Rmult_le_pos; [apply pos_INR|left; apply Rinv_0_lt_compat; lra].
  - apply ratio_le1; [lia|]. apply count_mono. intros i _ Hi.
    apply andb_true_iff in Hi; tauto.
Qed.
Lemma fdp_bounded {Om} mt m nulls (X : Om -> list R) t :
  bounded (fun w => fdp m nulls (decisions mt (X w) t)).
Proof. apply (bounded_between _ 0 1). intros; apply fdp_range. Qed.

Lemma by_fdr_general {Om} (E : (Om -> R) -> R) m nulls X t :
  is_expectation E -> (0 < m)%nat -> valid_null_pvalues E m nulls X -> 0 <= t <= 1 ->
  0 < by_factor m ->
  FDR E BenjaminiYekutieli m nulls X t
   <= t * (INR (null_count m nulls) / INR m) * (harmonic m / by_factor m).
Proof.
  intros HE Hm [HX Hn] Ht Hc.
  assert (Hm' : 0 < INR m) by (apply INR_pos; auto).
  set (b := t / (INR m * by_factor m)).
  assert (Hmc : 0 < INR m * by_factor m) by (apply Rmult_lt_0_compat; auto).
  assert (Hb : 0 <= b).
  { unfold b. apply Rmult_le_pos; [lra|left; apply Rinv_0_lt_compat; auto]. }
  (* pointwise bound of the false discovery proportion *)
  assert (Hpt : forall w, fdp m nulls (decisions BenjaminiYekutieli (X w) t)
     <= Rsum (map (fun i => tail b 1 (m - 1) (nth i (X w) 0)) (filter nulls (seq 0 m)))).
  { intros w. destruct (HX w) as [Hl Hp].
    assert (Htail : forall x, 0 <= tail b 1 (m - 1) x) by (intros; apply tail_nonneg; lia).
    unfold fdp. destruct (Nat.eqb_spec (rejections m (decisions BenjaminiYekutieli (X w) t)) 0) as [|HR].
    - apply Rsum_map_nonneg. auto.
    - set (r := decisions BenjaminiYekutieli (X w) t) in *.
      set (k := rejections m r) in *.
      assert (Hk : (k <= m)%nat).
      { unfold k, rejections. etransitivity; [apply count_le_length|]. rewrite seq_length; auto. }
      assert (Hk' : 0 < INR k) by (apply INR_pos; lia).
      apply Rle_trans with
        (Rsum (map (fun i => if rejected_at r i then / INR k else 0) (filter nulls (seq 0 m)))).
      + right. rewrite (sum_ind_count (rejected_at r)). unfold false_rejections, Rdiv. f_equal. f_equal.
        unfold count. clear. induction (seq 0 m) as [|i l IH]; simpl; auto.
        destruct (nulls i); simpl; [|exact IH]. destruct (rejected_at r i); simpl; auto.
      + apply Rsum_map_le. intros i Hi. apply filter_In in Hi. destruct Hi as [Hi Ni].
        destruct (rejected_at r i) eqn:Er; [|apply Htail].
        destruct (by_is_step_up (X w) Hp) as (adj & Ha & Hpw); [rewrite Hl; lra|].
        rewrite Hl in Hpw.
        destruct (step_up_self_consistent BenjaminiYekutieli
           (fun k => INR (length (X w)) * by_factor m / INR k) (X w) t adj i) as (j & Hj & Hx & Hlt & HjR); auto; [lra|].
        rewrite Hl in *. fold r k in HjR.
        apply tail_ge; auto; try lia.
        assert (Hj' : 0 < INR j) by (apply INR_pos; lia).
        apply Rlt_le_trans with (b * INR j).
        * eapply Rle_lt_trans; [exact Hx|]. unfold b.
          apply (Rmult_lt_reg_r (INR m * by_factor m / INR j)).
          { apply Rmult_lt_0_compat; [auto|apply Rinv_0_lt_compat; auto]. }
          rewrite Rmult_comm. eapply Rlt_le_trans; [exact Hlt|]. right. field.
          split; [|split]; lra.
        * apply Rmult_le_compat_l; [exact Hb|apply le_INR; exact HjR]. }
  unfold FDR.
  eapply Rle_trans.
  { apply (E_mono _ HE); [apply fdp_bounded| |exact Hpt].
    apply bounded_sum. intros; apply (tail_bounded b 1 (m - 1) (fun w => nth a (X w) 0)). }
  rewrite (E_sum E HE (fun i w => tail b 1 (m - 1) (nth i (X w) 0))).
  2:{ intros; apply (tail_bounded b 1 (m - 1) (fun w => nth a (X w) 0)). }
  apply Rle_trans with (Rsum (map (fun _ : nat => b * harmonic m) (filter nulls (seq 0 m)))).
  - apply Rsum_map_le. intros i Hi. apply filter_In in Hi. destruct Hi as [Hi Ni].
    apply in_seq in Hi. rewrite <- hsum_1 by lia.
    apply (tail_expect E HE b 1 (m - 1) (fun w => nth i (X w) 0)); auto. apply Hn; auto; lia.
  - rewrite Rsum_map_const. unfold null_count, count, b. right. field. split; lra.
Qed.

Lemma by_fdr {Om} (E : (Om -> R) -> R) m nulls X t :
  is_expectation E -> (0 < m)%nat -> (N.of_nat m <= 10000)%N ->
  valid_null_pvalues E m nulls X -> 0 <= t <= 1 ->
  FDR E BenjaminiYekutieli m nulls X t <= t * (INR (null_count m nulls) / INR m).
Proof.
  intros HE Hm Hsmall HX Ht.
  assert (Hh : 1 <= harmonic m) by (apply harmonic_ge1; lia).
  eapply Rle_trans; [apply by_fdr_general; auto|].
  - rewrite by_factor_harmonic by exact Hsmall. lra.
  - rewrite by_factor_harmonic by exact Hsmall. unfold Rdiv at 2. rewrite Rinv_r by lra. lra.
Qed.

(** ** Holm.test: family-wise error at most threshold times the harmonic number *)
Lemma order_stat_in p k : (1 <= k <= length p)%nat -> In (order_stat p k) p.
Proof. intros H. apply rsort_in. apply nth_In. rewrite rsort_length; lia. Qed.

Lemma count_and_negb {A} (P Q : A -> bool) l :
  (count Q l <= count (fun x => P x && Q x) l + count (fun x => negb (P x)) l)%nat.
Proof.
  induction l as [|x l IH]; [auto|]. rewrite !count_cons. destruct (P x), (Q x); simpl; lia.
Qed.

Lemma fwer_m0_nulls m nulls r : null_count m nulls = 0%nat -> some_false_rejection m nulls r = false.
Proof.
  intros H. apply not_true_is_false. intros Hs. apply existsb_exists in Hs.
  destruct Hs as [i [Hi Hr]]. apply andb_true_iff in Hr. destruct Hr as [Ni _].
  pose proof (count_pos nulls _ i Hi Ni). unfold null_count in H. lia.
Qed.

Lemma holm_fwer_harmonic {Om} (E : (Om -> R) -> R) m nulls X t :
  is_expectation E -> valid_null_pvalues E m nulls X -> 0 <= t ->
  FWER E Holm m nulls X t <= t * harmonic (null_count m nulls).
Proof.
  intros HE [HX Hn] Ht.
  set (m0 := null_count m nulls).
  destruct (Nat.eq_dec m0 0) as [Hz|Hz].
  { unfold FWER. rewrite Pr_false by (auto; intros; apply fwer_m0_nulls; auto).
    apply Rmult_le_pos; [auto|apply harmonic_pos]. }
  assert (H1 : 1 <= harmonic m0) by (apply harmonic_ge1; lia).
  destruct (Rle_dec t 1) as [Ht1|Ht1].
  2:{ apply Rle_trans with 1; [apply fwer_le1; auto|].
      apply Rle_trans with (t * 1); [lra|]. apply Rmult_le_compat_l; lra. }
  assert (Hm0 : 0 < INR m0) by (apply INR_pos; lia).
  set (b := t / INR m0).
  assert (Hb : 0 <= b).
  { unfold b. apply Rmult_le_pos; [lra|left; apply Rinv_0_lt_compat; auto]. }
  assert (Hpt : forall w, ind (some_false_rejection m nulls (decisions Holm (X w) t))
     <= Rsum (map (fun i => tail b 1 (m0 - 1) (nth i (X w) 0)) (filter nulls (seq 0 m)))).
  { intros w. destruct (HX w) as [Hl Hp].
    assert (Htail : forall x, 0 <= tail b 1 (m0 - 1) x) by (intros; apply tail_nonneg; lia).
    destruct (some_false_rejection m nulls _) eqn:Hs; [|apply Rsum_map_nonneg; auto].
    apply existsb_exists in Hs. destruct Hs as [i [Hi Hr]].
    apply andb_true_iff in Hr. destruct Hr as [Ni Hr]. apply in_seq in Hi.
    destruct (holm_is_hochberg (X w) Hp) as (adj & Ha & [_ Hpw]).
    apply (decisions_at Holm _ _ _ Hp Ha) in Hr. destruct Hr as [_ Hr].
    apply (step_up_rejects _ _ _ _ _ (Hpw i ltac:(lia)) Ht1) in Hr.
    destruct Hr as (j & Hj & Hx & Hlt). rewrite Hl in *.
    set (y := order_stat (X w) j) in *.
    set (Q := fun i => Rleb (nth i (X w) 0) y).
    (* k = number of true nulls with p-value at most p_(j) *)
    set (k := count (fun i => nulls i && Q i) (seq 0 m)).
    assert (Hk1 : (1 <= k)%nat).
    { apply (count_pos _ _ i); [apply in_seq; lia|]. rewrite Ni. apply Rleb_true, Hx. }
    assert (Hkm : (k <= m0)%nat).
    { apply count_mono. intros z _ Hz'. apply andb_true_iff in Hz'; tauto. }
    assert (Hjk : (j <= k + (m - m0))%nat).
    { assert (j <= count Q (seq 0 m))%nat.
      { unfold Q. rewrite <- Hl at 1. rewrite (count_seq_nth (fun z => Rleb z y)).
        apply count_order_stat. lia. }
      pose proof (count_and_negb nulls Q (seq 0 m)).
      pose proof (count_negb nulls (seq 0 m)). rewrite seq_length in H2.
      unfold k, m0, null_count. lia. }
    assert (Hfac : (m0 <= k * (m - j + 1))%nat).
    { pose proof (null_count_le m nulls : (m0 <= m)%nat) as Hm0m.
      assert (exists d, m0 = k + d)%nat as [d Hd] by (exists (m0 - k)%nat; lia).
      assert (exists e, m - j + 1 = d + 1 + e)%nat as [e He] by (exists (m - j - d)%nat; lia).
      rewrite He, Hd. nia. }
    assert (Hy : 0 <= y).
    { assert (In y (X w)) as Hin by (apply order_stat_in; lia). apply Hp in Hin. lra. }
    assert (Hyk : y < b * INR k).
    { apply (Rmult_lt_reg_l (INR m0)); [auto|]. unfold b.
      replace (INR m0 * (t / INR m0 * INR k)) with (INR k * t) by (field; lra).
      apply Rle_lt_trans with (INR k * (INR (m - j + 1) * y)).
      - rewrite <- Rmult_assoc, <- mult_INR. apply Rmult_le_compat_r; [auto|apply le_INR; auto].
      - apply Rmult_lt_compat_l; [apply INR_pos; lia|exact Hlt]. }
    apply Rle_trans with
      (Rsum (map (fun i => if Q i then / INR k else 0) (filter nulls (seq 0 m)))).
    - rewrite (sum_ind_count Q). right.
      replace (count Q (filter nulls (seq 0 m))) with k.
      + simpl. rewrite Rinv_r; [auto|]. apply Rgt_not_eq. apply INR_pos; lia.
      + unfold k, count. clear. induction (seq 0 m) as [|i l IH]; simpl; auto.
        destruct (nulls i); simpl; [|exact IH]. destruct (Q i); simpl; auto.
    - apply Rsum_map_le. intros z Hz'. destruct (Q z) eqn:HQ; [|apply Htail].
      apply tail_ge; auto; try lia. apply Rleb_true in HQ. lra. }
  unfold FWER, Pr.
  eapply Rle_trans.
  { apply (E_mono _ HE); [apply bounded_ind| |exact Hpt].
    apply bounded_sum. intros; apply (tail_bounded b 1 (m0 - 1) (fun w => nth a (X w) 0)). }
  rewrite (E_sum E HE (fun i w => tail b 1 (m0 - 1) (nth i (X w) 0))).
  2:{ intros; apply (tail_bounded b 1 (m0 - 1) (fun w => nth a (X w) 0)). }
  apply Rle_trans with (Rsum (map (fun _ : nat => b * harmonic m0) (filter nulls (seq 0 m)))).
  - apply Rsum_map_le. intros i Hi. apply filter_In in Hi. destruct Hi as [Hi Ni].
    apply in_seq in Hi. rewrite <- hsum_1 by lia.
    apply (tail_expect E HE b 1 (m0 - 1) (fun w => nth i (X w) 0)); auto. apply Hn; auto; lia.
  - rewrite Rsum_map_const. fold (count nulls (seq 0 m)). fold (null_count m nulls). fold m0.
    unfold b. right. field. lra.
Qed.
