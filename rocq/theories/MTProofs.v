From Verif Require Import Base MTModel MTSpec.
From Coq Require Import NArith.

Lemma kinsert_perm key i l : Permutation (kinsert key i l) (i :: l).
Proof.
  induction l as [|j l IH]; simpl; [reflexivity|].
  destruct (Rleb (key i) (key j)); [reflexivity|]. rewrite IH. apply perm_swap.
Qed.
Lemma ksort_perm key l : Permutation (ksort key l) l.
Proof.
  induction l as [|i l IH]; simpl; [reflexivity|]. rewrite kinsert_perm. constructor; exact IH.
Qed.
Lemma kinsert_map key i l : map key (kinsert key i l) = rinsert (key i) (map key l).
Proof.
  induction l as [|j l IH]; simpl; [reflexivity|].
  destruct (Rleb (key i) (key j)); simpl; [reflexivity|]. rewrite IH; reflexivity.
Qed.
Lemma ksort_map key l : map key (ksort key l) = rsort (map key l).
Proof. induction l as [|i l IH]; simpl; [reflexivity|]. rewrite kinsert_map, IH; reflexivity. Qed.

Lemma sorted_indices_perm p : Permutation (sorted_indices p) (seq 0 (length p)).
Proof. apply ksort_perm. Qed.
Lemma sorted_indices_length p : length (sorted_indices p) = length p.
Proof. rewrite (Permutation_length (sorted_indices_perm p)), seq_length; reflexivity. Qed.
Lemma sorted_indices_NoDup p : NoDup (sorted_indices p).
Proof. eapply Permutation_NoDup; [symmetry; apply sorted_indices_perm|apply seq_NoDup]. Qed.
Lemma sorted_indices_lt p i : In i (sorted_indices p) -> (i < length p)%nat.
Proof.
  intros H. apply (Permutation_in _ (sorted_indices_perm p)) in H.
  apply in_seq in H; lia.
Qed.
Lemma sorted_indices_map p : map (get p) (sorted_indices p) = rsort p.
Proof. unfold sorted_indices. rewrite ksort_map. f_equal. apply map_nth_seq. Qed.
Lemma sorted_indices_nth p k : (k < length p)%nat ->
  get p (nth k (sorted_indices p) 0%nat) = nth k (rsort p) 0.
Proof.
  intros H. rewrite <- sorted_indices_map.
  rewrite (nth_indep _ 0 (get p 0%nat)) by (rewrite map_length, sorted_indices_length; exact H).
  rewrite map_nth. reflexivity.
Qed.
Lemma sorted_indices_rank p i : (i < length p)%nat ->
  exists k, (k < length p)%nat /\ nth k (sorted_indices p) 0%nat = i.
Proof.
  intros H. assert (Hin : In i (sorted_indices p)).
  { eapply Permutation_in; [symmetry; apply sorted_indices_perm|]. apply in_seq; lia. }
  destruct (In_nth _ _ 0%nat Hin) as [k [Hk E]]. rewrite sorted_indices_length in Hk. eauto.
Qed.

(** first loop: after it, [adjusted[s[i]] = value i s[i]] *)
Lemma fold_upd_length {A} (f : nat -> nat -> A) l acc :
  length (fold_left (fun a '(i, idx) => upd a idx (f i idx)) l acc) = length acc.
Proof.
  revert acc; induction l as [|[i idx] l IH]; intros acc; simpl; [reflexivity|].
  rewrite IH, upd_length; reflexivity.
Qed.
Lemma fold_upd_other (f : nat -> nat -> R) k s acc j :
  ~ In j s ->
  get (fold_left (fun a '(i, idx) => upd a idx (f i idx)) (combine (seq k (length s)) s) acc) j
  = get acc j.
Proof.
  revert k acc; induction s as [|x s IH]; intros k acc H; simpl; [reflexivity|].
  rewrite IH by (intros Hin; apply H; simpl; auto).
  unfold get. apply upd_nth_other. intros ->; apply H; simpl; auto.
Qed.
Lemma fold_upd_get (f : nat -> nat -> R) k s acc i :
  NoDup s -> (forall x, In x s -> (x < length acc)%nat) -> (i < length s)%nat ->
  get (fold_left (fun a '(i, idx) => upd a idx (f i idx)) (combine (seq k (length s)) s) acc)
      (nth i s 0%nat) = f (k + i)%nat (nth i s 0%nat).
Proof.
  revert k acc i; induction s as [|x s IH]; intros k acc i ND Hlt Hi; simpl in Hi; [lia|].
  inversion ND as [|? ? Hx ND']; subst. simpl.
  destruct i as [|i]; simpl.
  - rewrite fold_upd_other by exact Hx. unfold get.
    rewrite upd_nth_same by (apply Hlt; simpl; auto). f_equal; lia.
  - rewrite IH; auto; try lia.
    + f_equal; lia.
    + intros y Hy. rewrite upd_length. apply Hlt; simpl; auto.
Qed.
Lemma assign_loop_length n s v : length (assign_loop n s v) = n.
Proof. unfold assign_loop. rewrite fold_upd_length, repeat_length; reflexivity. Qed.
Lemma assign_loop_get p v k : (k < length p)%nat ->
  get (assign_loop (length p) (sorted_indices p) v) (nth k (sorted_indices p) 0%nat)
  = v k (nth k (sorted_indices p) 0%nat).
Proof.
  intros Hk. unfold assign_loop, enumerate. rewrite fold_upd_get.
  - reflexivity.
  - apply sorted_indices_NoDup.
  - intros x Hx. rewrite repeat_length. apply sorted_indices_lt, Hx.
  - rewrite sorted_indices_length; exact Hk.
Qed.

(** suffix minima of t, capped by 1 *)
Fixpoint sm (t : nat -> R) (k cnt : nat) : R :=
  match cnt with O => 1 | S c => Rmin (t k) (sm t (S k) c) end.

Lemma sm_le t k cnt j : (k <= j < k + cnt)%nat -> sm t k cnt <= t j.
Proof.
  revert k; induction cnt as [|c IH]; intros k H; [lia|]. simpl.
  destruct (Nat.eq_dec k j) as [->|]; [apply Rmin_l|].
  eapply Rle_trans; [apply Rmin_r|apply IH; lia].
Qed.
Lemma sm_le1 t k cnt : sm t k cnt <= 1.
Proof.
  revert k; induction cnt as [|c IH]; intros k; simpl; [lra|].
  eapply Rle_trans; [apply Rmin_r|apply IH].
Qed.
Lemma sm_attained t k cnt : sm t k cnt = 1 \/ exists j, (k <= j < k + cnt)%nat /\ sm t k cnt = t j.
Proof.
  revert k; induction cnt as [|c IH]; intros k; simpl; [auto|].
  unfold Rmin; destruct (Rle_dec (t k) (sm t (S k) c)).
  - right; exists k; split; [lia|auto].
  - destruct (IH (S k)) as [E|[j [Hj E]]]; [auto|]. right; exists j; split; [lia|auto].
Qed.

Lemma nth_NoDup_neq s i j : NoDup s -> (i < length s)%nat -> (j < length s)%nat -> i <> j ->
  nth i s 0%nat <> nth j s 0%nat.
Proof. intros ND Hi Hj Hne E. apply Hne. eapply NoDup_nth; eauto. Qed.

Lemma rev_seq_S k : rev (seq 0 (S k)) = k :: rev (seq 0 k).
Proof. rewrite seq_S, rev_app_distr. reflexivity. Qed.

(** second loop of Holm, run from i = k-1 down to 0 *)
Lemma holm_loop_get s t n :
  NoDup s -> length s = n -> (forall x, In x s -> (x < n)%nat) ->
  forall k acc, (k < n)%nat -> length acc = n ->
  (forall j, (k <= j < n)%nat -> get acc (nth j s 0%nat) = sm t j (n - j)) ->
  (forall j, (j < k)%nat -> get acc (nth j s 0%nat) = t j) ->
  (forall j, (j < n)%nat ->
     get (fold_left (holm_step s) (rev (seq 0 k)) acc) (nth j s 0%nat) = sm t j (n - j))
  /\ length (fold_left (holm_step s) (rev (seq 0 k)) acc) = n.
Proof.
  intros ND Ls Hlt; induction k as [|k IH]; intros acc Hk La Hhi Hlo.
  - simpl. split; auto. intros; apply Hhi; lia.
  - rewrite rev_seq_S. cbn [fold_left].
    assert (Hsm : sm t k (n - k) = Rmin (t k) (sm t (S k) (n - S k))).
    { replace (n - k)%nat with (S (n - S k)) by lia. reflexivity. }
    assert (Ek : get acc (nth k s 0%nat) = t k) by (apply Hlo; lia).
    assert (Ek1 : get acc (nth (k + 1) s 0%nat) = sm t (S k) (n - S k)).
    { replace (k + 1)%nat with (S k) by lia. apply Hhi; lia. }
    apply IH; try lia.
    + unfold holm_step. destruct (Rltb _ _); [rewrite upd_length|]; auto.
    + intros j Hj. unfold holm_step. rewrite Ek, Ek1.
      destruct (Rltb_spec (sm t (S k) (n - S k)) (t k)) as [Hl|Hl].
      * destruct (Nat.eq_dec j k) as [->|Hne].
        -- unfold get. rewrite upd_nth_same by (rewrite La; apply Hlt, nth_In; lia).
           rewrite Hsm, Rmin_right by lra. reflexivity.
        -- unfold get. rewrite upd_nth_other by (apply nth_NoDup_neq; auto; lia).
           apply Hhi; lia.
      * destruct (Nat.eq_dec j k) as [->|Hne].
        -- rewrite Ek, Hsm, Rmin_left by lra. reflexivity.
        -- apply Hhi; lia.
    + intros j Hj. unfold holm_step.
      destruct (Rltb _ _).
      * unfold get. rewrite upd_nth_other by (apply nth_NoDup_neq; auto; lia). apply Hlo; lia.
      * apply Hlo; lia.
Qed.

(** second loop of Benjamini-Yekutieli *)
Lemma by_loop_get s t n :
  NoDup s -> length s = n -> (forall x, In x s -> (x < n)%nat) ->
  forall k acc cm, (k < n)%nat -> length acc = n ->
  cm = sm t k (n - k) ->
  (forall j, (k <= j < n)%nat -> get acc (nth j s 0%nat) = sm t j (n - j)) ->
  (forall j, (j < k)%nat -> get acc (nth j s 0%nat) = t j) ->
  (forall j, (j < n)%nat ->
     get (fst (fold_left (by_step s) (rev (seq 0 k)) (acc, cm))) (nth j s 0%nat) = sm t j (n - j))
  /\ length (fst (fold_left (by_step s) (rev (seq 0 k)) (acc, cm))) = n.
Proof.
  intros ND Ls Hlt; induction k as [|k IH]; intros acc cm Hk La Hcm Hhi Hlo.
  - simpl. split; auto. intros; apply Hhi; lia.
  - rewrite rev_seq_S. cbn [fold_left].
    assert (Hsm : sm t k (n - k) = Rmin (t k) (sm t (S k) (n - S k))).
    { replace (n - k)%nat with (S (n - S k)) by lia. reflexivity. }
    assert (Ek : get acc (nth k s 0%nat) = t k) by (apply Hlo; lia).
    unfold by_step at 2 4. rewrite Ek, Hcm.
    destruct (Rltb_spec (sm t (S k) (n - S k)) (t k)) as [Hl|Hl].
    + apply IH; try lia.
      * rewrite upd_length; auto.
      * rewrite Hsm, Rmin_right by lra. reflexivity.
      * intros j Hj. destruct (Nat.eq_dec j k) as [->|Hne].
        -- unfold get. rewrite upd_nth_same by (rewrite La; apply Hlt, nth_In; lia).
           rewrite Hsm, Rmin_right by lra. reflexivity.
        -- unfold get. rewrite upd_nth_other by (apply nth_NoDup_neq; auto; lia). apply Hhi; lia.
      * intros j Hj. unfold get. rewrite upd_nth_other by (apply nth_NoDup_neq; auto; lia).
        apply Hlo; lia.
    + apply IH; try lia; auto.
      * rewrite Hsm, Rmin_left by lra. reflexivity.
      * intros j Hj. destruct (Nat.eq_dec j k) as [->|Hne].
        -- rewrite Ek, Hsm, Rmin_left by lra. reflexivity.
        -- apply Hhi; lia.
Qed.

Definition holm_term (p : list R) (i : nat) : R :=
  Rmin 1 (nth i (rsort p) 0 * INR (length p - i)).
Definition by_term (p : list R) (i : nat) : R :=
  Rmin 1 (nth i (rsort p) 0 * INR (length p) * by_factor (length p) / INR (i + 1)).

Lemma sm_one t n : t (n - 1)%nat <= 1 -> (0 < n)%nat -> sm t (n - 1) (n - (n - 1)) = t (n - 1)%nat.
Proof.
  intros H Hn. replace (n - (n - 1))%nat with 1%nat by lia. simpl. apply Rmin_left, H.
Qed.

Lemma holm_adjust_char p :
  exists a, holm_adjust p = Ok a /\ length a = length p /\
  forall k, (k < length p)%nat ->
    get a (nth k (sorted_indices p) 0%nat) = sm (holm_term p) k (length p - k).
Proof.
  destruct p as [|x p0] eqn:Ep.
  { exists []. repeat split. simpl; lia. }
  rewrite <- Ep. assert (Hn : (0 < length p)%nat) by (rewrite Ep; simpl; lia).
  set (acc := assign_loop (length p) (sorted_indices p)
        (fun i idx => Rmin 1 (get p idx * INR (length p - i)))).
  assert (Hacc : forall k, (k < length p)%nat ->
            get acc (nth k (sorted_indices p) 0%nat) = holm_term p k).
  { intros k Hk. unfold acc. rewrite assign_loop_get by exact Hk.
    rewrite sorted_indices_nth by exact Hk. reflexivity. }
  assert (Hloop := holm_loop_get (sorted_indices p) (holm_term p) (length p)
            (sorted_indices_NoDup p) (sorted_indices_length p) (sorted_indices_lt p)
            (length p - 1) acc ltac:(lia) (assign_loop_length _ _ _)).
  destruct Hloop as [Hg Hl].
  - intros j Hj. replace j with (length p - 1)%nat by lia.
    rewrite sm_one; [apply Hacc; lia|apply Rmin_l|exact Hn].
  - intros j Hj. apply Hacc; lia.
  - exists (fold_left (holm_step (sorted_indices p)) (downrange (length p)) acc).
    split; [|split; [exact Hl|exact Hg]].
    unfold holm_adjust. rewrite Ep. rewrite <- Ep. reflexivity.
Qed.

Lemma by_adjust_char p :
  exists a, by_adjust p = Ok a /\ length a = length p /\
  forall k, (k < length p)%nat ->
    get a (nth k (sorted_indices p) 0%nat) = sm (by_term p) k (length p - k).
Proof.
  destruct p as [|x p0] eqn:Ep.
  { exists []. repeat split. simpl; lia. }
  rewrite <- Ep. assert (Hn : (0 < length p)%nat) by (rewrite Ep; simpl; lia).
  set (acc := assign_loop (length p) (sorted_indices p)
        (fun i idx => Rmin 1 (get p idx * INR (length p) * by_factor (length p) / INR (i + 1)))).
  assert (Hacc : forall k, (k < length p)%nat ->
            get acc (nth k (sorted_indices p) 0%nat) = by_term p k).
  { intros k Hk. unfold acc. rewrite assign_loop_get by exact Hk.
    rewrite sorted_indices_nth by exact Hk. reflexivity. }
  set (cm := get acc (nth (length p - 1) (sorted_indices p) 0%nat)).
  assert (Hcm : cm = sm (by_term p) (length p - 1) (length p - (length p - 1))).
  { unfold cm. rewrite sm_one; [apply Hacc; lia|apply Rmin_l|exact Hn]. }
  assert (Hloop := by_loop_get (sorted_indices p) (by_term p) (length p)
            (sorted_indices_NoDup p) (sorted_indices_length p) (sorted_indices_lt p)
            (length p - 1) acc cm ltac:(lia) (assign_loop_length _ _ _) Hcm).
  destruct Hloop as [Hg Hl].
  - intros j Hj. replace j with (length p - 1)%nat by lia.
    rewrite sm_one; [apply Hacc; lia|apply Rmin_l|exact Hn].
  - intros j Hj. apply Hacc; lia.
  - exists (fst (fold_left (by_step (sorted_indices p)) (downrange (length p)) (acc, cm))).
    split; [|split; [exact Hl|exact Hg]].
    unfold by_adjust. rewrite Ep. rewrite <- Ep. reflexivity.
Qed.

(** from rank-indexed suffix minima to the step-up specification *)
Lemma sorted_pvalues p : pvalues p -> forall k, 0 <= nth k (rsort p) 0.
Proof.
  intros Hp k. destruct (le_lt_dec (length (rsort p)) k) as [H|H].
  - rewrite nth_overflow by exact H. lra.
  - assert (In (nth k (rsort p) 0) p) by (apply rsort_in, nth_In, H). apply Hp; assumption.
Qed.

Lemma sm_step_up p (a : nat -> R) k :
  pvalues p -> (k < length p)%nat ->
  (forall i j, (1 <= i <= j)%nat -> (j <= length p)%nat -> a j <= a i) ->
  step_up_adjusted a p (nth k (rsort p) 0)
    (sm (fun i => Rmin 1 (a (i + 1)%nat * nth i (rsort p) 0)) k (length p - k)).
Proof.
  intros Hp Hk Ha.
  set (t := fun i => Rmin 1 (a (i + 1)%nat * nth i (rsort p) 0)).
  split.
  - destruct (sm_attained t k (length p - k)) as [E|[j [Hj E]]]; [auto|].
    rewrite E. unfold t.
    destruct (Rle_dec 1 (a (j + 1)%nat * nth j (rsort p) 0)) as [H1|H1];
      [left; apply Rmin_left, H1|].
    right. rewrite Rmin_right by lra. exists (j + 1)%nat. unfold order_stat.
    replace (j + 1 - 1)%nat with j by lia.
    repeat split; try lia.
    apply sorted_nth_le; [apply rsort_sorted|rewrite rsort_length; lia].
  - intros w [->|(j & Hj & Hx & ->)]; [apply sm_le1|].
    unfold order_stat in *.
    destruct (le_lt_dec k (j - 1)) as [Hkj|Hkj].
    + eapply Rle_trans; [apply (sm_le t k _ (j - 1)%nat); lia|].
      unfold t. replace (j - 1 + 1)%nat with j by lia. apply Rmin_r.
    + (* tied rank below k: same value, larger factor *)
      assert (E : nth (j - 1) (rsort p) 0 = nth k (rsort p) 0).
      { apply Rle_antisym; [|exact Hx].
        apply sorted_nth_le; [apply rsort_sorted|rewrite rsort_length; lia]. }
      eapply Rle_trans; [apply (sm_le t k _ k); lia|].
      unfold t. eapply Rle_trans; [apply Rmin_r|]. rewrite E.
      apply Rmult_le_compat_r; [apply sorted_pvalues, Hp|]. apply Ha; lia.
Qed.

Lemma step_up_unique a p x v w : step_up_adjusted a p x v -> step_up_adjusted a p x w -> v = w.
Proof. intros [A B] [C D]. apply Rle_antisym; auto. Qed.
Lemma step_down_unique a p x v w : step_down_adjusted a p x v -> step_down_adjusted a p x w -> v = w.
Proof. intros [A B] [C D]. apply Rle_antisym; auto. Qed.

Lemma sm_ext t u k cnt : (forall i, t i = u i) -> sm t k cnt = sm u k cnt.
Proof. intros H; revert k; induction cnt as [|c IH]; intros k; simpl; [auto|]. rewrite H, IH; auto. Qed.

Lemma char_pointwise p a t (Q : R -> R -> Prop) :
  length a = length p ->
  (forall k, (k < length p)%nat -> get a (nth k (sorted_indices p) 0%nat) = sm t k (length p - k)) ->
  (forall k, (k < length p)%nat -> Q (nth k (rsort p) 0) (sm t k (length p - k))) ->
  pointwise Q p a.
Proof.
  intros Hl Hg HQ. split; [exact Hl|]. intros i Hi.
  destruct (sorted_indices_rank p i Hi) as [k [Hk <-]].
  fold (get p (nth k (sorted_indices p) 0%nat)). fold (get a (nth k (sorted_indices p) 0%nat)).
  rewrite sorted_indices_nth, Hg by exact Hk. apply HQ, Hk.
Qed.

Lemma holm_is_hochberg p : pvalues p ->
  exists a, holm_adjust p = Ok a /\ pointwise (hochberg_adjusted p) p a.
Proof.
  intros Hp. destruct (holm_adjust_char p) as (a & E & Hl & Hg).
  exists a; split; [exact E|]. eapply char_pointwise; eauto.
  intros k Hk.
  rewrite (sm_ext _ (fun i => Rmin 1 ((fun k => INR (length p - k + 1)) (i + 1)%nat * nth i (rsort p) 0))).
  - apply (sm_step_up p (fun k => INR (length p - k + 1))); auto.
    intros i j H1 H2. apply le_INR. lia.
  - intros i. unfold holm_term. destruct (le_lt_dec (length p) i) as [H|H].
    + rewrite nth_overflow by (rewrite rsort_length; exact H). f_equal. lra.
    + f_equal. rewrite Rmult_comm. do 2 f_equal. lia.
Qed.

Lemma inv_antitone i j : (1 <= i <= j)%nat -> / INR j <= / INR i.
Proof.
  intros H. apply Rinv_le_contravar; [apply INR_pos; lia|apply le_INR; lia].
Qed.

Lemma by_is_step_up p : pvalues p -> 0 <= by_factor (length p) ->
  exists a, by_adjust p = Ok a /\ pointwise (by_adjusted (by_factor (length p)) p) p a.
Proof.
  intros Hp Hc. destruct (by_adjust_char p) as (a & E & Hl & Hg).
  exists a; split; [exact E|]. eapply char_pointwise; eauto.
  intros k Hk.
  rewrite (sm_ext _ (fun i => Rmin 1 ((fun k => INR (length p) * by_factor (length p) / INR k)
             (i + 1)%nat * nth i (rsort p) 0))).
  - apply (sm_step_up p (fun k => INR (length p) * by_factor (length p) / INR k)); auto.
    intros i j H1 H2. unfold Rdiv. apply Rmult_le_compat_l.
    + apply Rmult_le_pos; [apply pos_INR|exact Hc].
    + apply inv_antitone; lia.
  - intros i. unfold by_term. f_equal. unfold Rdiv. ring.
Qed.

Lemma harmonic_sum n : Rsum (map (fun i => 1 / INR i) (seq 1 n)) = harmonic n.
Proof.
  induction n as [|n IH]; [reflexivity|].
  rewrite seq_S, map_app, Rsum_app, IH. cbn [map Rsum harmonic].
  replace (1 + n)%nat with (S n) by lia. unfold Rdiv. lra.
Qed.
Lemma harmonic_pos n : 0 <= harmonic n.
Proof.
  induction n as [|n IH]; cbn [harmonic]; [lra|].
  assert (0 < / INR (S n)) by (apply Rinv_0_lt_compat, INR_pos; lia). lra.
Qed.
Lemma harmonic_ge1 n : (1 <= n)%nat -> 1 <= harmonic n.
Proof.
  induction n as [|n IH]; intros H; [lia|]. cbn [harmonic].
  destruct n as [|n]; [cbn [harmonic]; change (INR 1) with 1; rewrite Rinv_1; lra|].
  assert (0 < / INR (S (S n))) by (apply Rinv_0_lt_compat, INR_pos; lia).
  assert (1 <= harmonic (S n)) by (apply IH; lia). lra.
Qed.
Lemma by_factor_harmonic n : (N.of_nat n <= 10000)%N -> by_factor n = harmonic n.
Proof.
  intros H. unfold by_factor.
  replace (10000 <? N.of_nat n)%N with false by (symmetry; apply N.ltb_ge, H).
  apply harmonic_sum.
Qed.
Lemma by_factor_ge_gamma n : 0 <= by_factor n.
Proof.
  unfold by_factor. destruct (N.ltb_spec 10000 (N.of_nat n)) as [H|H].
  - assert (1 <= INR n) by (apply INR_ge1; lia).
    assert (0 <= ln (INR n)).
    { destruct (Req_dec (INR n) 1) as [->|]; [rewrite ln_1; lra|].
      rewrite <- ln_1. left. apply ln_increasing; lra. }
    unfold gamma_literal; lra.
  - rewrite harmonic_sum. apply harmonic_pos.
Qed.
