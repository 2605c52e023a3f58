From Verif Require Import Base ProbSpec ProbProofs DecModel DecSpec.
From Coq Require Import ZArith Lia.

(** ** the ecdf *)
Lemma runs_expand l : flat_map (fun p => repeat (fst p) (snd p)) (runs l) = l.
Proof.
  induction l as [|x l IH]; simpl; [reflexivity|].
  destruct (runs l) as [|[y c] r] eqn:E; simpl in *; [rewrite <- IH; reflexivity|].
  destruct (Reqb_spec x y) as [->|]; simpl; rewrite <- IH; reflexivity.
Qed.
Lemma runs_fst_in l x : In x (map fst (runs l)) <-> In x l.
Proof.
  induction l as [|a l IH]; simpl; [tauto|].
  destruct (runs l) as [|[y c] r] eqn:E; simpl in *.
  - rewrite <- IH. tauto.
  - destruct (Reqb_spec a y) as [->|]; simpl; rewrite <- IH; tauto.
Qed.
Lemma runs_strict l : sortedR l -> StronglySorted Rlt (map fst (runs l)).
Proof.
  induction 1 as [|x l Hs IH Hf]; simpl; [constructor|].
  rewrite Forall_forall in Hf.
  destruct (runs l) as [|[y c] r] eqn:E; simpl; [repeat constructor|].
  destruct (Reqb_spec x y) as [->|Hne]; [exact IH|].
  simpl in *. constructor; [exact IH|].
  assert (Hy : In y l) by (apply runs_fst_in; rewrite E; simpl; auto).
  assert (x < y) by (specialize (Hf y Hy); lra).
  rewrite Forall_forall. intros z Hz. destruct Hz as [<-|Hz]; [assumption|].
  inversion IH as [|? ? _ Hf2]; subst. rewrite Forall_forall in Hf2. specialize (Hf2 z Hz). lra.
Qed.
Lemma strict_sorted l : StronglySorted Rlt l -> sortedR l.
Proof.
  induction 1 as [|x l Hs IH Hf]; constructor; auto.
  rewrite Forall_forall in *. intros y Hy. specialize (Hf y Hy). lra.
Qed.
Lemma strict_NoDup l : StronglySorted Rlt l -> NoDup l.
Proof.
  induction 1 as [|x l Hs IH Hf]; constructor; auto.
  intros Hin. rewrite Forall_forall in Hf. specialize (Hf x Hin). lra.
Qed.

Lemma quantiles_in limit x : In x (ecdf_quantiles limit) <-> In x limit.
Proof. unfold ecdf_quantiles. rewrite runs_fst_in. apply rsort_in. Qed.
Lemma quantiles_strict limit : StronglySorted Rlt (ecdf_quantiles limit).
Proof. apply runs_strict, rsort_sorted. Qed.
Lemma quantiles_sorted limit : sortedR (ecdf_quantiles limit).
Proof. apply strict_sorted, quantiles_strict. Qed.
Lemma quantiles_perm l1 l2 : Permutation l1 l2 -> ecdf_quantiles l1 = ecdf_quantiles l2.
Proof. intros H. unfold ecdf_quantiles. rewrite (rsort_perm_eq _ _ H). reflexivity. Qed.
Lemma quantiles_nonempty limit : limit <> [] -> ecdf_quantiles limit <> [].
Proof.
  intros H E. destruct limit as [|x l]; [congruence|].
  assert (In x (ecdf_quantiles (x :: l))) as Hin by (apply quantiles_in; simpl; auto).
  rewrite E in Hin. destruct Hin.
Qed.
(** without ties the quantile nodes are the sorted sample itself *)
Lemma quantiles_NoDup limit : NoDup limit -> ecdf_quantiles limit = rsort limit.
Proof.
  intros H. apply sorted_perm_unique; [apply quantiles_sorted|apply rsort_sorted|].
  apply NoDup_Permutation.
  - apply strict_NoDup, quantiles_strict.
  - eapply Permutation_NoDup; [symmetry; apply rsort_perm|exact H].
  - intros x. rewrite quantiles_in, rsort_in. reflexivity.
Qed.

Lemma nth_cumsum x a r : StronglySorted Rlt (map fst r) ->
  nth (searchsorted_right (map fst r) x) (a :: cumsum_from a (map snd r)) 0%nat
  = (a + count (fun y => Rleb y x) (flat_map (fun p => repeat (fst p) (snd p)) r))%nat.
Proof.
  revert a; induction r as [|[y c] r IH]; intros a H; [simpl; unfold count; simpl; lia|].
  cbn [map fst snd searchsorted_right flat_map].
  inversion H as [|? ? Hs Hf]; subst. rewrite count_app.
  destruct (Rleb_spec y x) as [Hle|Hgt].
  - change (nth (S (searchsorted_right (map fst r) x)) (a :: cumsum_from a (c :: map snd r)) 0%nat)
      with (nth (searchsorted_right (map fst r) x) ((a + c)%nat :: cumsum_from (a + c) (map snd r)) 0%nat).
    rewrite IH by exact Hs.
    rewrite (count_all _ (repeat y c)).
    + rewrite repeat_length. lia.
    + intros z Hz. apply repeat_spec in Hz; subst. apply Rleb_true; lra.
  - cbn [nth]. rewrite (count_zero _ (repeat y c)).
    + rewrite (count_zero _ (flat_map _ r)); [lia|].
      intros z Hz. apply in_flat_map in Hz. destruct Hz as [[y' c'] [Hp Hz]].
      apply repeat_spec in Hz. simpl in Hz; subst z. apply Rleb_false.
      rewrite Forall_forall in Hf. assert (In y' (map fst r)) as Hin by (apply in_map_iff; exists (y', c'); auto).
      specialize (Hf y' Hin). lra.
    + intros z Hz. apply repeat_spec in Hz; subst. apply Rleb_false; lra.
Qed.

Lemma ecdf_is_fraction limit x : ecdf_evaluate limit x = fraction (fun y => Rleb y x) limit.
Proof.
  unfold ecdf_evaluate, ecdf_quantiles, ecdf_probabilities, fraction.
  set (r := runs (rsort limit)).
  assert (Hr : StronglySorted Rlt (map fst r)) by (apply runs_strict, rsort_sorted).
  set (g := fun c : nat => INR c / INR (length limit)).
  assert (Hg : g 0%nat = 0) by (unfold g; change (INR 0) with 0; unfold Rdiv; lra).
  assert (E : nth (searchsorted_right (map fst r) x) (0 :: map g (cumsum_from 0 (map snd r))) 0
    = g (nth (searchsorted_right (map fst r) x) (0%nat :: cumsum_from 0 (map snd r)) 0%nat)).
  { rewrite <- (map_nth g). cbn [map]. rewrite Hg. reflexivity. }
  rewrite E.
  rewrite nth_cumsum by exact Hr. unfold r. rewrite runs_expand. unfold g.
  rewrite (count_perm _ _ _ (rsort_perm limit)). reflexivity.
Qed.

Lemma fraction_range P l : l <> [] -> 0 <= fraction P l <= 1.
Proof.
  intros H. unfold fraction. assert (0 < INR (length l)).
  { apply INR_pos. destruct l; [congruence|simpl; lia]. }
  split.
  - apply Rmult_le_pos; [apply pos_INR|left; apply Rinv_0_lt_compat; auto].
  - apply (Rmult_le_reg_r (INR (length l))); [auto|]. unfold Rdiv.
    rewrite Rmult_assoc, Rinv_l, Rmult_1_r, Rmult_1_l by lra. apply le_INR, count_le_length.
Qed.
Lemma fraction_mono P Q l : l <> [] -> (forall x, In x l -> P x = true -> Q x = true) ->
  fraction P l <= fraction Q l.
Proof.
  intros Hl H. unfold fraction. apply Rmult_le_compat_r.
  - left; apply Rinv_0_lt_compat, INR_pos. destruct l; [congruence|simpl; lia].
  - apply le_INR, count_mono, H.
Qed.
Lemma fraction_negb P l : l <> [] -> fraction (fun x => negb (P x)) l = 1 - fraction P l.
Proof.
  intros H. unfold fraction. pose proof (count_negb P l) as E. apply (f_equal INR) in E.
  rewrite plus_INR in E. assert (INR (length l) <> 0).
  { apply not_0_INR. destruct l; [congruence|simpl; lia]. }
  replace (INR (count (fun x => negb (P x)) l)) with (INR (length l) - INR (count P l)) by lra.
  field; auto.
Qed.
Lemma fraction_perm P l1 l2 : Permutation l1 l2 -> fraction P l1 = fraction P l2.
Proof.
  intros H. unfold fraction. rewrite (count_perm _ _ _ H), (Permutation_length H). reflexivity.
Qed.
Lemma fraction_ext P Q l : (forall x, In x l -> P x = Q x) -> fraction P l = fraction Q l.
Proof. intros H. unfold fraction. rewrite (count_ext P Q) by exact H. reflexivity. Qed.

Lemma right_p_is_fraction limit x : limit <> [] ->
  right_p_value limit x = fraction (fun y => Rltb x y) limit.
Proof.
  intros H. unfold right_p_value. rewrite ecdf_is_fraction, <- fraction_negb by exact H.
  apply fraction_ext. intros y _. unfold Rleb, Rltb.
  destruct (Rle_dec y x), (Rlt_dec x y); simpl; auto; lra.
Qed.

Lemma ecdf_mono limit x y : limit <> [] -> x <= y -> ecdf_evaluate limit x <= ecdf_evaluate limit y.
Proof.
  intros Hl H. rewrite !ecdf_is_fraction. apply fraction_mono; auto.
  intros z _ Hz. apply Rleb_true in Hz. apply Rleb_true. lra.
Qed.
Lemma ecdf_range limit x : limit <> [] -> 0 <= ecdf_evaluate limit x <= 1.
Proof. intros. rewrite ecdf_is_fraction. apply fraction_range; auto. Qed.

Lemma p_value_range alt limit x : limit <> [] -> 0 <= p_value_of alt limit x <= 1.
Proof.
  intros Hl. pose proof (ecdf_range limit x Hl).
  destruct alt; simpl; unfold right_p_value, left_p_value, two_sided_p_value; try lra.
  unfold Rmin. destruct (Rle_dec _ _); lra.
Qed.
Lemma p_value_perm alt l1 l2 x : Permutation l1 l2 -> p_value_of alt l1 x = p_value_of alt l2 x.
Proof.
  intros H. assert (E : ecdf_evaluate l1 x = ecdf_evaluate l2 x)
    by (rewrite !ecdf_is_fraction; apply fraction_perm, H).
  destruct alt; simpl; unfold right_p_value, left_p_value, two_sided_p_value; rewrite E; reflexivity.
Qed.

(** ** quantiles *)
Lemma floor_nat_spec h : 0 <= h -> INR (floor_nat h) <= h < INR (floor_nat h) + 1.
Proof.
  intros Hh. unfold floor_nat. destruct (base_Int_part h) as [H1 H2].
  assert (0 <= Int_part h)%Z.
  { apply le_IZR. apply Rnot_lt_le. intros Hlt. apply (lt_IZR _ 0) in Hlt.
    assert (Int_part h <= -1)%Z by lia. apply IZR_le in H. lra. }
  rewrite INR_IZR_INZ, Z2Nat.id by assumption. lra.
Qed.
Lemma floor_nat_unique h k : INR k <= h < INR k + 1 -> floor_nat h = k.
Proof.
  intros H. assert (0 <= h) by (pose proof (pos_INR k); lra).
  pose proof (floor_nat_spec h H0) as F.
  assert (floor_nat h < k + 1)%nat by (apply INR_lt; rewrite plus_INR; simpl; lra).
  assert (k < floor_nat h + 1)%nat by (apply INR_lt; rewrite plus_INR; simpl; lra).
  lia.
Qed.

(** interpolation value at virtual index h *)
Definition interp (a : list R) (h : R) : R :=
  let k := floor_nat h in
  nth k a 0 + (nth (Nat.min (k + 1) (length a - 1)) a 0 - nth k a 0) * (h - INR k).

Lemma np_quantile_ok a q : a <> [] -> 0 <= q <= 1 ->
  np_quantile a q = Ok (interp a (INR (length a - 1) * q)).
Proof.
  intros Ha Hq. unfold np_quantile.
  rewrite (proj2 (Rleb_true 0 q)), (proj2 (Rleb_true q 1)) by lra. simpl.
  destruct a; [congruence|]. reflexivity.
Qed.
Lemma np_quantile_raises a q : (exists e, np_quantile a q = Raise e) <-> a = [] \/ ~ (0 <= q <= 1).
Proof.
  unfold np_quantile. destruct (Rleb_spec 0 q), (Rleb_spec q 1); simpl.
  - destruct a; [intuition; eexists; reflexivity|]. split.
    + intros [e He]; discriminate.
    + intros [Hc|Hc]; [discriminate|]. exfalso; apply Hc; lra.
  - split; [intros _; right; lra|intros _; eexists; reflexivity].
  - split; [intros _; right; lra|intros _; eexists; reflexivity].
  - split; [intros _; right; lra|intros _; eexists; reflexivity].
Qed.

Lemma interp_bounds a h : sortedR a -> a <> [] -> 0 <= h <= INR (length a - 1) ->
  nth (floor_nat h) a 0 <= interp a h <= nth (Nat.min (floor_nat h + 1) (length a - 1)) a 0
  /\ (floor_nat h <= length a - 1)%nat.
Proof.
  intros Hs Ha Hh. pose proof (floor_nat_spec h ltac:(lra)) as F.
  assert (Hl : (0 < length a)%nat) by (destruct a; [congruence|simpl; lia]).
  assert (Hk : (floor_nat h <= length a - 1)%nat) by (apply INR_le; lra).
  split; [|exact Hk].
  assert (nth (floor_nat h) a 0 <= nth (Nat.min (floor_nat h + 1) (length a - 1)) a 0).
  { apply sorted_nth_le; [exact Hs|lia]. }
  unfold interp. nra.
Qed.
Lemma interp_mono a h1 h2 : sortedR a -> a <> [] -> 0 <= h1 <= h2 -> h2 <= INR (length a - 1) ->
  interp a h1 <= interp a h2.
Proof.
  intros Hs Ha H12 H2.
  destruct (interp_bounds a h1 Hs Ha ltac:(lra)) as [B1 K1].
  destruct (interp_bounds a h2 Hs Ha ltac:(lra)) as [B2 K2].
  pose proof (floor_nat_spec h1 ltac:(lra)) as F1.
  pose proof (floor_nat_spec h2 ltac:(lra)) as F2.
  assert (Hl : (0 < length a)%nat) by (destruct a; [congruence|simpl; lia]).
  assert (Hk : (floor_nat h1 <= floor_nat h2)%nat).
  { assert (floor_nat h1 < floor_nat h2 + 1)%nat by (apply INR_lt; rewrite plus_INR; simpl; lra). lia. }
  destruct (Nat.eq_dec (floor_nat h1) (floor_nat h2)) as [E|E].
  - assert (nth (floor_nat h1) a 0 <= nth (Nat.min (floor_nat h1 + 1) (length a - 1)) a 0).
    { apply sorted_nth_le; [exact Hs|lia]. }
    unfold interp. rewrite <- E. nra.
  - eapply Rle_trans; [apply B1|]. eapply Rle_trans; [|apply B2].
    apply sorted_nth_le; [exact Hs|lia].
Qed.

Lemma sorted_min_max a : sortedR a -> a <> [] ->
  forall x, In x a -> nth 0 a 0 <= x <= nth (length a - 1) a 0.
Proof.
  intros Hs Ha x Hx. destruct (In_nth _ _ 0 Hx) as [i [Hi <-]].
  split; apply sorted_nth_le; auto; lia.
Qed.
Lemma nth_in_range a k : a <> [] -> (k <= length a - 1)%nat -> In (nth k a 0) a.
Proof. intros Ha Hk. apply nth_In. destruct a; [congruence|simpl in *; lia]. Qed.

(** every critical value lies between two simulated values *)
Lemma interp_range limit h : limit <> [] -> 0 <= h <= INR (length (ecdf_quantiles limit) - 1) ->
  exists lo hi, In lo limit /\ In hi limit /\ lo <= interp (ecdf_quantiles limit) h <= hi.
Proof.
  intros Hl Hh. pose proof (quantiles_nonempty _ Hl) as Hq.
  destruct (interp_bounds _ h (quantiles_sorted limit) Hq Hh) as [B K].
  eexists; eexists. split; [|split; [|exact B]]; apply quantiles_in; apply nth_in_range; auto; lia.
Qed.

Definition cvh (limit : list R) (q : R) : R :=
  interp (ecdf_quantiles limit) (INR (length (ecdf_quantiles limit) - 1) * q).

Lemma cvh_mono limit q1 q2 : limit <> [] -> 0 <= q1 <= q2 -> q2 <= 1 -> cvh limit q1 <= cvh limit q2.
Proof.
  intros Hl H1 H2. pose proof (pos_INR (length (ecdf_quantiles limit) - 1)).
  apply interp_mono; [apply quantiles_sorted|apply quantiles_nonempty, Hl| |]; nra.
Qed.
Lemma cvh_range limit q : limit <> [] -> 0 <= q <= 1 ->
  exists lo hi, In lo limit /\ In hi limit /\ lo <= cvh limit q <= hi.
Proof.
  intros Hl H. pose proof (pos_INR (length (ecdf_quantiles limit) - 1)).
  apply interp_range; auto. nra.
Qed.

Lemma left_cv_ok limit level : limit <> [] -> 0 <= level <= 1 ->
  left_critical_value limit level = Ok (cvh limit level).
Proof. intros Hl H. apply np_quantile_ok; [apply quantiles_nonempty, Hl|exact H]. Qed.
Lemma right_cv_ok limit level : limit <> [] -> 0 <= level <= 1 ->
  right_critical_value limit level = Ok (cvh limit (1 - level)).
Proof. intros Hl H. apply np_quantile_ok; [apply quantiles_nonempty, Hl|lra]. Qed.
Lemma two_sided_cv_ok limit level : limit <> [] -> 0 <= level <= 2 ->
  two_sided_critical_value limit level = Ok (cvh limit (level / 2), cvh limit (1 - level / 2)).
Proof.
  intros Hl H. unfold two_sided_critical_value.
  rewrite !np_quantile_ok by (try apply quantiles_nonempty, Hl; lra). reflexivity.
Qed.

Lemma two_sided_raises limit level : (exists e, two_sided_critical_value limit level = Raise e)
  <-> limit = [] \/ ~ (0 <= level <= 2).
Proof.
  split.
  - intros [e He]. destruct limit as [|x l] eqn:E; [auto|]. right. intros H.
    rewrite two_sided_cv_ok in He; [discriminate|congruence|exact H].
  - intros H.
    assert (Hr : exists e, np_quantile (ecdf_quantiles limit) (level / 2) = Raise e).
    { apply np_quantile_raises. destruct H as [->|H]; [left; reflexivity|right; lra]. }
    destruct Hr as [e He]. exists e. unfold two_sided_critical_value. rewrite He. reflexivity.
Qed.
Lemma empty_quantiles limit : ecdf_quantiles limit = [] <-> limit = [].
Proof.
  split; [|intros ->; reflexivity]. intros H. destruct limit; auto.
  exfalso. apply (quantiles_nonempty (r :: limit)); [discriminate|exact H].
Qed.

(** ** number of simulated values strictly beyond the right critical value *)
Lemma count_above_index a h : StronglySorted Rlt a -> a <> [] -> 0 <= h <= INR (length a - 1) ->
  count (fun y => Rltb (interp a h) y) a = (length a - 1 - floor_nat h)%nat.
Proof.
  intros Hst Ha Hh. pose proof (strict_sorted _ Hst) as Hs.
  destruct (interp_bounds a h Hs Ha Hh) as [B K].
  pose proof (floor_nat_spec h ltac:(lra)) as F.
  assert (Hl : (0 < length a)%nat) by (destruct a; [congruence|simpl; lia]).
  set (k := floor_nat h) in *. set (v := interp a h) in *.
  assert (Hsp : count (fun y => Rltb v y) a
     = (count (fun y => Rltb v y) (firstn (S k) a) + count (fun y => Rltb v y) (skipn (S k) a))%nat)
    by (rewrite <- count_app, firstn_skipn; reflexivity).
  rewrite Hsp, count_zero, count_all.
  - rewrite skipn_length. lia.
  - (* entries after k are above *)
    intros y Hy. apply Rltb_true. destruct (In_nth _ _ 0 Hy) as [i [Hi <-]].
    rewrite skipn_length in Hi.
    rewrite <- (firstn_skipn (S k) a) in Hst.
    assert (E : nth i (skipn (S k) a) 0 = nth (S k + i) a 0).
    { rewrite <- (firstn_skipn (S k) a) at 2. rewrite app_nth2; rewrite firstn_length; [f_equal; lia|lia]. }
    rewrite E. assert (Hlt : nth k a 0 < nth (k + 1) a 0).
    { rewrite firstn_skipn in Hst. clear - Hst Hi.
      assert (Hk1 : (k + 1 < length a)%nat) by lia. clear Hi. revert Hk1. generalize k as n.
      induction Hst as [|x l Hs IH Hf]; intros n Hn; simpl in *; [lia|].
      destruct n as [|n]; simpl.
      - rewrite Forall_forall in Hf. apply Hf, nth_In. lia.
      - apply IH. lia. }
    assert (nth (k + 1) a 0 <= nth (S k + i) a 0) by (apply sorted_nth_le; [exact Hs|lia]).
    assert (v < nth (k + 1) a 0); [|lra].
    unfold v, interp. fold k. replace (Nat.min (k + 1) (length a - 1)) with (k + 1)%nat by lia. nra.
  - intros y Hy. apply Rltb_false. destruct (In_nth _ _ 0 Hy) as [i [Hi <-]].
    rewrite firstn_length in Hi.
    assert (E : nth i (firstn (S k) a) 0 = nth i a 0).
    { rewrite <- (firstn_skipn (S k) a) at 2. rewrite app_nth1; [auto|rewrite firstn_length; lia]. }
    rewrite E. eapply Rle_trans; [|apply B]. apply sorted_nth_le; [exact Hs|lia].
Qed.

Lemma right_cv_tail limit level c : NoDup limit -> limit <> [] -> 0 <= level <= 1 ->
  right_critical_value limit level = Ok c ->
  INR (length limit - 1) * level <= INR (count (fun y => Rltb c y) limit)
    < INR (length limit - 1) * level + 1.
Proof.
  intros Hnd Hl Hlev Hc. rewrite right_cv_ok in Hc by auto. injection Hc as <-.
  pose proof (quantiles_NoDup _ Hnd) as Hq.
  assert (Hlen : length (ecdf_quantiles limit) = length limit) by (rewrite Hq; apply rsort_length).
  rewrite <- (count_perm _ _ _ (rsort_perm limit)), <- Hq. unfold cvh.
  pose proof (pos_INR (length (ecdf_quantiles limit) - 1)) as Hp.
  assert (Hh : 0 <= INR (length (ecdf_quantiles limit) - 1) * (1 - level)
     <= INR (length (ecdf_quantiles limit) - 1)) by nra.
  rewrite count_above_index;
    [|apply quantiles_strict|apply quantiles_nonempty, Hl|exact Hh].
  destruct (interp_bounds _ _ (quantiles_sorted limit) (quantiles_nonempty _ Hl) Hh) as [_ K].
  rewrite (minus_INR _ _ K).
  pose proof (floor_nat_spec _ (proj1 Hh)) as F. rewrite Hlen in *. lra.
Qed.

(** the same for the left critical value, counting values strictly below *)
Lemma count_below_index a h : StronglySorted Rlt a -> a <> [] -> 0 <= h <= INR (length a - 1) ->
  INR (count (fun y => Rltb y (interp a h)) a) < h + 1 /\ h <= INR (count (fun y => Rltb y (interp a h)) a).
Proof.
  intros Hst Ha Hh. pose proof (strict_sorted _ Hst) as Hs.
  destruct (interp_bounds a h Hs Ha Hh) as [B K].
  pose proof (floor_nat_spec h ltac:(lra)) as F.
  assert (Hl : (0 < length a)%nat) by (destruct a; [congruence|simpl; lia]).
  (* strict increase *)
  assert (Hinc : forall i j, (i < j < length a)%nat -> nth i a 0 < nth j a 0).
  { clear - Hst. induction Hst as [|x l Hs IH Hf]; intros i j Hij; simpl in *; [lia|].
    destruct j as [|j]; [lia|]. destruct i as [|i].
    - rewrite Forall_forall in Hf. apply Hf, nth_In. lia.
    - apply IH. lia. }
  set (k := floor_nat h) in *. set (v := interp a h) in *.
  assert (Hsp : forall m, count (fun y => Rltb y v) a
     = (count (fun y => Rltb y v) (firstn m a) + count (fun y => Rltb y v) (skipn m a))%nat)
    by (intros m; rewrite <- count_app, firstn_skipn; reflexivity).
  assert (Hfn : forall m i, (i < m)%nat -> nth i (firstn m a) 0 = nth i a 0).
  { intros m i Hi. destruct (le_lt_dec (length a) i) as [Ho|Ho].
    - rewrite !nth_overflow; auto. rewrite firstn_length; lia.
    - rewrite <- (firstn_skipn m a) at 2. rewrite app_nth1; [auto|rewrite firstn_length; lia]. }
  assert (Hsn : forall m i, (m + i < length a)%nat -> nth i (skipn m a) 0 = nth (m + i) a 0).
  { intros m i Hi. rewrite <- (firstn_skipn m a) at 2.
    rewrite app_nth2; rewrite firstn_length; [f_equal; lia|lia]. }
  destruct (Req_dec h (INR k)) as [E|E].
  - (* v is exactly the k-th node *)
    assert (Ev : v = nth k a 0) by (unfold v, interp; fold k; rewrite E; ring).
    rewrite (Hsp k), count_all, count_zero.
    + rewrite firstn_length, Nat.add_0_r. replace (Nat.min k (length a)) with k by lia. lra.
    + intros y Hy. apply Rltb_false. destruct (In_nth _ _ 0 Hy) as [i [Hi <-]].
      rewrite skipn_length in Hi. rewrite Hsn by lia. rewrite Ev. apply sorted_nth_le; [exact Hs|lia].
    + intros y Hy. apply Rltb_true. destruct (In_nth _ _ 0 Hy) as [i [Hi <-]].
      rewrite firstn_length in Hi. rewrite Hfn by lia. rewrite Ev. apply Hinc. lia.
  - assert (Hk1 : (k + 1 <= length a - 1)%nat).
    { assert (k < length a - 1)%nat by (apply INR_lt; lra). lia. }
    assert (Hlt : nth k a 0 < nth (k + 1) a 0) by (apply Hinc; lia).
    assert (Ev : nth k a 0 < v < nth (k + 1) a 0).
    { unfold v, interp. fold k. replace (Nat.min (k + 1) (length a - 1)) with (k + 1)%nat by lia. nra. }
    rewrite (Hsp (S k)), count_all, count_zero.
    + rewrite firstn_length, Nat.add_0_r. replace (Nat.min (S k) (length a)) with (S k) by lia.
      rewrite S_INR. lra.
    + intros y Hy. apply Rltb_false. destruct (In_nth _ _ 0 Hy) as [i [Hi <-]].
      rewrite skipn_length in Hi. rewrite Hsn by lia.
      assert (nth (k + 1) a 0 <= nth (S k + i) a 0) by (apply sorted_nth_le; [exact Hs|lia]). lra.
    + intros y Hy. apply Rltb_true. destruct (In_nth _ _ 0 Hy) as [i [Hi <-]].
      rewrite firstn_length in Hi. rewrite Hfn by lia.
      assert (nth i a 0 <= nth k a 0) by (apply sorted_nth_le; [exact Hs|lia]). lra.
Qed.

Lemma left_cv_tail limit level c : NoDup limit -> limit <> [] -> 0 <= level <= 1 ->
  left_critical_value limit level = Ok c ->
  INR (length limit - 1) * level <= INR (count (fun y => Rltb y c) limit)
    < INR (length limit - 1) * level + 1.
Proof.
  intros Hnd Hl Hlev Hc. rewrite left_cv_ok in Hc by auto. injection Hc as <-.
  pose proof (quantiles_NoDup _ Hnd) as Hq.
  assert (Hlen : length (ecdf_quantiles limit) = length limit) by (rewrite Hq; apply rsort_length).
  rewrite <- (count_perm _ _ _ (rsort_perm limit)), <- Hq. unfold cvh.
  pose proof (pos_INR (length (ecdf_quantiles limit) - 1)) as Hp.
  destruct (count_below_index (ecdf_quantiles limit)
     (INR (length (ecdf_quantiles limit) - 1) * level)) as [A B];
    [apply quantiles_strict|apply quantiles_nonempty, Hl|nra|].
  rewrite Hlen in *. lra.
Qed.

(** ** decisions, as functions of (alternative, limit, value, level) *)
Definition reject_p (alt : alternative) (limit : list R) (v level : R) : bool :=
  Rleb (p_value_of alt limit v) level.
Definition reject_cv (alt : alternative) (limit : list R) (v level : R) : result bool :=
  let! cv := critical_value_of alt limit level in
  let! inside := area_contains alt cv v in
  Ok (negb inside).

Lemma reject_cv_ok alt limit v level : limit <> [] -> 0 <= level <= 1 ->
  reject_cv alt limit v level = Ok (match alt with
    | LEFT => Rltb v (cvh limit level)
    | RIGHT => Rltb (cvh limit (1 - level)) v
    | TWO_TAILED => Rltb v (cvh limit (level / 2)) || Rltb (cvh limit (1 - level / 2)) v
    end).
Proof.
  intros Hl Hlev. assert (Hneg : forall x y, negb (Rleb x y) = Rltb y x).
  { intros x y. unfold Rleb, Rltb. destruct (Rle_dec x y), (Rlt_dec y x); simpl; auto; lra. }
  unfold reject_cv. destruct alt; simpl.
  - rewrite right_cv_ok by auto. simpl. rewrite Hneg. reflexivity.
  - rewrite left_cv_ok by auto. simpl. rewrite Hneg. reflexivity.
  - rewrite two_sided_cv_ok by (auto; lra). simpl. rewrite negb_andb, !Hneg. reflexivity.
Qed.

Lemma p_decide_rejected res st v level n limit r :
  res st n = Ok (Some limit) -> p_value_decide res st v level n = Ok r ->
  tr_rejected r = reject_p (st_alternative st) limit v level /\
  tr_p_value r = Some (p_value_of (st_alternative st) limit v) /\ tr_critical_value r = None /\
  tr_statistic r = v /\ tr_level r = level.
Proof.
  intros Hr H. unfold p_value_decide in H. rewrite Hr in H. simpl in H. injection H as <-.
  repeat split.
Qed.
Lemma cv_decide_rejected res st v level n limit r :
  res st n = Ok (Some limit) -> critical_value_decide res st v level n = Ok r ->
  reject_cv (st_alternative st) limit v level = Ok (tr_rejected r) /\
  (exists cv, critical_value_of (st_alternative st) limit level = Ok cv /\
     tr_critical_value r = Some cv /\
     area_contains (st_alternative st) cv v = Ok (negb (tr_rejected r))) /\ tr_p_value r = None /\
  tr_statistic r = v /\ tr_level r = level.
Proof.
  intros Hr H. unfold critical_value_decide in H. rewrite Hr in H. simpl in H.
  unfold reject_cv.
  destruct (critical_value_of (st_alternative st) limit level) as [cv|] eqn:Ecv; [|discriminate].
  simpl in *. destruct (area_contains (st_alternative st) cv v) as [b|] eqn:Ea; [|discriminate].
  simpl in *. injection H as <-. simpl. split; [reflexivity|].
  split; [|repeat split]. exists cv. rewrite negb_involutive. auto.
Qed.

Lemma reject_p_level_mono alt limit v l1 l2 : l1 <= l2 ->
  reject_p alt limit v l1 = true -> reject_p alt limit v l2 = true.
Proof. unfold reject_p. rewrite !Rleb_true. lra. Qed.
Lemma reject_cv_level_mono alt limit v l1 l2 : limit <> [] -> 0 <= l1 <= l2 -> l2 <= 1 ->
  reject_cv alt limit v l1 = Ok true -> reject_cv alt limit v l2 = Ok true.
Proof.
  intros Hl H1 H2. rewrite !reject_cv_ok by (auto; lra). intros H. f_equal. injection H as H.
  destruct alt.
  - apply Rltb_true in H. apply Rltb_true.
    assert (cvh limit (1 - l2) <= cvh limit (1 - l1)) by (apply cvh_mono; auto; lra). lra.
  - apply Rltb_true in H. apply Rltb_true.
    assert (cvh limit l1 <= cvh limit l2) by (apply cvh_mono; auto; lra). lra.
  - apply orb_true_iff in H. apply orb_true_iff. rewrite !Rltb_true in *.
    assert (cvh limit (l1 / 2) <= cvh limit (l2 / 2)) by (apply cvh_mono; auto; lra).
    assert (cvh limit (1 - l2 / 2) <= cvh limit (1 - l1 / 2)) by (apply cvh_mono; auto; lra).
    destruct H; [left|right]; lra.
Qed.

(** ** agreement of the two methods away from the boundary, distinct simulated values *)
Lemma right_p_count limit v : limit <> [] ->
  right_p_value limit v * INR (length limit) = INR (count (fun y => Rltb v y) limit).
Proof.
  intros H. rewrite right_p_is_fraction by exact H. unfold fraction, Rdiv.
  rewrite Rmult_assoc, Rinv_l; [ring|]. apply not_0_INR. destruct limit; [congruence|simpl; lia].
Qed.
Lemma left_p_count limit v : limit <> [] ->
  left_p_value limit v * INR (length limit) = INR (count (fun y => Rleb y v) limit).
Proof.
  intros H. unfold left_p_value. rewrite ecdf_is_fraction. unfold fraction, Rdiv.
  rewrite Rmult_assoc, Rinv_l; [ring|]. apply not_0_INR. destruct limit; [congruence|simpl; lia].
Qed.

Lemma methods_agree_right limit v level : NoDup limit -> limit <> [] -> 0 <= level <= 1 ->
  (right_p_value limit v < level - level / INR (length limit) ->
     reject_cv RIGHT limit v level = Ok true) /\
  (level + (1 - level) / INR (length limit) <= right_p_value limit v ->
     reject_cv RIGHT limit v level = Ok false).
Proof.
  intros Hnd Hl Hlev. rewrite reject_cv_ok by auto.
  assert (Hn : 1 <= INR (length limit)).
  { apply INR_ge1. destruct limit; [congruence|simpl; lia]. }
  pose proof (right_cv_tail limit level (cvh limit (1 - level)) Hnd Hl Hlev
    ltac:(apply right_cv_ok; auto)) as T.
  pose proof (right_p_count limit v Hl) as P.
  rewrite minus_INR in T by (destruct limit; [congruence|simpl; lia]). change (INR 1) with 1 in T.
  set (n := INR (length limit)) in *. set (c := cvh limit (1 - level)) in *.
  split; intros H; f_equal.
  - apply Rltb_true. apply Rnot_le_lt. intros Hle.
    assert (count (fun y => Rltb c y) limit <= count (fun y => Rltb v y) limit)%nat as Hc.
    { apply count_mono. intros y _ Hy. apply Rltb_true in Hy. apply Rltb_true. lra. }
    apply le_INR in Hc.
    assert (right_p_value limit v * n < (level - level / n) * n) by (apply Rmult_lt_compat_r; lra).
    replace ((level - level / n) * n) with (n * level - level) in H0 by (field; lra). lra.
  - apply Rltb_false. apply Rnot_lt_le. intros Hlt.
    assert (count (fun y => Rltb v y) limit <= count (fun y => Rltb c y) limit)%nat as Hc.
    { apply count_mono. intros y _ Hy. apply Rltb_true in Hy. apply Rltb_true. lra. }
    apply le_INR in Hc.
    assert ((level + (1 - level) / n) * n <= right_p_value limit v * n) by (apply Rmult_le_compat_r; lra).
    replace ((level + (1 - level) / n) * n) with (n * level + (1 - level)) in H0 by (field; lra). lra.
Qed.

(** ** exchangeability *)
Lemma argmax_exists (f : nat -> R) (l : list nat) : l <> [] ->
  exists j, In j l /\ forall i, In i l -> f i <= f j.
Proof.
  induction l as [|a l IH]; [congruence|]; intros _.
  destruct l as [|b l].
  - exists a. split; [simpl; auto|]. intros i [->|[]]; lra.
  - destruct IH as [j [Hj Hm]]; [discriminate|].
    destruct (Rle_dec (f a) (f j)) as [H|H].
    + exists j. split; [right; auto|]. intros i [<-|Hi]; [exact H|apply Hm, Hi].
    + exists a. split; [left; auto|]. intros i [<-|Hi]; [lra|]. specialize (Hm i Hi). lra.
Qed.

Lemma others_count P j z : (j < length z)%nat ->
  count P z = (count P (others j z) + (if P (nth j z 0%R) then 1 else 0))%nat.
Proof.
  intros H. unfold others. rewrite count_app.
  rewrite <- (firstn_skipn j z) at 1. rewrite count_app.
  assert (E : skipn j z = nth j z 0 :: skipn (S j) z).
  { clear P. revert j H; induction z as [|a z IH]; intros j H; simpl in *; [lia|].
    destruct j; [reflexivity|]. simpl. apply IH. lia. }
  rewrite E, count_cons. lia.
Qed.
Lemma others_length j z : (j < length z)%nat -> length (others j z) = (length z - 1)%nat.
Proof. intros H. unfold others. rewrite app_length, firstn_length, skipn_length. lia. Qed.

Lemma hits_bound (P : R -> R -> bool) A z c :
  (forall j, (j < length z)%nat -> A (others j z) (nth j z 0%R) = true ->
     INR (count (fun y => P y (nth j z 0%R)) (others j z)) <= c) ->
  (exists f : nat -> R, forall i j, (i < length z)%nat -> (j < length z)%nat -> i <> j -> f i <= f j ->
     P (nth i z 0%R) (nth j z 0%R) = true) ->
  0 <= c ->
  INR (hits A z) <= c + 1.
Proof.
  intros HA [f Hf] Hc. unfold hits.
  set (J := filter (fun j => A (others j z) (nth j z 0%R)) (seq 0 (length z))).
  change (INR (length J) <= c + 1).
  destruct J as [|j0 J0] eqn:EJ; [simpl; lra|]. rewrite <- EJ.
  assert (HJ : J <> []) by (rewrite EJ; discriminate).
  destruct (argmax_exists f J HJ) as [j [Hj Hmax]].
  assert (Hj' := Hj). unfold J in Hj'. apply filter_In in Hj'. destruct Hj' as [Hjs HjA].
  apply in_seq in Hjs. specialize (HA j ltac:(lia) HjA).
  (* all the other elements of J satisfy P against z_j *)
  assert (Hcnt : (length J <= count (fun y => P y (nth j z 0%R)) (others j z) + 1)%nat).
  { set (Q := fun i => P (nth i z 0%R) (nth j z 0%R)).
    assert (Hq : (count (fun y => P y (nth j z 0%R)) z = count Q (seq 0 (length z)))%nat).
    { unfold Q. rewrite <- (count_map (fun y => P y (nth j z 0%R)) (fun i => nth i z 0%R)).
      rewrite map_nth_seq. reflexivity. }
    pose proof (others_count (fun y => P y (nth j z 0%R)) j z ltac:(lia)) as Ho.
    (* count of indices i <> j with Q *)
    assert (Hne : (length J - 1 <= count (fun i => Q i && negb (Nat.eqb i j)) (seq 0 (length z)))%nat).
    { assert (HJnd : NoDup J) by (apply NoDup_filter, seq_NoDup).
      assert (Hrem : (length J - 1 <= length (filter (fun i => negb (Nat.eqb i j)) J))%nat).
      { clear - HJnd. induction J as [|a J IH]; simpl; [lia|].
        inversion HJnd as [|? ? Ha Hnd]; subst. destruct (Nat.eqb_spec a j) as [->|Hne]; simpl.
        - assert (filter (fun i => negb (Nat.eqb i j)) J = J) as ->; [|lia].
          clear IH Hnd HJnd. induction J as [|b J IH]; simpl; auto.
          destruct (Nat.eqb_spec b j) as [->|]; simpl.
          + exfalso; apply Ha; simpl; auto.
          + f_equal. apply IH. intros Hin; apply Ha; simpl; auto.
        - specialize (IH Hnd). lia. }
      etransitivity; [exact Hrem|].
      unfold J. unfold count.
      assert (Hinc : forall l, (forall i, In i l -> (i < length z)%nat) ->
        (forall i, In i l -> A (others i z) (nth i z 0%R) = true -> i <> j -> Q i = true) ->
        (length (filter (fun i => negb (Nat.eqb i j)) (filter (fun j => A (others j z) (nth j z 0%R)) l))
         <= length (filter (fun i => Q i && negb (Nat.eqb i j)) l))%nat).
      { induction l as [|a l IH]; intros Hl1 Hl2; simpl; [lia|].
        specialize (IH ltac:(intros; apply Hl1; simpl; auto) ltac:(intros; apply Hl2; simpl; auto)).
        destruct (A (others a z) (nth a z 0%R)) eqn:EA; simpl.
        - destruct (Nat.eqb_spec a j) as [->|Hn]; simpl.
          + rewrite andb_false_r. exact IH.
          + rewrite (Hl2 a) by (simpl; auto). simpl. lia.
        - destruct (Q a && negb (Nat.eqb a j)); simpl; lia. }
      apply Hinc.
      - intros i Hi. apply in_seq in Hi; lia.
      - intros i Hi HiA Hn. apply in_seq in Hi. apply Hf; auto; try lia.
        apply Hmax. unfold J. apply filter_In. split; [apply in_seq; lia|exact HiA]. }
    assert (Hsplit : (count (fun i => Q i && negb (Nat.eqb i j)) (seq 0 (length z))
        + (if Q j then 1 else 0) <= count Q (seq 0 (length z)))%nat).
    { assert (G : forall l, NoDup l -> In j l ->
        (count (fun i => Q i && negb (Nat.eqb i j)) l + (if Q j then 1 else 0) = count Q l)%nat).
      { induction l as [|a l IH]; intros Hnd Hin; [destruct Hin|].
        inversion Hnd as [|? ? Ha Hnd']; subst. rewrite !count_cons.
        destruct (Nat.eq_dec a j) as [->|Hn].
        - rewrite Nat.eqb_refl, andb_false_r.
          rewrite (count_ext (fun i => Q i && negb (Nat.eqb i j)) Q l); [lia|].
          intros b Hb. destruct (Nat.eqb_spec b j) as [->|]; [contradiction|]. apply andb_true_r.
        - destruct Hin as [->|Hin]; [congruence|]. specialize (IH Hnd' Hin).
          destruct (Nat.eqb_spec a j); [congruence|]. simpl. rewrite andb_true_r. lia. }
      rewrite G; [lia|apply seq_NoDup|apply in_seq; lia]. }
    unfold Q in Hsplit at 2. rewrite <- Hq in Hsplit. rewrite Ho in Hsplit.
    destruct (P (nth j z 0%R) (nth j z 0%R)); lia. }
  apply le_INR in Hcnt. rewrite plus_INR in Hcnt. change (INR 1) with 1 in Hcnt. lra.
Qed.

Lemma right_exchangeable z level : NoDup z -> (1 < length z)%nat -> 0 <= level ->
  INR (hits (fun sim obs => reject_p RIGHT sim obs level) z) <= level * INR (length z - 1) + 1.
Proof.
  intros Hnd Hlen Hlev. apply (hits_bound (fun y x => Rltb x y)).
  - intros j Hj H. unfold reject_p in H. apply Rleb_true in H.
    assert (Ho : others j z <> []).
    { intros E. pose proof (others_length j z Hj) as L. rewrite E in L. simpl in L. lia. }
    rewrite <- right_p_count by exact Ho. rewrite others_length by exact Hj.
    apply Rmult_le_compat_r; [apply pos_INR|exact H].
  - exists (fun i => - nth i z 0%R). intros i j Hi Hj Hne Hle. apply Rltb_true.
    assert (nth i z 0%R <> nth j z 0%R) by (intros E; apply Hne; eapply NoDup_nth; eauto). lra.
  - apply Rmult_le_pos; [exact Hlev|apply pos_INR].
Qed.
Lemma left_exchangeable z level : (1 < length z)%nat -> 0 <= level ->
  INR (hits (fun sim obs => reject_p LEFT sim obs level) z) <= level * INR (length z - 1) + 1.
Proof.
  intros Hlen Hlev. apply (hits_bound (fun y x => Rleb y x)).
  - intros j Hj H. unfold reject_p in H. apply Rleb_true in H.
    assert (Ho : others j z <> []).
    { intros E. pose proof (others_length j z Hj) as L. rewrite E in L. simpl in L. lia. }
    simpl in H. rewrite <- left_p_count by exact Ho. rewrite others_length by exact Hj.
    apply Rmult_le_compat_r; [apply pos_INR|exact H].
  - exists (fun i => nth i z 0). intros i j Hi Hj Hne Hle. apply Rleb_true. exact Hle.
  - apply Rmult_le_pos; [exact Hlev|apply pos_INR].
Qed.

(** all values tied: the right-tailed test rejects at every position, at level 0 *)
Lemma ties_always_reject x n : hits (fun sim obs => reject_p RIGHT sim obs 0) (repeat x (S (S n))) = S (S n).
Proof.
  unfold hits. rewrite count_all; [rewrite seq_length, repeat_length; reflexivity|].
  intros j Hj. apply in_seq in Hj. rewrite repeat_length in Hj.
  unfold reject_p. apply Rleb_true. simpl p_value_of.
  set (o := others j (repeat x (S (S n)))).
  assert (Ho : o <> []).
  { intros E. pose proof (others_length j (repeat x (S (S n)))) as L. fold o in L.
    rewrite E, repeat_length in L. specialize (L ltac:(lia)). simpl in L. lia. }
  rewrite right_p_is_fraction by exact Ho. unfold fraction. rewrite count_zero.
  - simpl. unfold Rdiv. lra.
  - intros y Hy. apply Rltb_false.
    assert (forall b, In b (repeat x (S (S n))) -> b = x) as Hall by (intros; eapply repeat_spec; eauto).
    assert (In y (repeat x (S (S n)))).
    { unfold o, others in Hy. apply in_app_or in Hy. destruct Hy as [Hy|Hy].
      - rewrite <- (firstn_skipn j). apply in_or_app; auto.
      - rewrite <- (firstn_skipn (S j)). apply in_or_app; auto. }
    assert (Ey : y = x) by (apply Hall, H). rewrite Ey.
    assert (En : nth j (repeat x (S (S n))) 0 = x) by (apply Hall, nth_In; rewrite repeat_length; lia).
    cbv beta. apply Req_le. symmetry. exact En.
Qed.

(** ** Monte-Carlo loop *)
(** state of the generator after i draws and the i-th sample *)
Fixpoint gen_state {S} (gen : generator S) (n i : nat) (s : S) : S :=
  match i with O => s | Datatypes.S i' => gen_state gen n i' (snd (gen n s)) end.

Lemma monte_carlo_loop_spec {S} (gen : generator S) st n count s vs s' :
  monte_carlo_loop gen st n count s = Ok (vs, s') ->
  length vs = count /\ s' = gen_state gen n count s /\
  forall i, (i < count)%nat -> st_execute st (fst (gen n (gen_state gen n i s))) = Ok (nth i vs 0).
Proof.
  revert s vs s'; induction count as [|c IH]; intros s vs s' H; simpl in H.
  - injection H as <- <-. repeat split. intros; lia.
  - destruct (gen n s) as [sample s1] eqn:Eg.
    destruct (st_execute st sample) as [v|] eqn:Ev; [|discriminate]. simpl in H.
    destruct (monte_carlo_loop gen st n c s1) as [[rest s2]|] eqn:Er; [|discriminate].
    simpl in H. injection H as <- <-. destruct (IH _ _ _ Er) as (L & Es & Hi).
    split; [simpl; lia|]. split.
    + simpl. rewrite Eg. exact Es.
    + intros [|i] Hlt; simpl.
      * rewrite Eg. exact Ev.
      * rewrite Eg. simpl. apply Hi. lia.
Qed.
Lemma monte_carlo_loop_total {S} (gen : generator S) st n count s :
  (forall x, exists v, st_execute st x = Ok v) -> exists r, monte_carlo_loop gen st n count s = Ok r.
Proof.
  intros Ht; revert s; induction count as [|c IH]; intros s; simpl; [eauto|].
  destruct (gen n s) as [sample s1]. destruct (Ht sample) as [v ->]. simpl.
  destruct (IH s1) as [r ->]. simpl. eauto.
Qed.
