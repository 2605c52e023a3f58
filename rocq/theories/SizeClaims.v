(** Property C117: Monte-Carlo tests keep their level. *)
From Verif Require Import Base ProbSpec ProbProofs DecModel DecSpec DecProofs DecMoreProofs SizeSpec.
From Coq Require Import Permutation Lra Lia.

(** at least t positions, or all of them, are hits if every position with fewer than t values beyond it is one *)
Lemma hits_lower (P : R -> R -> bool) A z t (f : R -> R) :
  (forall j, (j < length z)%nat -> INR (count (fun y => P y (nth j z 0)) (others j z)) < t -> A (others j z) (nth j z 0) = true) ->
  (forall x y, P y x = true -> f x < f y) ->
  t <= INR (hits A z) \/ hits A z = length z.
Proof.
  intros HA Hf. unfold hits. set (B := fun j => A (others j z) (nth j z 0)) in *.
  set (J := filter (fun j => negb (B j)) (seq 0 (length z))).
  destruct (list_eq_dec Nat.eq_dec J []) as [E|N].
  - right. rewrite count_all; [apply seq_length|]. intros j Hj. destruct (B j) eqn:EB; [reflexivity|]. exfalso.
    assert (In j J) by (apply filter_In; split; [exact Hj|now rewrite EB]). rewrite E in H. exact H.
  - left. destruct (argmax_exists (fun j => f (nth j z 0)) J N) as [j [Hj Hm]]. apply filter_In in Hj. destruct Hj as [Hjs Hb].
    apply in_seq in Hjs. destruct (Rlt_or_le (INR (count (fun y => P y (nth j z 0)) (others j z))) t) as [L|G].
    + unfold B in Hb. rewrite (HA j ltac:(lia) L) in Hb. discriminate.
    + apply (Rle_trans _ _ _ G). apply le_INR.
      pose proof (others_count (fun y => P y (nth j z 0)) j z ltac:(lia)) as HO.
      assert (HQ : count (fun y => P y (nth j z 0)) z = count (fun i => P (nth i z 0) (nth j z 0)) (seq 0 (length z))).
      { rewrite <- (count_map (fun y => P y (nth j z 0)) (fun i => nth i z 0)). rewrite map_nth_seq. reflexivity. }
      assert (HL : (count (fun i => P (nth i z 0%R) (nth j z 0%R)) (seq 0 (length z)) <= count B (seq 0 (length z)))%nat).
      { apply count_mono. intros i Hi HP. destruct (B i) eqn:EB; [reflexivity|]. exfalso.
        assert (I : In i J) by (apply filter_In; split; [exact Hi|now rewrite EB]). specialize (Hm i I). apply Hf in HP. cbv beta in Hm. lra. }
      rewrite <- HQ, HO in HL. etransitivity; [|exact HL]. apply Nat.le_add_r.
Qed.
Lemma nodup_others j z : (j < length z)%nat -> NoDup z -> NoDup (others j z).
Proof.
  intros Hj H. unfold others. rewrite <- (firstn_skipn j z) in H.
  assert (E : skipn j z = nth j z 0 :: skipn (S j) z).
  { clear H. revert j Hj; induction z as [|a z IH]; intros j H; simpl in *; [lia|]. destruct j; [reflexivity|]. simpl. apply IH. lia. }
  rewrite E in H. apply NoDup_remove_1 in H. exact H.
Qed.
Lemma others_ne j z : (j < length z)%nat -> (1 < length z)%nat -> others j z <> [].
Proof. intros Hj H E. pose proof (others_length j z Hj) as L. rewrite E in L. simpl in L. lia. Qed.

(** ** critical values *)
Definition cvr (level : R) (sim : list R) (obs : R) : bool := Rltb (cvh sim (1 - level)) obs.
Definition cvl (level : R) (sim : list R) (obs : R) : bool := Rltb obs (cvh sim level).
Lemma right_cv_hits z level : NoDup z -> (1 < length z)%nat -> 0 <= level <= 1 ->
  INR (length z - 2) * level <= INR (hits (cvr level) z) <= INR (length z - 2) * level + 2.
Proof.
  intros Hnd Hlen Hl. pose proof (pos_INR (length z - 2)).
  assert (T : forall j, (j < length z)%nat -> INR (length z - 2) * level <= INR (count (fun y => Rltb (cvh (others j z) (1 - level)) y) (others j z))
    < INR (length z - 2) * level + 1).
  { intros j Hj. replace (length z - 2)%nat with (length (others j z) - 1)%nat by (rewrite others_length; lia).
    apply right_cv_tail; [now apply nodup_others|now apply others_ne|exact Hl|]. apply right_cv_ok; [now apply others_ne|exact Hl]. }
  split.
  - destruct (hits_lower (fun y x => Rltb x y) (cvr level) z (INR (length z - 2) * level) (fun x => x)) as [G|G].
    + intros j Hj C. unfold cvr. apply Rltb_true. apply Rnot_le_lt. intros G. destruct (T j Hj) as [T1 _].
      assert (count (fun y => Rltb (cvh (others j z) (1 - level)) y) (others j z) <= count (fun y => Rltb (nth j z 0%R) y) (others j z))%nat.
      { apply count_mono. intros y _ Hy. apply Rltb_true in Hy. apply Rltb_true. lra. }
      apply le_INR in H0. lra.
    + intros x y Hy. apply Rltb_true in Hy. exact Hy.
    + exact G.
    + rewrite G. assert (INR (length z - 2) <= INR (length z)) by (apply le_INR; lia). nra.
  - replace (INR (length z - 2) * level + 2) with (INR (length z - 2) * level + 1 + 1) by ring.
    apply (hits_bound (fun y x => Rltb x y)).
    + intros j Hj C. unfold cvr in C. apply Rltb_true in C. destruct (T j Hj) as [_ T2].
      assert (count (fun y => Rltb (nth j z 0%R) y) (others j z) <= count (fun y => Rltb (cvh (others j z) (1 - level)) y) (others j z))%nat.
      { apply count_mono. intros y _ Hy. apply Rltb_true in Hy. apply Rltb_true. lra. }
      apply le_INR in H0. lra.
    + exists (fun i => - nth i z 0). intros i j Hi Hj Hne Hle. apply Rltb_true.
      assert (nth i z 0 <> nth j z 0) by (intros E; apply Hne; eapply NoDup_nth; eauto). lra.
    + nra.
Qed.
Lemma left_cv_hits z level : NoDup z -> (1 < length z)%nat -> 0 <= level <= 1 ->
  INR (length z - 2) * level <= INR (hits (cvl level) z) <= INR (length z - 2) * level + 2.
Proof.
  intros Hnd Hlen Hl. pose proof (pos_INR (length z - 2)).
  assert (T : forall j, (j < length z)%nat -> INR (length z - 2) * level <= INR (count (fun y => Rltb y (cvh (others j z) level)) (others j z))
    < INR (length z - 2) * level + 1).
  { intros j Hj. replace (length z - 2)%nat with (length (others j z) - 1)%nat by (rewrite others_length; lia).
    apply left_cv_tail; [now apply nodup_others|now apply others_ne|exact Hl|]. apply left_cv_ok; [now apply others_ne|exact Hl]. }
  split.
  - destruct (hits_lower (fun y x => Rltb y x) (cvl level) z (INR (length z - 2) * level) (fun x => - x)) as [G|G].
    + intros j Hj C. unfold cvl. apply Rltb_true. apply Rnot_le_lt. intros G. destruct (T j Hj) as [T1 _].
      assert (count (fun y => Rltb y (cvh (others j z) level)) (others j z) <= count (fun y => Rltb y (nth j z 0%R)) (others j z))%nat.
      { apply count_mono. intros y _ Hy. apply Rltb_true in Hy. apply Rltb_true. lra. }
      apply le_INR in H0. lra.
    + intros x y Hy. apply Rltb_true in Hy. lra.
    + exact G.
    + rewrite G. assert (INR (length z - 2) <= INR (length z)) by (apply le_INR; lia). nra.
  - replace (INR (length z - 2) * level + 2) with (INR (length z - 2) * level + 1 + 1) by ring.
    apply (hits_bound (fun y x => Rltb y x)).
    + intros j Hj C. unfold cvl in C. apply Rltb_true in C. destruct (T j Hj) as [_ T2].
      assert (count (fun y => Rltb y (nth j z 0%R)) (others j z) <= count (fun y => Rltb y (cvh (others j z) level)) (others j z))%nat.
      { apply count_mono. intros y _ Hy. apply Rltb_true in Hy. apply Rltb_true. lra. }
      apply le_INR in H0. lra.
    + exists (fun i => nth i z 0). intros i j Hi Hj Hne Hle. apply Rltb_true.
      assert (nth i z 0 <> nth j z 0) by (intros E; apply Hne; eapply NoDup_nth; eauto). lra.
    + nra.
Qed.
(** ** p-values *)
Lemma right_p_hits z level : (1 < length z)%nat -> 0 <= level <= 1 ->
  level * INR (length z - 1) <= INR (hits (fun sim obs => reject_p RIGHT sim obs level) z).
Proof.
  intros Hlen Hl. pose proof (pos_INR (length z - 1)).
  destruct (hits_lower (fun y x => Rltb x y) (fun sim obs => reject_p RIGHT sim obs level) z (level * INR (length z - 1)) (fun x => x)) as [G|G].
  - intros j Hj C. unfold reject_p. apply Rleb_true. simpl p_value_of.
    assert (Ho : others j z <> []) by now apply others_ne. assert (0 < INR (length z - 1)) by (apply lt_0_INR; lia).
    rewrite <- right_p_count in C by exact Ho. rewrite others_length in C by exact Hj. nra.
  - intros x y Hy. apply Rltb_true in Hy. exact Hy.
  - exact G.
  - rewrite G. assert (INR (length z - 1) <= INR (length z)) by (apply le_INR; lia). nra.
Qed.
Lemma left_p_hits z level : (1 < length z)%nat -> NoDup z -> 0 <= level <= 1 ->
  level * INR (length z - 1) <= INR (hits (fun sim obs => reject_p LEFT sim obs level) z).
Proof.
  intros Hlen Hnd Hl. pose proof (pos_INR (length z - 1)).
  destruct (hits_lower (fun y x => Rltb y x) (fun sim obs => reject_p LEFT sim obs level) z (level * INR (length z - 1)) (fun x => - x)) as [G|G].
  - intros j Hj C. unfold reject_p. apply Rleb_true. simpl p_value_of.
    assert (Ho : others j z <> []) by now apply others_ne. assert (0 < INR (length z - 1)) by (apply lt_0_INR; lia).
    assert (EC : count (fun y => Rleb y (nth j z 0)) (others j z) = count (fun y => Rltb y (nth j z 0)) (others j z)).
    { apply count_ext. intros y Hy. assert (y <> nth j z 0).
      { intros ->. revert Hy. unfold others. assert (E : z = firstn j z ++ nth j z 0 :: skipn (S j) z).
        { rewrite <- (firstn_skipn j z) at 1. f_equal. clear -Hj. revert j Hj; induction z as [|a z IH]; intros j H; simpl in *; [lia|]. destruct j; [reflexivity|]. simpl. apply IH. lia. }
        rewrite E in Hnd at 1. apply NoDup_remove_2 in Hnd. exact Hnd. }
      destruct (Rltb y (nth j z 0)) eqn:EL; [apply Rltb_true in EL; apply Rleb_true; lra|apply Rltb_false in EL; apply Rleb_false; lra]. }
    rewrite <- EC, <- left_p_count in C by exact Ho. rewrite others_length in C by exact Hj. nra.
  - intros x y Hy. apply Rltb_true in Hy. lra.
  - exact G.
  - rewrite G. assert (INR (length z - 1) <= INR (length z)) by (apply le_INR; lia). nra.
Qed.

(** ** from counts to probabilities *)
Lemma hits_ext A B z : (1 < length z)%nat -> (forall sim obs, sim <> [] -> A sim obs = B sim obs) -> hits A z = hits B z.
Proof.
  intros Hz H. unfold hits. apply count_ext. intros j Hj. apply in_seq in Hj. apply H. apply others_ne; lia.
Qed.
Lemma count_orb {X} (P Q : X -> bool) l :
  (count (fun x => P x || Q x) l <= count P l + count Q l)%nat /\
  ((forall x, In x l -> P x = true -> Q x = true -> False) -> count (fun x => P x || Q x) l = (count P l + count Q l)%nat).
Proof.
  induction l as [|a l [I1 I2]]; [split; auto|]. rewrite !count_cons. split.
  - destruct (P a), (Q a); simpl; lia.
  - intros D. rewrite I2 by (intros x Hx; apply D; right; exact Hx). specialize (D a (or_introl eq_refl)).
    destruct (P a), (Q a); simpl; try lia.
Qed.
Lemma hits_orb A B z : (hits (fun s o => A s o || B s o) z <= hits A z + hits B z)%nat /\
  ((1 < length z)%nat -> (forall sim obs, sim <> [] -> A sim obs = true -> B sim obs = true -> False) ->
   hits (fun s o => A s o || B s o) z = (hits A z + hits B z)%nat).
Proof.
  unfold hits.
  destruct (count_orb (fun j => A (others j z) (nth j z 0)) (fun j => B (others j z) (nth j z 0)) (seq 0 (length z))) as [U Q].
  split; [exact U|]. intros Hz D. apply Q. intros j Hj. apply in_seq in Hj. apply D. apply others_ne; lia.
Qed.
Section Size.
Context {Om : Type} (E : (Om -> R) -> R) (HE : is_expectation E).
Lemma exchange_lower m Z (A : list R -> R -> bool) c : exchangeable E m Z -> (0 < m)%nat ->
  (forall w, c <= INR (hits A (Z w))) -> c / INR m <= Pr E (fun w => A (tl (Z w)) (hd 0 (Z w))).
Proof.
  intros HX Hm Hc. assert (0 < INR m) by (apply INR_pos; auto).
  apply (Rmult_le_reg_l (INR m)); [auto|]. rewrite exchange_hits by auto.
  replace (INR m * (c / INR m)) with c by (field; lra).
  rewrite <- (E_const E HE c). apply (E_mono E HE); auto.
  - apply bounded_const.
  - apply (bounded_between _ 0 (INR m)). intros w. split; [apply pos_INR|]. apply le_INR.
    unfold hits. etransitivity; [apply count_le_length|]. rewrite seq_length, (proj1 HX). lia.
Qed.
Lemma size_bounds n Z m st level k lo hi : exchangeable E (S n) Z ->
  (forall w, lo <= INR (hits (test_rejects m st level k) (Z w)) <= hi) ->
  lo / INR (S n) <= size_of_test E Z m st level k <= hi / INR (S n).
Proof.
  intros HX H. unfold size_of_test. split.
  - apply (exchange_lower (S n) Z (test_rejects m st level k)); [exact HX|lia|]. intros w. apply H.
  - apply (exchange_bound E HE (S n) Z (test_rejects m st level k)); [exact HX|lia|]. intros w. apply H.
Qed.
End Size.
Lemma cv_test st level k sim obs : sim <> [] -> 0 <= level <= 1 ->
  test_rejects CriticalValueMethod st level k sim obs = match st_alternative st with
    | LEFT => cvl level sim obs | RIGHT => cvr level sim obs | TWO_TAILED => cvl (level / 2) sim obs || cvr (level / 2) sim obs end.
Proof.
  intros Hs Hl. pose proof (reject_cv_ok (st_alternative st) sim obs level Hs Hl) as R. unfold reject_cv in R.
  unfold test_rejects, decide, critical_value_decide, limit_is. cbn [bind].
  destruct (critical_value_of (st_alternative st) sim level) as [cv|]; [|discriminate]. cbn [bind] in *.
  destruct (area_contains (st_alternative st) cv obs); [|discriminate]. cbn [bind tr_rejected] in *. injection R as ->.
  destruct (st_alternative st); reflexivity.
Qed.
Lemma p_test st level k sim obs : test_rejects PValueMethod st level k sim obs = reject_p (st_alternative st) sim obs level.
Proof. reflexivity. Qed.
Lemma two_p_test level sim obs : reject_p TWO_TAILED sim obs level = reject_p LEFT sim obs (level / 2) || reject_p RIGHT sim obs (level / 2).
Proof.
  unfold reject_p. simpl p_value_of. unfold two_sided_p_value, left_p_value, right_p_value. set (f := ecdf_evaluate sim obs).
  apply eq_true_iff_eq. rewrite orb_true_iff, !Rleb_true. unfold Rmin. destruct (Rle_dec f (1 - f)); lra.
Qed.

Section Claims.
Context {Om : Type} (E : (Om -> R) -> R).
(** one-sided tests by critical values: the size differs from the level by at most 2/(n+1) *)
Lemma cv_hits z st level k : NoDup z -> (1 < length z)%nat -> 0 <= level <= 1 -> one_sided st ->
  INR (length z - 2) * level <= INR (hits (test_rejects CriticalValueMethod st level k) z) <= INR (length z - 2) * level + 2.
Proof.
  intros Hnd Hz Hl Ho. unfold one_sided in Ho. destruct (st_alternative st) eqn:EA; [| |contradiction].
  - rewrite (hits_ext _ (cvr level)); [now apply right_cv_hits|exact Hz|]. intros. rewrite cv_test, EA by auto. reflexivity.
  - rewrite (hits_ext _ (cvl level)); [now apply left_cv_hits|exact Hz|]. intros. rewrite cv_test, EA by auto. reflexivity.
Qed.
End Claims.
Lemma C117_critical_value_size_holds : forall (Om : Type) (E : (Om -> R) -> R) n Z st level k,
  is_expectation E -> exchangeable E (S n) Z -> (0 < n)%nat -> (forall w, NoDup (Z w)) -> 0 <= level <= 1 -> one_sided st ->
  level - 2 * level / INR (S n) <= size_of_test E Z CriticalValueMethod st level k <= level + 2 * (1 - level) / INR (S n).
Proof.
  intros Om E n Z st level k HE HX Hn Hnd Hl Ho. assert (P : 0 < INR (S n)) by (apply INR_pos; lia).
  assert (EN : INR (n - 1) = INR (S n) - 2) by (rewrite minus_INR, (S_INR n) by lia; simpl (INR 1); lra).
  replace (level - 2 * level / INR (S n)) with ((INR (n - 1) * level) / INR (S n)) by (rewrite EN; field; lra).
  replace (level + 2 * (1 - level) / INR (S n)) with ((INR (n - 1) * level + 2) / INR (S n)) by (rewrite EN; field; lra).
  apply size_bounds; [exact HE|exact HX|]. intros w. pose proof (proj1 HX w) as L.
  replace (n - 1)%nat with (length (Z w) - 2)%nat by lia. apply cv_hits; auto. lia.
Qed.
(** two-sided tests by critical values *)
Lemma C117_critical_value_two_sided_size_holds : forall (Om : Type) (E : (Om -> R) -> R) n Z st level k,
  is_expectation E -> exchangeable E (S n) Z -> (0 < n)%nat -> (forall w, NoDup (Z w)) -> 0 <= level <= 1 -> tests st TWO_TAILED ->
  level - 2 * level / INR (S n) <= size_of_test E Z CriticalValueMethod st level k <= level + (4 - 2 * level) / INR (S n).
Proof.
  intros Om E n Z st level k HE HX Hn Hnd Hl Ho. assert (P : 0 < INR (S n)) by (apply INR_pos; lia).
  assert (EN : INR (n - 1) = INR (S n) - 2) by (rewrite minus_INR, (S_INR n) by lia; simpl (INR 1); lra).
  replace (level - 2 * level / INR (S n)) with ((INR (n - 1) * level) / INR (S n)) by (rewrite EN; field; lra).
  replace (level + (4 - 2 * level) / INR (S n)) with ((INR (n - 1) * level + 4) / INR (S n)) by (rewrite EN; field; lra).
  apply size_bounds; [exact HE|exact HX|]. intros w. pose proof (proj1 HX w) as L.
  replace (n - 1)%nat with (length (Z w) - 2)%nat by lia. set (z := Z w) in *. assert (Hz : (1 < length z)%nat) by lia.
  rewrite (hits_ext _ (fun s o => cvl (level / 2) s o || cvr (level / 2) s o));
    [|exact Hz|intros; rewrite cv_test, Ho by auto; reflexivity].
  assert (EH : hits (fun s o => cvl (level / 2) s o || cvr (level / 2) s o) z = (hits (cvl (level / 2)) z + hits (cvr (level / 2)) z)%nat).
  { apply hits_orb; [exact Hz|]. intros sim obs Hs A B. unfold cvl, cvr in *. apply Rltb_true in A. apply Rltb_true in B.
    pose proof (cvh_mono sim (level / 2) (1 - level / 2) Hs ltac:(lra) ltac:(lra)). lra. }
  rewrite EH, plus_INR. pose proof (left_cv_hits z (level / 2) (Hnd w) Hz ltac:(lra)). pose proof (right_cv_hits z (level / 2) (Hnd w) Hz ltac:(lra)). lra.
Qed.
(** tests by p-values: the size differs from the level by at most 1/(n+1), two-sided by at most 2/(n+1) *)
Lemma C117_p_value_size_holds : forall (Om : Type) (E : (Om -> R) -> R) n Z st level k,
  is_expectation E -> exchangeable E (S n) Z -> (0 < n)%nat -> (forall w, NoDup (Z w)) -> 0 <= level <= 1 ->
  (one_sided st -> level - level / INR (S n) <= size_of_test E Z PValueMethod st level k <= level + (1 - level) / INR (S n)) /\
  (tests st TWO_TAILED -> level - level / INR (S n) <= size_of_test E Z PValueMethod st level k <= level + (2 - level) / INR (S n)).
Proof.
  intros Om E n Z st level k HE HX Hn Hnd Hl. assert (P : 0 < INR (S n)) by (apply INR_pos; lia).
  assert (EN : INR n = INR (S n) - 1) by (rewrite S_INR; lra).
  replace (level - level / INR (S n)) with ((level * INR n) / INR (S n)) by (rewrite EN; field; lra).
  replace (level + (1 - level) / INR (S n)) with ((level * INR n + 1) / INR (S n)) by (rewrite EN; field; lra).
  replace (level + (2 - level) / INR (S n)) with ((level * INR n + 2) / INR (S n)) by (rewrite EN; field; lra).
  split; intros Ho; (apply size_bounds; [exact HE|exact HX|]); intros w; pose proof (proj1 HX w) as L;
    replace n with (length (Z w) - 1)%nat by lia; set (z := Z w) in *; assert (Hz : (1 < length z)%nat) by lia; pose proof (Hnd w) as Nz; fold z in Nz.
  - unfold one_sided in Ho. rewrite (hits_ext _ (fun s o => reject_p (st_alternative st) s o level)) by (auto || exact Hz).
    destruct (st_alternative st); [| |contradiction].
    + split; [now apply right_p_hits|apply right_exchangeable; auto; lra].
    + split; [now apply left_p_hits|apply left_exchangeable; auto; lra].
  - unfold tests in Ho. rewrite (hits_ext _ (fun s o => reject_p LEFT s o (level / 2) || reject_p RIGHT s o (level / 2)));
      [|exact Hz|intros; rewrite p_test, Ho; apply two_p_test].
    pose proof (hits_orb (fun s o => reject_p LEFT s o (level / 2)) (fun s o => reject_p RIGHT s o (level / 2)) z) as [U Q].
    pose proof (left_p_hits z (level / 2) Hz Nz ltac:(lra)) as A1. pose proof (right_p_hits z (level / 2) Hz ltac:(lra)) as A2.
    pose proof (left_exchangeable z (level / 2) Hz ltac:(lra)) as B1. pose proof (right_exchangeable z (level / 2) Nz Hz ltac:(lra)) as B2.
    split; [|apply le_INR in U; rewrite plus_INR in U; lra].
    destruct (Req_dec level 1) as [->|NL].
    + rewrite (hits_ext _ (fun _ _ => true)); [|exact Hz|].
      * unfold hits. rewrite count_all by auto. rewrite seq_length. assert (INR (length z - 1) <= INR (length z)) by (apply le_INR; lia). lra.
      * intros s o _. rewrite <- two_p_test. unfold reject_p. apply Rleb_true. simpl p_value_of. unfold two_sided_p_value, Rmin.
        destruct (Rle_dec (ecdf_evaluate s o) (1 - ecdf_evaluate s o)); lra.
    + rewrite Q; [rewrite plus_INR; lra|exact Hz|]. intros s o _ X Y. unfold reject_p in *. apply Rleb_true in X. apply Rleb_true in Y.
      simpl in X, Y. unfold left_p_value, right_p_value in *. lra.
Qed.
(** the level is exceeded: whenever (n-1) * level is the integer i, the right-tailed size is (i+1)/(n+1), which is more
    than every level below 1/2 *)
Lemma right_cv_exact z level i : NoDup z -> (1 < length z)%nat -> 0 <= level <= 1 -> INR (length z - 2) * level = INR i ->
  hits (cvr level) z = S i.
Proof.
  intros Hnd Hz Hl EI.
  assert (C : forall j, (j < length z)%nat -> count (fun y => Rltb (cvh (others j z) (1 - level)) y) (others j z) = i /\ In (cvh (others j z) (1 - level)) (others j z)).
  { intros j Hj. assert (No : NoDup (others j z)) by now apply nodup_others. assert (Ne : others j z <> []) by now apply others_ne.
    assert (LO : length (others j z) = (length z - 1)%nat) by now apply others_length.
    split.
    - destruct (right_cv_tail (others j z) level (cvh (others j z) (1 - level)) No Ne Hl) as [A B]; [now apply right_cv_ok|].
      rewrite LO in A, B. replace (length z - 1 - 1)%nat with (length z - 2)%nat in * by lia. rewrite EI in A, B.
      apply INR_le in A. assert (count (fun y => Rltb (cvh (others j z) (1 - level)) y) (others j z) < i + 1)%nat by (apply INR_lt; rewrite plus_INR; simpl (INR 1); lra). lia.
    - pose proof (quantiles_NoDup _ No) as Hq. unfold cvh. rewrite Hq, rsort_length, LO. replace (length z - 1 - 1)%nat with (length z - 2)%nat by lia.
      assert (I : (i <= length z - 2)%nat) by (apply INR_le; pose proof (pos_INR (length z - 2)); nra).
      replace (INR (length z - 2) * (1 - level)) with (INR (length z - 2 - i)) by (rewrite minus_INR by lia; lra).
      assert (FI : floor_nat (INR (length z - 2 - i)) = (length z - 2 - i)%nat) by (apply floor_nat_unique; lra).
      unfold interp. rewrite FI, Rminus_eq_0, Rmult_0_r, Rplus_0_r. apply rsort_in. apply nth_In. rewrite rsort_length, LO. lia. }
  assert (U : INR (hits (cvr level) z) <= INR i + 1).
  { apply (hits_bound (fun y x => Rltb x y)).
    - intros j Hj H. unfold cvr in H. apply Rltb_true in H. destruct (C j Hj) as [CJ _]. rewrite <- CJ. apply le_INR.
      apply count_mono. intros y _ Hy. apply Rltb_true in Hy. apply Rltb_true. lra.
    - exists (fun i => - nth i z 0). intros a b Ha Hb Hne Hle. apply Rltb_true.
      assert (nth a z 0 <> nth b z 0) by (intros E; apply Hne; eapply NoDup_nth; eauto). lra.
    - apply pos_INR. }
  assert (L : INR (i + 1) <= INR (hits (cvr level) z) \/ hits (cvr level) z = length z).
  { apply (hits_lower (fun y x => Rltb x y) (cvr level) z (INR (i + 1)) (fun x => x)).
    - intros j Hj H. unfold cvr. apply Rltb_true. apply Rnot_le_lt. intros G. destruct (C j Hj) as [CJ CI]. set (c := cvh (others j z) (1 - level)) in *.
      assert (NE : nth j z 0 <> c).
      { intros EC. rewrite <- EC in CI. revert CI. unfold others. assert (EZ : z = firstn j z ++ nth j z 0 :: skipn (S j) z).
        { rewrite <- (firstn_skipn j z) at 1. f_equal. clear -Hj. revert j Hj; induction z as [|a z IH]; intros j H; simpl in *; [lia|]. destruct j; [reflexivity|]. simpl. apply IH. lia. }
        rewrite EZ in Hnd at 1. apply NoDup_remove_2 in Hnd. exact Hnd. }
      apply INR_lt in H. apply in_split in CI. destruct CI as (l1 & l2 & EL). rewrite EL in *. rewrite count_app, count_cons in *.
      rewrite (proj2 (Rltb_true (nth j z 0) c)) in H by lra. rewrite (proj2 (Rltb_false c c)) in CJ by lra.
      assert (M : forall l, (count (fun y => Rltb c y) l <= count (fun y => Rltb (nth j z 0%R) y) l)%nat).
      { intros l. apply count_mono. intros y _ Hy. apply Rltb_true in Hy. apply Rltb_true. lra. }
      pose proof (M l1). pose proof (M l2). lia.
    - intros x y Hy. apply Rltb_true in Hy. exact Hy. }
  assert (U' : (hits (cvr level) z <= i + 1)%nat) by (apply INR_le; rewrite plus_INR; exact U).
  destruct L as [L|L]; [apply INR_le in L; lia|].
  assert (I : (i <= length z - 2)%nat) by (apply INR_le; pose proof (pos_INR (length z - 2)); nra). lia.
Qed.
Lemma C117_level_exceeded_holds : forall (Om : Type) (E : (Om -> R) -> R) n Z st level k i,
  is_expectation E -> exchangeable E (S n) Z -> (0 < n)%nat -> (forall w, NoDup (Z w)) -> tests st RIGHT ->
  0 <= level -> INR (n - 1) * level = INR i -> 2 * level < 1 ->
  size_of_test E Z CriticalValueMethod st level k = INR (S i) / INR (S n) /\ level < size_of_test E Z CriticalValueMethod st level k.
Proof.
  intros Om E n Z st level k i HE HX Hn Hnd Ho Hl EI Hs. assert (P : 0 < INR (S n)) by (apply INR_pos; lia).
  assert (EQ : size_of_test E Z CriticalValueMethod st level k = INR (S i) / INR (S n)).
  { apply Rle_antisym; apply (size_bounds E HE n Z CriticalValueMethod st level k (INR (S i)) (INR (S i)) HX);
      intros w; pose proof (proj1 HX w) as L; rewrite (hits_ext _ (cvr level)) by (try lia; intros; rewrite cv_test, Ho by (auto; lra); reflexivity);
      rewrite (right_cv_exact (Z w) level i); try (auto; lia || lra); try (rewrite L; simpl (S n - 2)%nat; replace (S n - 2)%nat with (n - 1)%nat by lia; exact EI). }
  split; [exact EQ|]. rewrite EQ. apply (Rmult_lt_reg_r (INR (S n))); [exact P|].
  replace (INR (S i) / INR (S n) * INR (S n)) with (INR (S i)) by (field; lra). rewrite (S_INR i), <- EI, minus_INR, (S_INR n) by lia. simpl (INR 1). lra.
Qed.
(** one simulated value: the hypothesis is rejected at level 5% with probability 1/2 *)
Lemma C117_level_kept_refuted_holds : exists (E : (bool -> R) -> R) (Z : bool -> list R), is_expectation E /\ exchangeable E 2 Z /\ (forall w, NoDup (Z w)) /\
  forall st k, tests st RIGHT -> size_of_test E Z CriticalValueMethod st (1 / 20) k = 1 / 2.
Proof.
  exists (finite_expectation swap_law), swap_vec. split; [exact swap_law_expectation|]. split; [exact swap_law_exchangeable|]. split; [exact swap_law_NoDup|].
  intros st k Ho. destruct (C117_level_exceeded_holds bool (finite_expectation swap_law) 1 swap_vec st (1 / 20) k 0 swap_law_expectation swap_law_exchangeable Nat.lt_0_1 swap_law_NoDup Ho) as [-> _];
    simpl; lra.
Qed.

(** ** tied values *)
Definition one_zero (m w : nat) : list R := map (fun i => if Nat.eqb i w then 0 else 1) (seq 0 m).
Definition one_zero_law (m : nat) : list (R * nat) := map (fun w => (/ INR m, w)) (seq 0 m).
Lemma one_zero_expectation m : (0 < m)%nat -> is_expectation (finite_expectation (one_zero_law m)).
Proof.
  intros Hm. assert (0 < INR m) by (apply INR_pos; exact Hm). apply finite_is_expectation. split.
  - intros p Hp. apply in_map_iff in Hp. destruct Hp as (w & <- & _). simpl. left. now apply Rinv_0_lt_compat.
  - unfold one_zero_law. rewrite map_map. simpl. rewrite Rsum_map_const, seq_length. field. lra.
Qed.
Lemma one_zero_E m f : finite_expectation (one_zero_law m) f = / INR m * Rsum (map f (seq 0 m)).
Proof. unfold finite_expectation, one_zero_law. rewrite map_map. simpl. apply Rsum_map_scal. Qed.
Lemma nth_one_zero m w i : (i < m)%nat -> nth i (one_zero m w) 0 = if Nat.eqb i w then 0 else 1.
Proof.
  intros Hi. unfold one_zero. rewrite (nth_indep _ 0 ((fun i => if Nat.eqb i w then 0 else 1) 0%nat)) by (rewrite map_length, seq_length; exact Hi).
  rewrite (map_nth (fun i => if Nat.eqb i w then 0 else 1)). rewrite seq_nth by exact Hi. reflexivity.
Qed.
Lemma one_zero_exchangeable m : (0 < m)%nat -> exchangeable (finite_expectation (one_zero_law m)) m (one_zero m).
Proof.
  intros Hm. split; [intros w; unfold one_zero; rewrite map_length; apply seq_length|].
  intros pi Hpi f _. rewrite !one_zero_E. f_equal.
  assert (LP : length pi = m) by (rewrite (Permutation_length Hpi), seq_length; reflexivity).
  assert (NP : NoDup pi) by (apply (Permutation_NoDup (Permutation_sym Hpi)), seq_NoDup).
  assert (IP : forall i, In i pi -> (i < m)%nat) by (intros i Hi; apply (Permutation_in _ Hpi), in_seq in Hi; lia).
  rewrite <- (Rsum_map_perm _ _ _ Hpi).
  assert (EP : pi = map (fun k => nth k pi 0%nat) (seq 0 m)) by (rewrite <- LP; symmetry; apply map_nth_seq).
  transitivity (Rsum (map (fun w => f (map (fun i => nth i (one_zero m w) 0) pi)) (map (fun k => nth k pi 0%nat) (seq 0 m)))); [now rewrite <- EP|].
  rewrite map_map. apply Rsum_map_ext. intros k Hk. apply in_seq in Hk. f_equal.
  transitivity (map (fun i => nth i (one_zero m (nth k pi 0%nat)) 0) (map (fun k => nth k pi 0%nat) (seq 0 m))); [now rewrite <- EP|].
  unfold one_zero at 2. rewrite map_map. apply map_ext_in. intros i Hi. apply in_seq in Hi.
  rewrite nth_one_zero by (apply IP, nth_In; lia).
  destruct (Nat.eqb_spec i k) as [->|N]; [rewrite Nat.eqb_refl; reflexivity|].
  destruct (Nat.eqb_spec (nth i pi 0%nat) (nth k pi 0%nat)) as [EE|]; [|reflexivity]. exfalso. apply N.
  apply (proj1 (NoDup_nth pi 0%nat) NP); lia || exact EE.
Qed.
Lemma quantiles_zero_one l : (forall x, In x l -> x = 0 \/ x = 1) -> In 0 l -> In 1 l -> ecdf_quantiles l = [0; 1].
Proof.
  intros Ha H0 H1. pose proof (quantiles_strict l) as Hs.
  assert (I : forall x, In x (ecdf_quantiles l) <-> In x l) by (intros; apply quantiles_in).
  destruct (ecdf_quantiles l) as [|a [|b [|c t]]].
  - exfalso. apply (proj2 (I 0) H0).
  - exfalso. destruct (proj2 (I 0) H0) as [E|[]]. destruct (proj2 (I 1) H1) as [E'|[]]. lra.
  - inversion Hs as [|? ? Hb Hf]; subst. inversion Hf; subst. destruct (Ha a (proj1 (I a) ltac:(simpl; auto))), (Ha b (proj1 (I b) ltac:(simpl; auto))); subst; try lra; reflexivity.
  - exfalso. inversion Hs as [|? ? Hb Hf]; subst. inversion Hf as [|? ? ab Hf']; subst. inversion Hf' as [|? ? ac _]; subst. inversion Hb as [|? ? _ Hg]; subst. inversion Hg as [|? ? bc _]; subst.
    destruct (Ha a (proj1 (I a) ltac:(simpl; auto))), (Ha b (proj1 (I b) ltac:(simpl; auto))), (Ha c (proj1 (I c) ltac:(simpl; auto))); lra.
Qed.
(** Every simulated run yields the value 1 except one, which yields 0: the right-tailed test then has size n/(n+1) at
    every level, because the critical value is a quantile of the DISTINCT values. *)
Lemma C117_discrete_refuted_holds : forall n, (2 <= n)%nat -> exists (E : (nat -> R) -> R) (Z : nat -> list R),
  is_expectation E /\ exchangeable E (S n) Z /\
  forall st level k, tests st RIGHT -> 0 < level <= 1 -> size_of_test E Z CriticalValueMethod st level k = INR n / INR (S n).
Proof.
  intros n Hn. exists (finite_expectation (one_zero_law (S n))), (one_zero (S n)).
  split; [apply one_zero_expectation; lia|]. split; [apply one_zero_exchangeable; lia|].
  intros st level k Ho Hl. assert (P : 0 < INR (S n)) by (apply INR_pos; lia).
  unfold size_of_test, Pr. rewrite one_zero_E.
  assert (T : forall w, test_rejects CriticalValueMethod st level k (tl (one_zero (S n) w)) (hd 0 (one_zero (S n) w))
    = cvr level (map (fun i => if Nat.eqb i w then 0 else 1) (seq 1 n)) (if Nat.eqb 0 w then 0 else 1)).
  { intros w. rewrite cv_test; [rewrite Ho; reflexivity| |lra]. unfold one_zero. simpl. destruct n; [lia|]. discriminate. }
  change (seq 0 (S n)) with (0%nat :: seq 1 n). rewrite map_cons. cbn [Rsum fold_right].
  assert (Z0 : test_rejects CriticalValueMethod st level k (tl (one_zero (S n) 0)) (hd 0 (one_zero (S n) 0)) = false).
  { rewrite T. simpl (Nat.eqb 0 0). unfold cvr. apply Rltb_false.
    set (l := map (fun i => if Nat.eqb i 0 then 0 else 1) (seq 1 n)).
    assert (A : forall x, In x l -> x = 1).
    { intros x Hx. apply in_map_iff in Hx. destruct Hx as (i & <- & Hi). apply in_seq in Hi. destruct i; [lia|reflexivity]. }
    assert (Ne : l <> []) by (unfold l; destruct n; [lia|discriminate]).
    destruct (cvh_range l (1 - level) Ne ltac:(lra)) as (lo & hi & Hlo & _ & B & _). rewrite (A lo Hlo) in B. lra. }
  rewrite Z0.
  rewrite (Rsum_map_ext _ (fun _ => 1)).
  - rewrite Rsum_map_const, seq_length. simpl. unfold Rdiv. ring.
  - intros w Hw. apply in_seq in Hw. rewrite T. destruct w as [|w]; [lia|]. change (Nat.eqb 0 (S w)) with false. unfold cvr.
    set (l := map (fun i => if Nat.eqb i (S w) then 0 else 1) (seq 1 n)).
    assert (EQ : ecdf_quantiles l = [0; 1]).
    { apply quantiles_zero_one.
      - intros x Hx. apply in_map_iff in Hx. destruct Hx as (i & <- & _). destruct (Nat.eqb i (S w)); auto.
      - apply in_map_iff. exists (S w). rewrite Nat.eqb_refl. split; [reflexivity|apply in_seq; lia].
      - apply in_map_iff. exists (if Nat.eqb (S w) 1 then 2%nat else 1%nat). destruct (Nat.eqb_spec (S w) 1) as [E1|E1].
        + rewrite E1. split; [reflexivity|apply in_seq; lia].
        + destruct (Nat.eqb_spec 1 (S w)) as [E2|_]; [lia|]. split; [reflexivity|apply in_seq; lia]. }
    unfold cvh. rewrite EQ. replace (INR (length [0; 1] - 1) * (1 - level)) with (1 - level) by (simpl; ring). unfold interp.
    rewrite (floor_nat_unique (1 - level) 0) by (simpl; lra). simpl. rewrite (proj2 (Rltb_true _ _)); [reflexivity|]. lra.
Qed.
(** The same law defeats the p-value method: the right-tailed p-value counts only values strictly above the observed one,
    so ties at the top give the p-value 0. *)
Lemma C117_p_value_ties_refuted_holds : forall n, (0 < n)%nat -> exists (E : (nat -> R) -> R) (Z : nat -> list R),
  is_expectation E /\ exchangeable E (S n) Z /\
  forall st level k, tests st RIGHT -> 0 <= level < 1 -> size_of_test E Z PValueMethod st level k = INR n / INR (S n).
Proof.
  intros n Hn. exists (finite_expectation (one_zero_law (S n))), (one_zero (S n)).
  split; [apply one_zero_expectation; lia|]. split; [apply one_zero_exchangeable; lia|].
  intros st level k Ho Hl. assert (P : 0 < INR (S n)) by (apply INR_pos; lia). assert (PN : 0 < INR n) by (apply INR_pos; lia).
  unfold size_of_test, Pr. rewrite one_zero_E.
  assert (T : forall w, test_rejects PValueMethod st level k (tl (one_zero (S n) w)) (hd 0 (one_zero (S n) w))
    = reject_p RIGHT (map (fun i => if Nat.eqb i w then 0 else 1) (seq 1 n)) (if Nat.eqb 0 w then 0 else 1) level).
  { intros w. rewrite p_test, Ho. reflexivity. }
  change (seq 0 (S n)) with (0%nat :: seq 1 n). rewrite map_cons. cbn [Rsum fold_right].
  assert (Z0 : test_rejects PValueMethod st level k (tl (one_zero (S n) 0)) (hd 0 (one_zero (S n) 0)) = false).
  { rewrite T. simpl (Nat.eqb 0 0). unfold reject_p. simpl p_value_of. unfold right_p_value. rewrite ecdf_is_fraction. unfold fraction. rewrite count_zero.
    - apply Rleb_false. simpl (INR 0). unfold Rdiv. rewrite Rmult_0_l. lra.
    - intros x Hx. apply in_map_iff in Hx. destruct Hx as (i & <- & Hi). apply in_seq in Hi. destruct i; [lia|]. apply Rleb_false. simpl. lra. }
  rewrite Z0.
  rewrite (Rsum_map_ext _ (fun _ => 1)).
  - rewrite Rsum_map_const, seq_length. simpl. unfold Rdiv. ring.
  - intros w Hw. apply in_seq in Hw. rewrite T. destruct w as [|w]; [lia|]. change (Nat.eqb 0 (S w)) with false.
    unfold reject_p. simpl p_value_of. unfold right_p_value. rewrite ecdf_is_fraction. unfold fraction. rewrite count_all.
    + rewrite map_length, seq_length. rewrite (proj2 (Rleb_true _ _)); [reflexivity|]. replace (1 - INR n / INR n) with 0 by (field; lra). lra.
    + intros x Hx. apply in_map_iff in Hx. destruct Hx as (i & <- & _). apply Rleb_true. destruct (Nat.eqb i (S w)); lra.
Qed.
Lemma C117_nonvacuous_exchangeable_holds : is_expectation (finite_expectation swap_law) /\ exchangeable (finite_expectation swap_law) 2 swap_vec /\
  (forall w, NoDup (swap_vec w)) /\ one_sided (plain RIGHT) /\ tests (plain RIGHT) RIGHT /\ tests (plain TWO_TAILED) TWO_TAILED.
Proof. split; [exact swap_law_expectation|]. split; [exact swap_law_exchangeable|]. split; [exact swap_law_NoDup|]. repeat split. discriminate. Qed.
