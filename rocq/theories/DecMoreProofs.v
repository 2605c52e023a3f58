From Verif Require Import Base ProbSpec ProbProofs DecModel DecSpec DecProofs.
From Coq Require Import ZArith Lia.

Lemma methods_agree_left limit v level : NoDup limit -> limit <> [] -> 0 <= level <= 1 ->
  (left_p_value limit v < level - level / INR (length limit) ->
     v < cvh limit level) /\
  (level + (1 - level) / INR (length limit) <= left_p_value limit v ->
     cvh limit level <= v).
Proof.
  intros Hnd Hl Hlev.
  assert (Hn : 1 <= INR (length limit)).
  { apply INR_ge1. destruct limit; [congruence|simpl; lia]. }
  pose proof (left_cv_tail limit level (cvh limit level) Hnd Hl Hlev
    ltac:(apply left_cv_ok; auto)) as T.
  pose proof (left_p_count limit v Hl) as P.
  rewrite minus_INR in T by (destruct limit; [congruence|simpl; lia]). change (INR 1) with 1 in T.
  set (n := INR (length limit)) in *. set (c := cvh limit level) in *.
  split; intros H.
  - apply Rnot_le_lt. intros Hle.
    assert (count (fun y => Rltb y c) limit <= count (fun y => Rleb y v) limit)%nat as Hc.
    { apply count_mono. intros y _ Hy. apply Rltb_true in Hy. apply Rleb_true. lra. }
    apply le_INR in Hc.
    assert (left_p_value limit v * n < (level - level / n) * n) by (apply Rmult_lt_compat_r; lra).
    replace ((level - level / n) * n) with (n * level - level) in H0 by (field; lra). lra.
  - apply Rnot_lt_le. intros Hlt.
    assert (count (fun y => Rleb y v) limit <= count (fun y => Rltb y c) limit)%nat as Hc.
    { apply count_mono. intros y _ Hy. apply Rleb_true in Hy. apply Rltb_true. lra. }
    apply le_INR in Hc.
    assert ((level + (1 - level) / n) * n <= left_p_value limit v * n) by (apply Rmult_le_compat_r; lra).
    replace ((level + (1 - level) / n) * n) with (n * level + (1 - level)) in H0 by (field; lra). lra.
Qed.

Lemma methods_agree alt limit v level : NoDup limit -> limit <> [] -> 0 <= level <= 1 ->
  (p_value_of alt limit v < level - level / INR (length limit) ->
     reject_cv alt limit v level = Ok true) /\
  (level + (match alt with TWO_TAILED => 2 - level | _ => 1 - level end) / INR (length limit)
      <= p_value_of alt limit v ->
     reject_cv alt limit v level = Ok false).
Proof.
  intros Hnd Hl Hlev.
  assert (Hn : 1 <= INR (length limit)).
  { apply INR_ge1. destruct limit; [congruence|simpl; lia]. }
  destruct alt.
  - apply methods_agree_right; auto.
  - rewrite reject_cv_ok by auto. destruct (methods_agree_left limit v level Hnd Hl Hlev) as [A B].
    split; intros H; f_equal; [apply Rltb_true|apply Rltb_false]; auto.
  - rewrite reject_cv_ok by auto.
    destruct (methods_agree_left limit v (level / 2) Hnd Hl ltac:(lra)) as [A B].
    destruct (methods_agree_right limit v (level / 2) Hnd Hl ltac:(lra)) as [C D].
    rewrite reject_cv_ok in C, D by (auto; lra).
    simpl p_value_of. unfold two_sided_p_value.
    change (ecdf_evaluate limit v) with (left_p_value limit v).
    change (1 - left_p_value limit v) with (right_p_value limit v).
    assert (E1 : level / 2 - level / 2 / INR (length limit) = (level - level / INR (length limit)) / 2)
      by (field; lra).
    assert (E2 : level / 2 + (1 - level / 2) / INR (length limit)
       = (level + (2 - level) / INR (length limit)) / 2) by (field; lra).
    rewrite E1 in A, C. rewrite E2 in B, D.
    split; intros H; f_equal.
    + apply orb_true_iff. unfold Rmin in H. destruct (Rle_dec _ _) in H.
      * left. apply Rltb_true, A. lra.
      * right. assert (X : Ok (Rltb (cvh limit (1 - level / 2)) v) = Ok true) by (apply C; lra).
        injection X; auto.
    + apply orb_false_iff.
      pose proof (Rmin_l (left_p_value limit v) (right_p_value limit v)).
      pose proof (Rmin_r (left_p_value limit v) (right_p_value limit v)).
      split.
      * apply Rltb_false, B. lra.
      * assert (X : Ok (Rltb (cvh limit (1 - level / 2)) v) = Ok false) by (apply D; lra).
        injection X; auto.
Qed.

(** ** decisions in terms of [rejects]/[accepts] *)
Lemma rejects_pv r st v level n limit : r st n = Ok (Some limit) ->
  (rejects (PValueMethod r) st v level n <-> reject_p (st_alternative st) limit v level = true) /\
  (accepts (PValueMethod r) st v level n <-> reject_p (st_alternative st) limit v level = false).
Proof.
  intros H. unfold rejects, accepts. simpl. unfold p_value_decide. rewrite H. simpl.
  unfold reject_p. split; split.
  - intros (x & E & Hx). injection E as <-. exact Hx.
  - intros E. eexists. split; [reflexivity|exact E].
  - intros (x & E & Hx). injection E as <-. exact Hx.
  - intros E. eexists. split; [reflexivity|exact E].
Qed.
Lemma rejects_cv r st v level n limit : r st n = Ok (Some limit) ->
  (rejects (CriticalValueMethod r) st v level n <-> reject_cv (st_alternative st) limit v level = Ok true) /\
  (accepts (CriticalValueMethod r) st v level n <-> reject_cv (st_alternative st) limit v level = Ok false).
Proof.
  intros H. unfold rejects, accepts. simpl. unfold critical_value_decide. rewrite H. simpl.
  unfold reject_cv.
  destruct (critical_value_of (st_alternative st) limit level) as [cv|e]; simpl.
  2:{ split; split; try (intros (x & E & _); discriminate); intros; discriminate. }
  destruct (area_contains (st_alternative st) cv v) as [b|e]; simpl.
  2:{ split; split; try (intros (x & E & _); discriminate); intros; discriminate. }
  split; split.
  - intros (x & E & Hx). injection E as <-. simpl in Hx. congruence.
  - intros E. injection E as E. eexists. split; [reflexivity|exact E].
  - intros (x & E & Hx). injection E as <-. simpl in Hx. congruence.
  - intros E. injection E as E. eexists. split; [reflexivity|exact E].
Qed.

Lemma level_monotone m st v n limit l1 l2 : resolves_to m st n limit -> limit <> [] ->
  0 <= l1 <= l2 -> l2 <= 1 -> rejects m st v l1 n -> rejects m st v l2 n.
Proof.
  destruct m as [r|r]; simpl; intros Hr Hl H1 H2.
  - destruct (rejects_pv r st v l1 n limit Hr) as [-> _]. destruct (rejects_pv r st v l2 n limit Hr) as [-> _].
    apply reject_p_level_mono; lra.
  - destruct (rejects_cv r st v l1 n limit Hr) as [-> _]. destruct (rejects_cv r st v l2 n limit Hr) as [-> _].
    apply reject_cv_level_mono; auto.
Qed.

Lemma right_direction m st v1 v2 n limit level : resolves_to m st n limit -> limit <> [] ->
  0 <= level <= 1 -> st_alternative st = RIGHT -> v1 <= v2 ->
  rejects m st v1 level n -> rejects m st v2 level n.
Proof.
  destruct m as [r|r]; simpl; intros Hr Hl Hlev Ha H.
  - destruct (rejects_pv r st v1 level n limit Hr) as [-> _].
    destruct (rejects_pv r st v2 level n limit Hr) as [-> _].
    unfold reject_p. rewrite Ha, !Rleb_true. simpl. unfold right_p_value.
    pose proof (ecdf_mono limit v1 v2 Hl H). lra.
  - destruct (rejects_cv r st v1 level n limit Hr) as [-> _].
    destruct (rejects_cv r st v2 level n limit Hr) as [-> _].
    rewrite Ha, !reject_cv_ok by auto. intros E. injection E as E. f_equal.
    apply Rltb_true in E. apply Rltb_true. lra.
Qed.
Lemma left_direction m st v1 v2 n limit level : resolves_to m st n limit -> limit <> [] ->
  0 <= level <= 1 -> st_alternative st = LEFT -> v1 <= v2 ->
  rejects m st v2 level n -> rejects m st v1 level n.
Proof.
  destruct m as [r|r]; simpl; intros Hr Hl Hlev Ha H.
  - destruct (rejects_pv r st v1 level n limit Hr) as [-> _].
    destruct (rejects_pv r st v2 level n limit Hr) as [-> _].
    unfold reject_p. rewrite Ha, !Rleb_true. simpl. unfold left_p_value.
    pose proof (ecdf_mono limit v1 v2 Hl H). lra.
  - destruct (rejects_cv r st v1 level n limit Hr) as [-> _].
    destruct (rejects_cv r st v2 level n limit Hr) as [-> _].
    rewrite Ha, !reject_cv_ok by auto. intros E. injection E as E. f_equal.
    apply Rltb_true in E. apply Rltb_true. lra.
Qed.
Lemma two_sided_interval m st v1 v2 v3 n limit level : resolves_to m st n limit -> limit <> [] ->
  0 <= level <= 1 -> st_alternative st = TWO_TAILED -> v1 <= v2 <= v3 ->
  accepts m st v1 level n -> accepts m st v3 level n -> accepts m st v2 level n.
Proof.
  destruct m as [r|r]; simpl; intros Hr Hl Hlev Ha H.
  - rewrite !(proj2 (rejects_pv r st _ level n limit Hr)).
    unfold reject_p. rewrite Ha, !Rleb_false. simpl. unfold two_sided_p_value.
    pose proof (ecdf_mono limit v1 v2 Hl ltac:(lra)). pose proof (ecdf_mono limit v2 v3 Hl ltac:(lra)).
    unfold Rmin. repeat destruct (Rle_dec _ _); lra.
  - rewrite !(proj2 (rejects_cv r st _ level n limit Hr)).
    rewrite Ha, !reject_cv_ok by auto. intros E1 E3. injection E1 as E1. injection E3 as E3. f_equal.
    apply orb_false_iff in E1. apply orb_false_iff in E3. apply orb_false_iff.
    rewrite !Rltb_false in *. lra.
Qed.

Lemma critical_value_perm alt l1 l2 level : Permutation l1 l2 ->
  critical_value_of alt l1 level = critical_value_of alt l2 level.
Proof.
  intros H. pose proof (quantiles_perm _ _ H) as E.
  destruct alt; simpl; unfold right_critical_value, left_critical_value, two_sided_critical_value;
    rewrite E; reflexivity.
Qed.
Lemma decision_perm r1 r2 st v level n l1 l2 : Permutation l1 l2 ->
  r1 st n = Ok (Some l1) -> r2 st n = Ok (Some l2) ->
  decide (PValueMethod r1) st v level n = decide (PValueMethod r2) st v level n /\
  decide (CriticalValueMethod r1) st v level n = decide (CriticalValueMethod r2) st v level n.
Proof.
  intros Hp H1 H2. simpl. unfold p_value_decide, critical_value_decide. rewrite H1, H2. simpl.
  rewrite (p_value_perm _ _ _ _ Hp), (critical_value_perm _ _ _ _ Hp). auto.
Qed.

(** ** exchangeable random vectors *)
Lemma seq_split j m : (j < m)%nat -> seq 0 m = seq 0 j ++ j :: seq (S j) (m - S j).
Proof.
  intros H. replace m with (j + S (m - S j))%nat at 1 by lia. rewrite seq_app. reflexivity.
Qed.
Lemma map_nth_firstn (z : list R) j : (j <= length z)%nat ->
  map (fun i => nth i z 0) (seq 0 j) = firstn j z.
Proof.
  revert j; induction z as [|a z IH]; intros [|j] H; simpl in *; auto; try lia.
  f_equal. rewrite <- seq_shift, map_map. apply IH. lia.
Qed.
Lemma map_nth_skipn (z : list R) j :
  map (fun i => nth i z 0) (seq j (length z - j)) = skipn j z.
Proof.
  revert j; induction z as [|a z IH]; intros [|j]; simpl; auto.
  - f_equal. rewrite <- seq_shift, map_map. specialize (IH 0%nat). rewrite Nat.sub_0_r in IH. exact IH.
  - rewrite <- seq_shift, map_map. apply IH.
Qed.

Section Exchange.
Context {Om : Type} (E : (Om -> R) -> R) (HE : is_expectation E).

Lemma exchange_position m Z (A : list R -> R -> bool) j : exchangeable E m Z -> (j < m)%nat ->
  Pr E (fun w => A (others j (Z w)) (nth j (Z w) 0)) = Pr E (fun w => A (tl (Z w)) (hd 0 (Z w))).
Proof.
  intros [HL HX] Hj. unfold Pr.
  set (pi := j :: seq 0 j ++ seq (S j) (m - S j)).
  assert (Hpi : Permutation pi (seq 0 m)).
  { rewrite (seq_split j m Hj). apply Permutation_middle. }
  specialize (HX pi Hpi (fun z => ind (A (tl z) (hd 0 z)))).
  rewrite <- HX; [|exists 1; intros z; unfold ind; destruct (A _ _); rewrite ?Rabs_R1, ?Rabs_R0; lra].
  apply E_ext; auto; try apply bounded_ind.
  intros w. unfold pi. cbn [map hd tl]. rewrite map_app, map_nth_firstn by (rewrite HL; lia).
  rewrite <- (HL w), map_nth_skipn. reflexivity.
Qed.

(** the probability of an event about (simulated, observed) is the mean fraction of hits *)
Lemma exchange_hits m Z (A : list R -> R -> bool) : exchangeable E m Z -> (0 < m)%nat ->
  INR m * Pr E (fun w => A (tl (Z w)) (hd 0 (Z w))) = E (fun w => INR (hits A (Z w))).
Proof.
  intros HX Hm.
  assert (S1 : Rsum (map (fun j => Pr E (fun w => A (others j (Z w)) (nth j (Z w) 0))) (seq 0 m))
     = INR m * Pr E (fun w => A (tl (Z w)) (hd 0 (Z w)))).
  { rewrite (Rsum_map_ext _ (fun _ => Pr E (fun w => A (tl (Z w)) (hd 0 (Z w))))).
    - rewrite Rsum_map_const, seq_length. ring.
    - intros j Hj. apply in_seq in Hj. apply exchange_position with (m := m); auto; lia. }
  rewrite <- S1. unfold Pr. rewrite <- E_sum; auto.
  2:{ intros; apply bounded_ind. }
  assert (HC : forall (P : nat -> bool) l, Rsum (map (fun j => ind (P j)) l) = INR (count P l)).
  { intros P l. induction l as [|a l IH]; [reflexivity|]. cbn [map]. rewrite count_cons.
    unfold Rsum in *. simpl. rewrite IH, plus_INR. unfold ind. destruct (P a); simpl; lra. }
  apply E_ext; auto.
  - apply bounded_sum. intros; apply bounded_ind.
  - apply (bounded_between _ 0 (INR m)). intros w. split; [apply pos_INR|]. apply le_INR.
    unfold hits. etransitivity; [apply count_le_length|]. rewrite seq_length, (proj1 HX). lia.
  - intros w. unfold hits. rewrite (proj1 HX), HC. reflexivity.
Qed.

Lemma exchange_bound m Z (A : list R -> R -> bool) c : exchangeable E m Z -> (0 < m)%nat ->
  (forall w, INR (hits A (Z w)) <= c) ->
  Pr E (fun w => A (tl (Z w)) (hd 0 (Z w))) <= c / INR m.
Proof.
  intros HX Hm Hc. assert (0 < INR m) by (apply INR_pos; auto).
  apply (Rmult_le_reg_l (INR m)); [auto|]. rewrite exchange_hits by auto.
  replace (INR m * (c / INR m)) with c by (field; lra).
  rewrite <- (E_const E HE c). apply (E_mono E HE); auto.
  - apply (bounded_between _ 0 (INR m)). intros w. split; [apply pos_INR|]. apply le_INR.
    unfold hits. etransitivity; [apply count_le_length|]. rewrite seq_length, (proj1 HX). lia.
  - apply bounded_const.
Qed.

Lemma right_p_valid n Z level : exchangeable E (S n) Z -> (0 < n)%nat -> (forall w, NoDup (Z w)) ->
  0 <= level ->
  Pr E (fun w => Rleb (right_p_value (tl (Z w)) (hd 0 (Z w))) level) <= level + (1 - level) / INR (S n).
Proof.
  intros HX Hn Hnd Hlev.
  assert (0 < INR (S n)) by (apply INR_pos; lia).
  replace (level + (1 - level) / INR (S n)) with ((level * INR n + 1) / INR (S n))
    by (rewrite S_INR in *; field; lra).
  apply (exchange_bound (S n) Z (fun sim obs => reject_p RIGHT sim obs level)); [exact HX|lia|].
  intros w. pose proof (proj1 HX w) as L.
  replace n with (length (Z w) - 1)%nat by lia.
  apply right_exchangeable; auto. lia.
Qed.
Lemma left_p_valid n Z level : exchangeable E (S n) Z -> (0 < n)%nat -> 0 <= level ->
  Pr E (fun w => Rleb (left_p_value (tl (Z w)) (hd 0 (Z w))) level) <= level + (1 - level) / INR (S n).
Proof.
  intros HX Hn Hlev.
  assert (0 < INR (S n)) by (apply INR_pos; lia).
  replace (level + (1 - level) / INR (S n)) with ((level * INR n + 1) / INR (S n))
    by (rewrite S_INR in *; field; lra).
  apply (exchange_bound (S n) Z (fun sim obs => reject_p LEFT sim obs level)); [exact HX|lia|].
  intros w. pose proof (proj1 HX w) as L.
  replace n with (length (Z w) - 1)%nat by lia.
  apply left_exchangeable; auto. lia.
Qed.
End Exchange.

(** ** concrete laws *)
Lemma perm_seq_2 pi : Permutation pi (seq 0 2) -> pi = [0; 1]%nat \/ pi = [1; 0]%nat.
Proof. intros H. apply Permutation_sym in H. simpl in H. apply Permutation_length_2_inv in H. tauto. Qed.
(** The sample space is a type, so the law lives on the two-element type bool. *)
Definition swap_vec (b : bool) : list R := if b then [0; 1] else [1; 0].
Definition swap_law : list (R * bool) := [(1/2, true); (1/2, false)].
Lemma swap_law_expectation : is_expectation (finite_expectation swap_law).
Proof.
  apply finite_is_expectation. split.
  - intros p [<-|[<-|[]]]; simpl; lra.
  - unfold Rsum; simpl; lra.
Qed.
Lemma swap_law_exchangeable : exchangeable (finite_expectation swap_law) 2 swap_vec.
Proof.
  split; [intros []; reflexivity|].
  intros pi Hpi f _. apply perm_seq_2 in Hpi. unfold finite_expectation, Rsum.
  destruct Hpi as [-> | ->]; simpl; lra.
Qed.
Lemma swap_law_NoDup b : NoDup (swap_vec b).
Proof. destruct b; repeat constructor; simpl; intuition lra. Qed.

Lemma right_p_single x y : right_p_value [x] y = if Rltb y x then 1 else 0.
Proof.
  rewrite right_p_is_fraction by discriminate. unfold fraction, count. simpl.
  destruct (Rltb y x); simpl; lra.
Qed.
Lemma swap_law_rejects : Pr (finite_expectation swap_law)
  (fun w => Rleb (right_p_value (tl (swap_vec w)) (hd 0 (swap_vec w))) (1/20)) = 1/2.
Proof.
  unfold Pr, finite_expectation, Rsum. cbn [map swap_law fst snd swap_vec tl hd fold_right].
  rewrite !right_p_single. rewrite (proj2 (Rltb_true 0 1)), (proj2 (Rltb_false 1 0)) by lra.
  rewrite (proj2 (Rleb_false 1 (1/20))), (proj2 (Rleb_true 0 (1/20))) by lra. simpl. lra.
Qed.

(** evaluation of the critical values on small concrete lists *)
Lemma cvh_eval limit q a h k lo hi :
  ecdf_quantiles limit = a -> INR (length a - 1) * q = h -> INR k <= h < INR k + 1 ->
  nth k a 0 = lo -> nth (Nat.min (k + 1) (length a - 1)) a 0 = hi ->
  cvh limit q = lo + (hi - lo) * (h - INR k).
Proof.
  intros Ha Hh Hk Hlo Hhi. unfold cvh, interp. rewrite Ha, Hh.
  rewrite (floor_nat_unique h k Hk), Hlo, Hhi. reflexivity.
Qed.

Lemma strict_unique a b : StronglySorted Rlt a -> StronglySorted Rlt b ->
  (forall x, In x a <-> In x b) -> a = b.
Proof.
  intros Ha Hb H. apply sorted_perm_unique; try apply strict_sorted; auto.
  apply NoDup_Permutation; auto; apply strict_NoDup; auto.
Qed.
Lemma quantiles_are limit a : StronglySorted Rlt a -> (forall x, In x a <-> In x limit) ->
  ecdf_quantiles limit = a.
Proof.
  intros Ha H. apply strict_unique; auto; [apply quantiles_strict|].
  intros x. rewrite quantiles_in, H. reflexivity.
Qed.

Definition tied : list R := 0 :: repeat 1 9.
Lemma tied_quantiles : ecdf_quantiles tied = [0; 1].
Proof.
  apply quantiles_are.
  - repeat constructor; lra.
  - intros x. unfold tied. simpl. intuition.
Qed.
Lemma tied_cv : right_critical_value tied (1/4) = Ok (3/4).
Proof.
  rewrite right_cv_ok by (try discriminate; lra). f_equal.
  rewrite (cvh_eval tied (1 - 1/4) [0; 1] (3/4) 0 0 1 tied_quantiles); simpl; lra.
Qed.
Lemma tied_tail : count (fun y => Rltb (3/4) y) tied = 9%nat.
Proof.
  unfold tied. simpl repeat. rewrite !count_cons, count_nil.
  rewrite (proj2 (Rltb_false (3/4) 0)), (proj2 (Rltb_true (3/4) 1)) by lra. reflexivity.
Qed.

(** a statistic with a given alternative, for the witnesses *)
Definition plain (alt : alternative) : statistic := {| st_alternative := alt; st_execute := fun l => Ok (mean l) |}.
Definition fixed_limit (limit : list R) : resolver := fun _ _ => Ok (Some limit).

Lemma unit_quantiles : ecdf_quantiles [0; 1] = [0; 1].
Proof. apply quantiles_are; [repeat constructor; lra|tauto]. Qed.
Lemma unit_cv q : 0 <= q < 1 -> cvh [0; 1] q = q.
Proof.
  intros H. rewrite (cvh_eval [0;1] q [0; 1] q 0 0 1 unit_quantiles); simpl; lra.
Qed.
Lemma disagreement_1 :
  rejects (CriticalValueMethod (fixed_limit [0; 1])) (plain RIGHT) (95/100) (1/10) 5 /\
  accepts (PValueMethod (fixed_limit [0; 1])) (plain RIGHT) (95/100) (1/10) 5.
Proof.
  split.
  - apply (rejects_cv _ _ _ _ _ [0; 1]); [reflexivity|]. simpl st_alternative.
    rewrite reject_cv_ok by (try discriminate; lra). rewrite unit_cv by lra. f_equal. apply Rltb_true. lra.
  - apply (rejects_pv _ _ _ _ _ [0; 1]); [reflexivity|]. unfold reject_p. simpl.
    rewrite right_p_is_fraction by discriminate. unfold fraction. rewrite !count_cons, count_nil.
    rewrite (proj2 (Rltb_false (95/100) 0)), (proj2 (Rltb_true (95/100) 1)) by lra. simpl.
    apply Rleb_false. lra.
Qed.
Lemma disagreement_2 :
  accepts (CriticalValueMethod (fixed_limit [0])) (plain RIGHT) 0 (1/20) 5 /\
  rejects (PValueMethod (fixed_limit [0])) (plain RIGHT) 0 (1/20) 5.
Proof.
  split.
  - apply (rejects_cv _ _ _ _ _ [0]); [reflexivity|]. simpl st_alternative.
    rewrite reject_cv_ok by (try discriminate; lra).
    assert (Q : ecdf_quantiles [0] = [0]) by (apply quantiles_are; [repeat constructor|tauto]).
    rewrite (cvh_eval [0] (1 - 1/20) [0] 0 0 0 0 Q); try (simpl; lra).
    f_equal. apply Rltb_false. simpl. lra.
  - apply (rejects_pv _ _ _ _ _ [0]); [reflexivity|]. unfold reject_p. simpl.
    rewrite right_p_single, (proj2 (Rltb_false 0 0)) by lra. apply Rleb_true. lra.
Qed.
