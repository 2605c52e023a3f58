(** Proofs of the theorems stated in [Props_Decisions]. *)
From Verif Require Import Base ProbSpec ProbProofs DecModel DecSpec DecProofs DecMoreProofs.
From Coq Require Import ZArith.

(** proves that a literal list is sorted *)
Ltac ssort := repeat match goal with |- StronglySorted _ _ => constructor | |- Forall _ _ => constructor end; lra.

(** *** C13 *)
Lemma C13_p_values_are_tail_fractions_holds : forall limit x, limit <> [] ->
  p_value_of LEFT limit x = fraction (fun y => Rleb y x) limit /\
  p_value_of RIGHT limit x = 1 - fraction (fun y => Rleb y x) limit /\
  p_value_of TWO_TAILED limit x
    = 2 * Rmin (fraction (fun y => Rleb y x) limit) (1 - fraction (fun y => Rleb y x) limit).
Proof.
  intros limit x _. simpl. unfold left_p_value, right_p_value, two_sided_p_value.
  rewrite ecdf_is_fraction. auto.
Qed.
Lemma C13_p_values_in_unit_interval_holds : forall alt limit x, limit <> [] -> 0 <= p_value_of alt limit x <= 1.
Proof. exact p_value_range. Qed.
Lemma C13_p_values_monotone_holds : forall limit x y, limit <> [] -> x <= y ->
  p_value_of LEFT limit x <= p_value_of LEFT limit y /\
  p_value_of RIGHT limit y <= p_value_of RIGHT limit x.
Proof.
  intros limit x y Hl H. pose proof (ecdf_mono limit x y Hl H).
  simpl. unfold left_p_value, right_p_value. split; lra.
Qed.
(** two of four simulated values are at most 5/2 *)
Lemma C13_example_holds : p_value_of LEFT [3; 1; 4; 1] (5/2) = 1/2 /\ p_value_of TWO_TAILED [3; 1; 4; 1] (5/2) = 1.
Proof.
  assert (E : fraction (fun y => Rleb y (5/2)) [3; 1; 4; 1] = 1/2).
  { unfold fraction. rewrite !count_cons, count_nil. rcase. simpl. lra. }
  destruct (C13_p_values_are_tail_fractions_holds [3; 1; 4; 1] (5/2) ltac:(discriminate)) as (A & _ & B).
  rewrite A, B, E. rewrite Rmin_left; lra.
Qed.

(** *** C14 *)
Lemma C14_order_irrelevant_holds : forall limit1 limit2, Permutation limit1 limit2 ->
  (forall alt x, p_value_of alt limit1 x = p_value_of alt limit2 x) /\
  (forall alt level, critical_value_of alt limit1 level = critical_value_of alt limit2 level).
Proof. intros l1 l2 H; split; intros; [apply p_value_perm, H|apply critical_value_perm, H]. Qed.
Lemma C14_decisions_ignore_order_holds : forall r1 r2 st v level n limit1 limit2,
  Permutation limit1 limit2 -> r1 st n = Ok (Some limit1) -> r2 st n = Ok (Some limit2) ->
  decide (PValueMethod r1) st v level n = decide (PValueMethod r2) st v level n /\
  decide (CriticalValueMethod r1) st v level n = decide (CriticalValueMethod r2) st v level n.
Proof. exact decision_perm. Qed.
Lemma C14_nonvacuous_holds : Permutation [3; 1; 4] [4; 3; 1].
Proof. apply (Permutation_app_comm [3; 1] [4]). Qed.

(** *** C15: the observed value comes first, the simulated ones follow *)
Lemma C15_right_p_value_valid_refuted_holds :
  exists (E : (bool -> R) -> R) (Z : bool -> list R),
    is_expectation E /\ exchangeable E 2 Z /\ (forall w, NoDup (Z w)) /\
    Pr E (fun w => Rleb (p_value_of RIGHT (tl (Z w)) (hd 0 (Z w))) (1/20)) = 1/2.
Proof.
  exists (finite_expectation swap_law), swap_vec.
  split; [exact swap_law_expectation|]. split; [exact swap_law_exchangeable|].
  split; [exact swap_law_NoDup|exact swap_law_rejects].
Qed.
(** tied values: rejected with certainty at level 0 *)
Lemma C15_ties_always_rejected_holds : forall (x : R) n,
  Rleb (p_value_of RIGHT (repeat x (S n)) x) 0 = true.
Proof.
  intros x n. apply Rleb_true. simpl p_value_of. rewrite right_p_is_fraction by discriminate.
  unfold fraction. rewrite count_zero.
  - change (INR 0) with 0. unfold Rdiv. lra.
  - intros y Hy. apply (repeat_spec (S n)) in Hy. subst. apply Rltb_false. lra.
Qed.
(** what holds: the excess over alpha is at most (1-alpha)/(n+1) if the values are distinct *)
Lemma C15_right_p_value_nearly_valid_holds : forall (Om : Type) (E : (Om -> R) -> R) n Z level,
  is_expectation E -> exchangeable E (S n) Z -> (0 < n)%nat -> (forall w, NoDup (Z w)) -> 0 <= level ->
  Pr E (fun w => Rleb (p_value_of RIGHT (tl (Z w)) (hd 0 (Z w))) level) <= level + (1 - level) / INR (S n).
Proof. intros; apply right_p_valid; assumption. Qed.
(** the left-tailed test obeys the same bound, with or without ties *)
Lemma C15_left_p_value_nearly_valid_holds : forall (Om : Type) (E : (Om -> R) -> R) n Z level,
  is_expectation E -> exchangeable E (S n) Z -> (0 < n)%nat -> 0 <= level ->
  Pr E (fun w => Rleb (p_value_of LEFT (tl (Z w)) (hd 0 (Z w))) level) <= level + (1 - level) / INR (S n).
Proof. intros; apply left_p_valid; assumption. Qed.
(** *** C16 *)
Lemma C16_right_p_value_counts_ties_refuted_holds :
  exists limit x, limit <> [] /\ p_value_of RIGHT limit x <> fraction (fun y => Rleb x y) limit.
Proof.
  exists [1], 1. split; [discriminate|]. simpl. rewrite right_p_single.
  rewrite (proj2 (Rltb_false 1 1)) by lra.
  unfold fraction. rewrite count_cons, count_nil, (proj2 (Rleb_true 1 1)) by lra. simpl. lra.
Qed.
(** what it counts: strictly greater values; so the property holds iff no simulated value is tied *)
Lemma C16_right_p_value_counts_strictly_greater_holds : forall limit x, limit <> [] ->
  p_value_of RIGHT limit x = fraction (fun y => Rltb x y) limit.
Proof. exact right_p_is_fraction. Qed.
Lemma C16_right_p_value_without_ties_holds : forall limit x, limit <> [] -> ~ In x limit ->
  p_value_of RIGHT limit x = fraction (fun y => Rleb x y) limit.
Proof.
  intros limit x Hl Hx. simpl. rewrite right_p_is_fraction by exact Hl. apply fraction_ext.
  intros y Hy. assert (x <> y) by (intros ->; auto). rcase; auto.
Qed.
(** *** C17 *)
Lemma C17_one_sided_in_range_holds : forall limit level, limit <> [] -> 0 <= level <= 1 ->
  exists cl cr, critical_value_of LEFT limit level = Ok (CV1 cl) /\
    critical_value_of RIGHT limit level = Ok (CV1 cr) /\
    (exists lo hi, In lo limit /\ In hi limit /\ lo <= cl <= hi) /\
    (exists lo hi, In lo limit /\ In hi limit /\ lo <= cr <= hi).
Proof.
  intros limit level Hl H. exists (cvh limit level), (cvh limit (1 - level)). simpl.
  rewrite left_cv_ok, right_cv_ok by auto. repeat split; apply cvh_range; auto; lra.
Qed.
Lemma C17_two_sided_in_range_holds : forall limit level, limit <> [] -> 0 <= level <= 1 ->
  exists cl cr, critical_value_of TWO_TAILED limit level = Ok (CV2 cl cr) /\ cl <= cr /\
    (exists lo hi, In lo limit /\ In hi limit /\ lo <= cl /\ cr <= hi).
Proof.
  intros limit level Hl H. exists (cvh limit (level / 2)), (cvh limit (1 - level / 2)). simpl.
  rewrite two_sided_cv_ok by (auto; lra). split; [reflexivity|].
  split; [apply cvh_mono; auto; lra|].
  destruct (cvh_range limit (level / 2) Hl ltac:(lra)) as (lo & _ & Hlo & _ & A & _).
  destruct (cvh_range limit (1 - level / 2) Hl ltac:(lra)) as (_ & hi & _ & Hhi & _ & B).
  exists lo, hi. auto.
Qed.
Lemma C17_monotone_in_level_holds : forall limit l1 l2 c1 c2 d1 d2, limit <> [] -> 0 <= l1 <= l2 -> l2 <= 1 ->
  critical_value_of LEFT limit l1 = Ok (CV1 c1) -> critical_value_of LEFT limit l2 = Ok (CV1 c2) ->
  critical_value_of RIGHT limit l1 = Ok (CV1 d1) -> critical_value_of RIGHT limit l2 = Ok (CV1 d2) ->
  c1 <= c2 /\ d2 <= d1.
Proof.
  intros limit l1 l2 c1 c2 d1 d2 Hl H1 H2. simpl.
  rewrite !left_cv_ok, !right_cv_ok by (auto; lra). simpl. intros A B C D.
  injection A as <-. injection B as <-. injection C as <-. injection D as <-.
  split; apply cvh_mono; auto; lra.
Qed.
Lemma C17_example_holds : critical_value_of RIGHT [0; 1] (1/10) = Ok (CV1 (9/10)).
Proof.
  simpl. rewrite right_cv_ok by (try discriminate; lra). rewrite unit_cv by lra. simpl.
  do 2 f_equal. lra.
Qed.

(** *** C18 *)
Lemma C18_bad_level_or_empty_raises_holds : forall limit level,
  ((exists e, critical_value_of LEFT limit level = Raise e) <-> limit = [] \/ ~ (0 <= level <= 1)) /\
  ((exists e, critical_value_of RIGHT limit level = Raise e) <-> limit = [] \/ ~ (0 <= level <= 1)) /\
  ((exists e, critical_value_of TWO_TAILED limit level = Raise e) <-> limit = [] \/ ~ (0 <= level <= 2)).
Proof.
  intros limit level.
  assert (W : forall (B : Type) (x : result B) (f : B -> critical_value),
    (exists e, (let! c := x in Ok (f c)) = Raise e) <-> exists e, x = Raise e).
  { intros B [b|e] f; simpl; split; intros [e' He]; try discriminate; eauto. }
  simpl. rewrite !W. split; [|split].
  - unfold left_critical_value. rewrite np_quantile_raises, empty_quantiles. tauto.
  - unfold right_critical_value. rewrite np_quantile_raises, empty_quantiles.
    assert (0 <= 1 - level <= 1 <-> 0 <= level <= 1) by lra. tauto.
  - apply two_sided_raises.
Qed.
(** *** C19 *)
Lemma C19_tail_fraction_refuted_holds : exists limit level c, 0 <= level <= 1 /\
  critical_value_of RIGHT limit level = Ok (CV1 c) /\
  level * INR (length limit) + 1 < INR (count (fun y => Rltb c y) limit).
Proof.
  exists tied, (1/4), (3/4). split; [lra|]. cbn [critical_value_of]. rewrite tied_cv. split; [reflexivity|].
  rewrite tied_tail. simpl. lra.
Qed.
Lemma C19_not_the_quantile_of_the_list_refuted_holds : exists limit level c, 0 <= level <= 1 /\
  critical_value_of RIGHT limit level = Ok (CV1 c) /\ np_quantile (rsort limit) (1 - level) <> Ok c.
Proof.
  exists tied, (1/4), (3/4). split; [lra|]. cbn [critical_value_of]. rewrite tied_cv. split; [reflexivity|].
  assert (S : rsort tied = tied).
  { apply rsort_id. unfold tied. simpl repeat. unfold sortedR. ssort. }
  rewrite S, np_quantile_ok by (try discriminate; lra).
  assert (F : floor_nat (INR (length tied - 1) * (1 - 1/4)) = 6%nat)
    by (apply floor_nat_unique; simpl; lra).
  unfold interp. rewrite F. simpl. intros E. injection E. lra.
Qed.
(** what holds: without repeated simulated values both halves of the property are true *)
Lemma C19_quantile_of_distinct_values_holds : forall limit level, NoDup limit ->
  critical_value_of LEFT limit level = (let! c := np_quantile (rsort limit) level in Ok (CV1 c)) /\
  critical_value_of RIGHT limit level = (let! c := np_quantile (rsort limit) (1 - level) in Ok (CV1 c)).
Proof.
  intros limit level H. simpl. unfold left_critical_value, right_critical_value.
  rewrite quantiles_NoDup by exact H. auto.
Qed.
Lemma C19_tail_count_of_distinct_values_holds : forall limit level cl cr, NoDup limit -> limit <> [] ->
  0 <= level <= 1 ->
  critical_value_of LEFT limit level = Ok (CV1 cl) -> critical_value_of RIGHT limit level = Ok (CV1 cr) ->
  let m := INR (length limit - 1) * level in
  m <= INR (count (fun y => Rltb y cl) limit) < m + 1 /\
  m <= INR (count (fun y => Rltb cr y) limit) < m + 1.
Proof.
  intros limit level cl cr Hnd Hl Hlev A B. simpl in A, B.
  rewrite left_cv_ok in A by auto. rewrite right_cv_ok in B by auto. simpl in A, B.
  injection A as <-. injection B as <-.
  split; [apply left_cv_tail|apply right_cv_tail]; auto; [apply left_cv_ok|apply right_cv_ok]; auto.
Qed.
Lemma C19_nonvacuous_holds : NoDup [0; 1; 2] /\ [0; 1; 2] <> [].
Proof. split; [repeat constructor; simpl; intuition lra|discriminate]. Qed.

(** *** C20 *)
Lemma C20_critical_value_decision_holds : forall r st v level n limit, r st n = Ok (Some limit) ->
  forall cv, critical_value_of (st_alternative st) limit level = Ok cv ->
  (rejects (CriticalValueMethod r) st v level n <->
   match st_alternative st, cv with
   | LEFT, CV1 c => v < c
   | RIGHT, CV1 c => c < v
   | TWO_TAILED, CV2 l u => ~ (l <= v <= u)
   | _, _ => False
   end).
Proof.
  intros r st v level n limit Hr cv Hcv.
  rewrite (proj1 (rejects_cv r st v level n limit Hr)). unfold reject_cv. rewrite Hcv. simpl.
  destruct (st_alternative st), cv; simpl.
  - rcase; simpl; split; intros; auto; try lra; discriminate.
  - split; [discriminate|tauto].
  - rcase; simpl; split; intros; auto; try lra; discriminate.
  - split; [discriminate|tauto].
  - split; [discriminate|tauto].
  - rcase; simpl; split; intros; auto; try lra; discriminate.
Qed.
(** the shape of the critical value always fits the alternative, so no case above is impossible *)
Lemma C20_critical_value_shape_holds : forall alt limit level cv, critical_value_of alt limit level = Ok cv ->
  match alt, cv with TWO_TAILED, CV2 _ _ | LEFT, CV1 _ | RIGHT, CV1 _ => True | _, _ => False end.
Proof.
  intros alt limit level cv. destruct alt; simpl.
  - destruct (right_critical_value limit level); simpl; intros E; [injection E as <-; exact I|discriminate].
  - destruct (left_critical_value limit level); simpl; intros E; [injection E as <-; exact I|discriminate].
  - destruct (two_sided_critical_value limit level); simpl; intros E; [injection E as <-; exact I|discriminate].
Qed.
Lemma C20_nonvacuous_holds : rejects (CriticalValueMethod (fixed_limit [0; 1])) (plain RIGHT) (95/100) (1/10) 5.
Proof. apply disagreement_1. Qed.

(** *** C21 *)
Lemma C21_level_monotone_holds : forall m st v n limit l1 l2,
  resolves_to m st n limit -> limit <> [] -> 0 <= l1 <= l2 -> l2 <= 1 ->
  rejects m st v l1 n -> rejects m st v l2 n.
Proof. exact level_monotone. Qed.
Lemma C21_nonvacuous_holds : rejects (CriticalValueMethod (fixed_limit [0; 1])) (plain RIGHT) (95/100) (1/10) 5
  /\ rejects (PValueMethod (fixed_limit [0])) (plain RIGHT) 0 (1/20) 5.
Proof. split; [apply disagreement_1|apply disagreement_2]. Qed.

(** *** C22 *)
Lemma C22_methods_agree_refuted_holds : exists st limit v level n, 0 < level < 1 /\
  rejects (CriticalValueMethod (fixed_limit limit)) st v level n /\
  accepts (PValueMethod (fixed_limit limit)) st v level n.
Proof. exists (plain RIGHT), [0; 1], (95/100), (1/10), 5%nat. split; [lra|exact disagreement_1]. Qed.
Lemma C22_methods_agree_other_direction_refuted_holds : exists st limit v level n, 0 < level < 1 /\
  accepts (CriticalValueMethod (fixed_limit limit)) st v level n /\
  rejects (PValueMethod (fixed_limit limit)) st v level n.
Proof. exists (plain RIGHT), [0], 0, (1/20), 5%nat. split; [lra|exact disagreement_2]. Qed.
(** what holds: for distinct simulated values the methods agree unless the p-value is within
    2/n of the level *)
Lemma C22_methods_agree_away_from_level_holds : forall st limit v level n r p,
  NoDup limit -> limit <> [] -> 0 <= level <= 1 -> r st n = Ok (Some limit) ->
  p = p_value_of (st_alternative st) limit v ->
  (p < level - level / INR (length limit) ->
     rejects (PValueMethod r) st v level n /\ rejects (CriticalValueMethod r) st v level n) /\
  (level + 2 / INR (length limit) <= p -> level < p ->
     accepts (PValueMethod r) st v level n /\ accepts (CriticalValueMethod r) st v level n).
Proof.
  intros st limit v level n r p Hnd Hl Hlev Hr ->.
  assert (Hn : 0 < INR (length limit)).
  { apply INR_pos. destruct limit; [congruence|simpl; lia]. }
  pose proof (Rinv_0_lt_compat _ Hn) as Hi.
  destruct (methods_agree (st_alternative st) limit v level Hnd Hl Hlev) as [A B].
  destruct (rejects_pv r st v level n limit Hr) as [P1 P2].
  destruct (rejects_cv r st v level n limit Hr) as [Q1 Q2].
  rewrite P1, P2, Q1, Q2. split.
  - intros H. split; [|auto]. unfold reject_p. apply Rleb_true.
    assert (0 <= level / INR (length limit)) by (apply Rmult_le_pos; lra). lra.
  - intros H H'. split; [unfold reject_p; apply Rleb_false; lra|]. apply B.
    eapply Rle_trans; [|exact H]. apply Rplus_le_compat_l, Rmult_le_compat_r; [lra|].
    destruct (st_alternative st); lra.
Qed.
(** *** C23 *)
Lemma C23_right_tailed_direction_holds : forall m st v1 v2 n limit level,
  resolves_to m st n limit -> limit <> [] -> 0 <= level <= 1 -> st_alternative st = RIGHT -> v1 <= v2 ->
  rejects m st v1 level n -> rejects m st v2 level n.
Proof. exact right_direction. Qed.
Lemma C23_left_tailed_direction_holds : forall m st v1 v2 n limit level,
  resolves_to m st n limit -> limit <> [] -> 0 <= level <= 1 -> st_alternative st = LEFT -> v1 <= v2 ->
  rejects m st v2 level n -> rejects m st v1 level n.
Proof. exact left_direction. Qed.
Lemma C23_two_sided_acceptance_interval_holds : forall m st v1 v2 v3 n limit level,
  resolves_to m st n limit -> limit <> [] -> 0 <= level <= 1 -> st_alternative st = TWO_TAILED ->
  v1 <= v2 <= v3 -> accepts m st v1 level n -> accepts m st v3 level n -> accepts m st v2 level n.
Proof. exact two_sided_interval. Qed.
Lemma C23_nonvacuous_holds : accepts (PValueMethod (fixed_limit [0; 1])) (plain TWO_TAILED) (1/2) (1/10) 3.
Proof.
  apply (rejects_pv _ _ _ _ _ [0; 1]); [reflexivity|]. unfold reject_p. simpl. apply Rleb_false.
  unfold two_sided_p_value. rewrite ecdf_is_fraction. unfold fraction.
  rewrite !count_cons, count_nil. rcase. simpl. unfold Rmin. destruct (Rle_dec _ _); lra.
Qed.

(** *** C24 *)
Lemma C24_p_value_result_holds : forall r st rvs level v limit,
  st_execute st rvs = Ok v -> r st (length rvs) = Ok (Some limit) ->
  exists res, gof_test (PValueMethod r) st rvs level = Ok res /\
    tr_statistic res = v /\ tr_level res = level /\ tr_critical_value res = None /\
    exists p, tr_p_value res = Some p /\ p = p_value_of (st_alternative st) limit v /\
      (tr_rejected res = true <-> p <= level).
Proof.
  intros r st rvs level v limit Hv Hr. unfold gof_test. rewrite Hv. simpl.
  unfold p_value_decide. rewrite Hr. simpl. eexists. split; [reflexivity|]. simpl.
  do 3 (split; [reflexivity|]). eexists. split; [reflexivity|]. split; [reflexivity|]. apply Rleb_true.
Qed.
Lemma C24_critical_value_result_holds : forall r st rvs level v limit cv,
  st_execute st rvs = Ok v -> r st (length rvs) = Ok (Some limit) ->
  critical_value_of (st_alternative st) limit level = Ok cv ->
  exists res, gof_test (CriticalValueMethod r) st rvs level = Ok res /\
    tr_statistic res = v /\ tr_level res = level /\ tr_p_value res = None /\
    tr_critical_value res = Some cv /\
    area_contains (st_alternative st) cv v = Ok (negb (tr_rejected res)).
Proof.
  intros r st rvs level v limit cv Hv Hr Hcv. unfold gof_test. rewrite Hv. simpl.
  unfold critical_value_decide. rewrite Hr. simpl. rewrite Hcv. simpl.
  pose proof (C20_critical_value_shape_holds _ _ _ _ Hcv) as Hs.
  assert (exists b, area_contains (st_alternative st) cv v = Ok b) as [b Hb]
    by (destruct (st_alternative st), cv; try contradiction; eexists; reflexivity).
  rewrite Hb. simpl. eexists. split; [reflexivity|]. simpl.
  do 4 (split; [reflexivity|]). rewrite negb_involutive. reflexivity.
Qed.
Lemma C24_missing_limit_distribution_holds : forall r st rvs level v,
  st_execute st rvs = Ok v -> r st (length rvs) = Ok None ->
  gof_test (PValueMethod r) st rvs level = Raise ValueError /\
  gof_test (CriticalValueMethod r) st rvs level = Raise ValueError.
Proof.
  intros r st rvs level v Hv Hr. unfold gof_test. rewrite Hv. simpl.
  unfold p_value_decide, critical_value_decide. rewrite Hr. auto.
Qed.
(** exactly one of the two fields is set in every successful result *)
Lemma C24_exactly_one_field_holds : forall m st rvs level res, gof_test m st rvs level = Ok res ->
  st_execute st rvs = Ok (tr_statistic res) /\ tr_level res = level /\
  (tr_p_value res = None <-> tr_critical_value res <> None).
Proof.
  intros m st rvs level res. unfold gof_test.
  destruct (st_execute st rvs) as [v|] eqn:Ev; simpl; [|discriminate].
  destruct m as [r|r]; simpl; unfold p_value_decide, critical_value_decide;
    destruct (r st (length rvs)) as [[limit|]|]; simpl; try discriminate.
  - intros E; injection E as <-. simpl. repeat split; intros; congruence.
  - destruct (critical_value_of (st_alternative st) limit level) as [cv|]; simpl; [|discriminate].
    destruct (area_contains (st_alternative st) cv v) as [b|]; simpl; [|discriminate].
    intros E; injection E as <-. simpl. repeat split; intros; congruence.
Qed.
Lemma C24_nonvacuous_holds : st_execute (plain RIGHT) [1; 2; 3] = Ok 2.
Proof. simpl. unfold mean, len, Rsum. simpl. f_equal. lra. Qed.

(** *** C25 *)
Lemma C25_constructor_and_size_checks_holds : forall (S : Type) (gen : generator S) count st size s,
  (monte_carlo_ctor count = Raise ValueError <-> (count <= 0)%Z) /\
  ((size <= 0)%Z -> monte_carlo_resolve gen count st size s = Raise ValueError).
Proof.
  intros. unfold monte_carlo_ctor, monte_carlo_resolve. split.
  - destruct (Z.leb_spec count 0); split; intros; auto; try lia; discriminate.
  - intros H. destruct (Z.leb_spec size 0); [reflexivity|lia].
Qed.
Lemma C25_monte_carlo_values_holds : forall (S : Type) (gen : generator S) count st size s vs s',
  (0 < count)%Z -> (0 < size)%Z -> monte_carlo_resolve gen count st size s = Ok (vs, s') ->
  Z.of_nat (length vs) = count /\
  (* the i-th value is the statistic of the i-th sample drawn, each draw of the requested size *)
  forall i, (i < length vs)%nat ->
    st_execute st (fst (gen (Z.to_nat size) (gen_state gen (Z.to_nat size) i s))) = Ok (nth i vs 0).
Proof.
  intros S gen count st size s vs s' Hc Hs. unfold monte_carlo_resolve.
  destruct (Z.leb_spec size 0); [lia|]. intros H'.
  destruct (monte_carlo_loop_spec _ _ _ _ _ _ _ H') as (L & _ & Hi).
  split; [lia|]. intros i Hlt. apply Hi. lia.
Qed.
Lemma C25_monte_carlo_total_holds : forall (S : Type) (gen : generator S) count st size s,
  (0 < size)%Z -> (forall x, exists v, st_execute st x = Ok v) ->
  exists r, monte_carlo_resolve gen count st size s = Ok r.
Proof.
  intros S gen count st size s Hs Ht. unfold monte_carlo_resolve.
  destruct (Z.leb_spec size 0); [lia|]. apply monte_carlo_loop_total, Ht.
Qed.
Lemma C25_nonvacuous_holds :
  let gen : generator nat := fun n k => (repeat (INR k) n, Datatypes.S k) in
  exists v, monte_carlo_resolve gen 2 (plain RIGHT) 1 0%nat = Ok (v, 2%nat) /\ v = [0; 1].
Proof. eexists. split; [reflexivity|]. simpl. unfold mean, len, Rsum. simpl. list_eq. Qed.
