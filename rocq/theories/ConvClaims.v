(** Property C118: Monte-Carlo decisions converge to the decisions of the exact test. *)
From Verif Require Import Base ProbSpec ProbProofs DecModel DecSpec DecProofs DecMoreProofs SizeSpec SizeClaims ConvSpec.
From Coq Require Import Permutation Lra Lia ListDec.

Section Chebyshev.
Context {Om : Type} (E : (Om -> R) -> R) (HE : is_expectation E).
Lemma bounded_mult (f g : Om -> R) : bounded f -> bounded g -> bounded (fun w => f w * g w).
Proof.
  intros [M HM] [N HN]. exists (M * N). intros w. rewrite Rabs_mult. apply Rmult_le_compat; try apply Rabs_pos; auto.
Qed.
Lemma markov (f : Om -> R) (A : Om -> bool) t : bounded f -> 0 < t -> (forall w, 0 <= f w) -> (forall w, A w = true -> t <= f w) -> Pr E A <= E f / t.
Proof.
  intros Hb Ht Hp HA. apply (Rmult_le_reg_r t); [exact Ht|]. replace (E f / t * t) with (E f) by (field; lra).
  unfold Pr. rewrite Rmult_comm, <- (E_scal E HE) by apply bounded_ind. apply (E_mono E HE).
  - apply bounded_scal, bounded_ind.
  - exact Hb.
  - intros w. destruct (A w) eqn:EA; simpl; [rewrite Rmult_1_r; now apply HA|rewrite Rmult_0_r; apply Hp].
Qed.
(** pairwise uncorrelated events of the same probability: the variance of their number *)
Lemma second_moment (A : nat -> Om -> bool) n p : (forall i, (i < n)%nat -> Pr E (A i) = p) ->
  (forall i j, (i < n)%nat -> (j < n)%nat -> i <> j -> Pr E (fun w => A i w && A j w) = p * p) ->
  E (fun w => (Rsum (map (fun i => ind (A i w) - p) (seq 0 n))) ^ 2) = INR n * (p * (1 - p)).
Proof.
  intros H1 H2.
  assert (B1 : forall i, bounded (fun w => ind (A i w) - p)).
  { intros i. apply (bounded_between _ (0 - p) (1 - p)). intros w. pose proof (ind_range (A i w)). lra. }
  assert (C : forall i j, (i < n)%nat -> (j < n)%nat -> E (fun w => (ind (A i w) - p) * (ind (A j w) - p)) = if Nat.eqb i j then p * (1 - p) else 0).
  { intros i j Hi Hj.
    rewrite (E_ext E HE _ (fun w => 1 * ind (A i w && A j w) + 1 * (- p * ind (A i w) + 1 * (- p * ind (A j w) + (p * p) * 1)))).
    - rewrite (E_lin E HE) by (try apply bounded_ind; repeat apply bounded_plus; repeat apply bounded_scal; repeat apply bounded_plus; repeat apply bounded_scal; try apply bounded_ind; apply bounded_const).
      rewrite (E_lin E HE) by (try apply bounded_ind; repeat apply bounded_plus; repeat apply bounded_scal; try apply bounded_ind; apply bounded_const).
      rewrite (E_lin E HE (- p) (p * p)) by (try apply bounded_ind; apply bounded_const).
      rewrite (E_one E HE). fold (Pr E (A i)) (Pr E (A j)) (Pr E (fun w => A i w && A j w)). rewrite (H1 i Hi), (H1 j Hj).
      destruct (Nat.eqb_spec i j) as [->|N]; [|rewrite (H2 i j Hi Hj N); ring].
      replace (Pr E (fun w => A j w && A j w)) with p; [ring|]. rewrite <- (H1 j Hj). unfold Pr. apply (E_ext E HE); try apply bounded_ind. intros w. now rewrite andb_diag.
    - now apply bounded_mult.
    - repeat apply bounded_plus; repeat apply bounded_scal; repeat apply bounded_plus; repeat apply bounded_scal; try apply bounded_ind; repeat apply bounded_plus; repeat apply bounded_scal; try apply bounded_ind; apply bounded_const.
    - intros w. destruct (A i w), (A j w); simpl; ring. }
  rewrite (E_ext E HE _ (fun w => Rsum (map (fun i => Rsum (map (fun j => (ind (A i w) - p) * (ind (A j w) - p)) (seq 0 n))) (seq 0 n)))).
  - rewrite (E_sum E HE (fun i w => Rsum (map (fun j => (ind (A i w) - p) * (ind (A j w) - p)) (seq 0 n)))).
    + rewrite (Rsum_map_ext _ (fun _ => p * (1 - p))).
      * rewrite Rsum_map_const, seq_length. reflexivity.
      * intros i Hi. apply in_seq in Hi. rewrite (E_sum E HE (fun j w => (ind (A i w) - p) * (ind (A j w) - p))) by (intros; now apply bounded_mult).
        rewrite (Rsum_map_ext _ (fun j => if Nat.eqb i j then p * (1 - p) else 0)) by (intros j Hj; apply in_seq in Hj; apply C; lia).
        assert (G : forall l, NoDup l -> In i l -> Rsum (map (fun j => if Nat.eqb i j then p * (1 - p) else 0) l) = p * (1 - p)).
        { induction l as [|a l IH]; intros Hd Hin; [destruct Hin|]. inversion Hd; subst. simpl. destruct (Nat.eqb_spec i a) as [->|N].
          - rewrite (Rsum_map_ext _ (fun _ => 0)); [rewrite Rsum_map_const; ring|]. intros j Hj. destruct (Nat.eqb_spec a j) as [->|_]; [contradiction|reflexivity].
          - destruct Hin as [->|Hin]; [lia|]. rewrite IH by auto. ring. }
        apply G; [apply seq_NoDup|apply in_seq; lia].
    + intros i _. apply bounded_sum. intros j _. now apply bounded_mult.
  - simpl. apply bounded_mult; [now apply bounded_sum; intros; apply B1|]. apply bounded_mult; [now apply bounded_sum; intros; apply B1|apply bounded_const].
  - apply bounded_sum. intros i _. apply bounded_sum. intros j _. now apply bounded_mult.
  - intros w. rewrite (Rsum_map_ext (fun i => Rsum (map (fun j => (ind (A i w) - p) * (ind (A j w) - p)) (seq 0 n))) (fun i => Rsum (map (fun j => ind (A j w) - p) (seq 0 n)) * (ind (A i w) - p))).
    + rewrite Rsum_map_scal. simpl. ring.
    + intros i _. rewrite Rsum_map_scal. apply Rmult_comm.
Qed.
Lemma sum_ind (A : nat -> bool) p l : Rsum (map (fun i => ind (A i) - p) l) = INR (count A l) - INR (length l) * p.
Proof.
  induction l as [|i l IH]; [simpl; ring|]. change (length (i :: l)) with (S (length l)). rewrite count_cons, plus_INR, (S_INR (length l)). simpl map. simpl Rsum. rewrite IH. destruct (A i); simpl; ring.
Qed.
Lemma chebyshev (A : nat -> Om -> bool) (B : Om -> bool) n p eps : (0 < n)%nat -> 0 < eps -> (forall i, (i < n)%nat -> Pr E (A i) = p) ->
  (forall i j, (i < n)%nat -> (j < n)%nat -> i <> j -> Pr E (fun w => A i w && A j w) = p * p) ->
  (forall w, B w = true -> eps <= Rabs (INR (count (fun i => A i w) (seq 0 n)) / INR n - p)) ->
  Pr E B <= / (4 * INR n * eps ^ 2).
Proof.
  intros Hn He H1 H2 HB. assert (P : 0 < INR n) by (apply INR_pos; exact Hn). assert (Q : 0 < eps ^ 2) by (apply pow_lt; exact He).
  apply Rle_trans with (E (fun w => (Rsum (map (fun i => ind (A i w) - p) (seq 0 n))) ^ 2) / (INR n * eps) ^ 2).
  - apply markov.
    + assert (B1 : bounded (fun w => Rsum (map (fun i => ind (A i w) - p) (seq 0 n)))).
      { apply bounded_sum. intros i _. apply (bounded_between _ (0 - p) (1 - p)). intros w. pose proof (ind_range (A i w)). lra. }
      simpl. apply bounded_mult; [exact B1|]. apply bounded_mult; [exact B1|apply bounded_const].
    + apply pow_lt. nra.
    + intros w. apply pow2_ge_0.
    + intros w Hw. specialize (HB w Hw). rewrite sum_ind, seq_length. set (k := INR (count _ _)) in *.
      rewrite <- (pow2_abs (k - INR n * p)). apply pow_incr. split; [nra|].
      replace (k - INR n * p) with (INR n * (k / INR n - p)) by (field; lra). rewrite Rabs_mult, (Rabs_pos_eq (INR n)) by lra. apply Rmult_le_compat_l; lra.
  - rewrite (second_moment A n p H1 H2). 
    replace (INR n * (p * (1 - p)) / (INR n * eps) ^ 2) with ((p * (1 - p)) * 4 * / (4 * INR n * eps ^ 2)) by (field; split; lra).
    assert (I : 0 < / (4 * INR n * eps ^ 2)) by (apply Rinv_0_lt_compat; nra).
    assert (p * (1 - p) * 4 <= 1) by (pose proof (pow2_ge_0 (2 * p - 1)); nra). nra.
Qed.
(** the fraction of draws up to v *)
Lemma fraction_chebyshev n S F v (B : Om -> bool) eps : independent_draws E n S F -> (0 < n)%nat -> 0 < eps ->
  (forall w, B w = true -> eps <= Rabs (fraction (fun y => Rleb y v) (draws n S w) - F v)) -> Pr E B <= / (4 * INR n * eps ^ 2).
Proof.
  intros [HL HP] Hn He HB. apply (chebyshev (fun i w => Rleb (S i w) v) B n (F v) eps Hn He).
  - intros i Hi. now apply HL.
  - intros i j Hi Hj N. now apply HP.
  - intros w Hw. specialize (HB w Hw). unfold fraction, draws in HB. rewrite map_length, seq_length in HB.
    replace (count (fun i => Rleb (S i w) v) (seq 0 n)) with (count (fun y => Rleb y v) (map (fun i => S i w) (seq 0 n))); [exact HB|].
    clear. induction (seq 0 n) as [|i l IH]; [reflexivity|]. simpl map. rewrite !count_cons, IH. reflexivity.
Qed.
End Chebyshev.

Lemma p_value_deviation F alt l v : Rabs (p_value_of alt l v - exact_p_value F alt v) <=
  (match alt with TWO_TAILED => 2 | _ => 1 end) * Rabs (fraction (fun y => Rleb y v) l - F v).
Proof.
  destruct alt; simpl; unfold left_p_value, right_p_value, two_sided_p_value; rewrite ecdf_is_fraction; set (f := fraction _ l).
  - replace (1 - f - (1 - F v)) with (- (f - F v)) by ring. rewrite Rabs_Ropp. lra.
  - lra.
  - unfold Rmin. unfold Rabs. destruct (Rle_dec f (1 - f)), (Rle_dec (F v) (1 - F v)), (Rcase_abs (f - F v));
      repeat match goal with |- context [Rcase_abs ?x] => destruct (Rcase_abs x) end; lra.
Qed.
Lemma Pr_or {Om} (E : (Om -> R) -> R) (HE : is_expectation E) A B : Pr E (fun w => A w || B w) <= Pr E A + Pr E B.
Proof.
  unfold Pr. rewrite <- (E_plus E HE) by apply bounded_ind. apply (E_mono E HE); [apply bounded_ind|apply bounded_plus; apply bounded_ind|].
  intros w. destruct (A w), (B w); simpl; lra.
Qed.
Lemma inv_square a b x : 0 < a -> 0 < x -> / (4 * x * (a * b) ^ 2) = / (4 * a ^ 2) * / (x * b ^ 2).
Proof. intros Ha Hx. destruct (Req_dec b 0) as [->|Hb]; [|field; repeat split; lra]. rewrite Rmult_0_r, !pow_i, !Rmult_0_r, Rinv_0 by lia. ring. Qed.

(** p-values: the computed one is within eps of the exact one, up to a probability of order 1/n *)
Lemma C118_p_value_converges_holds : forall (Om : Type) (E : (Om -> R) -> R) n S F alt v eps,
  is_expectation E -> independent_draws E n S F -> (0 < n)%nat -> 0 < eps ->
  Pr E (fun w => Rleb eps (Rabs (p_value_of alt (draws n S w) v - exact_p_value F alt v))) <=
  match alt with TWO_TAILED => 1 | _ => 1 / 4 end / (INR n * eps ^ 2).
Proof.
  intros Om E n S F alt v eps HE HI Hn He. assert (P : 0 < INR n) by (apply INR_pos; exact Hn).
  set (a := match alt with TWO_TAILED => / 2 | _ => 1 end). assert (Ha : 0 < a) by (unfold a; destruct alt; lra).
  apply Rle_trans with (/ (4 * INR n * (a * eps) ^ 2)).
  - apply (fraction_chebyshev E HE n S F v _ (a * eps) HI Hn); [nra|]. intros w Hw. apply Rleb_true in Hw.
    pose proof (p_value_deviation F alt (draws n S w) v) as D. unfold a. destruct alt; lra.
  - right. rewrite (inv_square a eps (INR n) Ha P). unfold a. destruct alt; field; lra.
Qed.
(** decisions by p-values: rejecting is unlikely if the exact p-value exceeds the level, accepting if it is below *)
Lemma C118_p_value_decision_holds : forall (Om : Type) (E : (Om -> R) -> R) n S F st v level eps k,
  is_expectation E -> independent_draws E n S F -> (0 < n)%nat -> 0 < eps ->
  (level + eps <= exact_p_value F (st_alternative st) v -> Pr E (fun w => test_rejects PValueMethod st level k (draws n S w) v) <= 1 / (INR n * eps ^ 2)) /\
  (exact_p_value F (st_alternative st) v <= level - eps -> Pr E (fun w => negb (test_rejects PValueMethod st level k (draws n S w) v)) <= 1 / (INR n * eps ^ 2)).
Proof.
  intros Om E n S F st v level eps k HE HI Hn He. assert (P : 0 < INR n) by (apply INR_pos; exact Hn).
  assert (Q : 0 < / (INR n * eps ^ 2)) by (apply Rinv_0_lt_compat, Rmult_lt_0_compat; [exact P|apply pow_lt; exact He]).
  pose proof (C118_p_value_converges_holds Om E n S F (st_alternative st) v eps HE HI Hn He) as C.
  assert (C' : Pr E (fun w => Rleb eps (Rabs (p_value_of (st_alternative st) (draws n S w) v - exact_p_value F (st_alternative st) v))) <= 1 / (INR n * eps ^ 2)).
  { apply (Rle_trans _ _ _ C). unfold Rdiv. destruct (st_alternative st); lra. }
  split; intros H; (apply Rle_trans with (2 := C')); apply (Pr_mono E HE); intros w Hw; rewrite p_test in Hw; unfold reject_p in Hw; apply Rleb_true.
  - apply Rleb_true in Hw. rewrite Rabs_left1 by lra. lra.
  - apply negb_true_iff, Rleb_false in Hw. rewrite Rabs_pos_eq by lra. lra.
Qed.
Lemma right_fraction l v : l <> [] -> INR (count (fun y => Rltb v y) l) = INR (length l) * (1 - fraction (fun y => Rleb y v) l).
Proof.
  intros Ne. assert (0 < INR (length l)) by (apply INR_pos; destruct l; [contradiction|simpl; lia]). unfold fraction.
  assert (C : (count (fun y => Rltb v y) l + count (fun y => Rleb y v) l = length l)%nat).
  { clear. induction l as [|a l IH]; [reflexivity|]. rewrite !count_cons. simpl length.
    destruct (Rltb v a) eqn:E1, (Rleb a v) eqn:E2; try lia; [apply Rltb_true in E1; apply Rleb_true in E2|apply Rltb_false in E1; apply Rleb_false in E2]; lra. }
  assert (G : INR (count (fun y => Rltb v y) l) + INR (count (fun y => Rleb y v) l) = INR (length l)) by (rewrite <- plus_INR, C; reflexivity).
  replace (INR (count (fun y => Rltb v y) l)) with (INR (length l) - INR (count (fun y => Rleb y v) l)) by lra. field. lra.
Qed.
(** what a decision by critical values says about the fraction of values up to v *)
Lemma right_cv_reject l level v : NoDup l -> l <> [] -> 0 <= level <= 1 ->
  (Rltb (cvh l (1 - level)) v = true -> 1 - fraction (fun y => Rleb y v) l <= level + / INR (length l)) /\
  (Rltb (cvh l (1 - level)) v = false -> level - / INR (length l) <= 1 - fraction (fun y => Rleb y v) l).
Proof.
  intros Hd Ne Hl. assert (P : 0 < INR (length l)) by (apply INR_pos; destruct l; [contradiction|simpl; lia]).
  destruct (right_cv_tail l level _ Hd Ne Hl (right_cv_ok l level Ne Hl)) as [A B]. pose proof (right_fraction l v Ne) as R.
  rewrite minus_INR in A, B by (destruct l; [contradiction|simpl; lia]). simpl (INR 1) in A, B.
  assert (I : INR (length l) * / INR (length l) = 1) by (field; lra).
  split; intros H.
  - apply Rltb_true in H. assert (M : INR (count (fun y => Rltb v y) l) <= INR (count (fun y => Rltb (cvh l (1 - level)) y) l)).
    { apply le_INR, count_mono. intros y _ Hy. apply Rltb_true in Hy. apply Rltb_true. lra. }
    apply (Rmult_le_reg_l (INR (length l))); [exact P|]. rewrite <- R, Rmult_plus_distr_l, I. nra.
  - apply Rltb_false in H. assert (M : INR (count (fun y => Rltb (cvh l (1 - level)) y) l) <= INR (count (fun y => Rltb v y) l)).
    { apply le_INR, count_mono. intros y _ Hy. apply Rltb_true in Hy. apply Rltb_true. lra. }
    apply (Rmult_le_reg_l (INR (length l))); [exact P|]. rewrite <- R, Rmult_minus_distr_l, I. nra.
Qed.
Lemma left_cv_reject l level v : NoDup l -> l <> [] -> 0 <= level <= 1 ->
  (Rltb v (cvh l level) = true -> fraction (fun y => Rleb y v) l <= level + / INR (length l)) /\
  (Rltb v (cvh l level) = false -> level - / INR (length l) <= fraction (fun y => Rleb y v) l).
Proof.
  intros Hd Ne Hl. assert (P : 0 < INR (length l)) by (apply INR_pos; destruct l; [contradiction|simpl; lia]).
  destruct (left_cv_tail l level _ Hd Ne Hl (left_cv_ok l level Ne Hl)) as [A B].
  assert (R : INR (count (fun y => Rleb y v) l) = INR (length l) * fraction (fun y => Rleb y v) l) by (unfold fraction; field; lra).
  rewrite minus_INR in A, B by (destruct l; [contradiction|simpl; lia]). simpl (INR 1) in A, B.
  assert (I : INR (length l) * / INR (length l) = 1) by (field; lra).
  split; intros H.
  - apply Rltb_true in H. assert (M : INR (count (fun y => Rleb y v) l) <= INR (count (fun y => Rltb y (cvh l level)) l)).
    { apply le_INR, count_mono. intros y _ Hy. apply Rleb_true in Hy. apply Rltb_true. lra. }
    apply (Rmult_le_reg_l (INR (length l))); [exact P|]. rewrite <- R, Rmult_plus_distr_l, I. nra.
  - apply Rltb_false in H. assert (M : INR (count (fun y => Rltb y (cvh l level)) l) <= INR (count (fun y => Rleb y v) l)).
    { apply le_INR, count_mono. intros y _ Hy. apply Rltb_true in Hy. apply Rleb_true. lra. }
    apply (Rmult_le_reg_l (INR (length l))); [exact P|]. rewrite <- R, Rmult_minus_distr_l, I. nra.
Qed.
(** decisions by critical values, up to the probability of ties *)
Lemma C118_critical_value_decision_holds : forall (Om : Type) (E : (Om -> R) -> R) n S F st v level eps k,
  is_expectation E -> independent_draws E n S F -> 0 < eps -> 4 <= INR n * eps -> 0 <= level <= 1 ->
  (level + eps <= exact_p_value F (st_alternative st) v ->
     Pr E (fun w => test_rejects CriticalValueMethod st level k (draws n S w) v) <= 4 / (INR n * eps ^ 2) + Pr E (fun w => has_ties (draws n S w))) /\
  (exact_p_value F (st_alternative st) v <= level - eps ->
     Pr E (fun w => negb (test_rejects CriticalValueMethod st level k (draws n S w) v)) <= 4 / (INR n * eps ^ 2) + Pr E (fun w => has_ties (draws n S w))).
Proof.
  intros Om E n S F st v level eps k HE HI He Hne Hl.
  assert (Hn : (0 < n)%nat) by (destruct n; [simpl in Hne; lra|lia]). assert (P : 0 < INR n) by (apply INR_pos; exact Hn).
  assert (IN : / INR n <= eps / 4) by (apply (Rmult_le_reg_l (INR n)); [exact P|]; rewrite Rinv_r by lra; lra).
  set (D := fun w => Rleb (eps / 4) (Rabs (fraction (fun y => Rleb y v) (draws n S w) - F v))).
  assert (C : Pr E D <= 4 / (INR n * eps ^ 2)).
  { replace (4 / (INR n * eps ^ 2)) with (/ (4 * INR n * (eps / 4) ^ 2)) by (field; lra).
    apply (fraction_chebyshev E HE n S F v D (eps / 4) HI Hn); [lra|]. intros w Hw. now apply Rleb_true in Hw. }
  assert (LD : forall w, length (draws n S w) = n) by (intros w; unfold draws; rewrite map_length; apply seq_length).
  assert (ND : forall w, draws n S w <> []) by (intros w EE; specialize (LD w); rewrite EE in LD; simpl in LD; lia).
  assert (K : forall A : Om -> bool, (forall w, NoDup (draws n S w) -> A w = true -> eps / 4 <= Rabs (fraction (fun y => Rleb y v) (draws n S w) - F v)) ->
    Pr E A <= 4 / (INR n * eps ^ 2) + Pr E (fun w => has_ties (draws n S w))).
  { intros A HA. apply Rle_trans with (Pr E (fun w => D w || has_ties (draws n S w))).
    - apply (Pr_mono E HE). intros w Hw. unfold has_ties. destruct (NoDup_dec Req_EM_T (draws n S w)) as [Hd|]; [|apply orb_true_r].
      rewrite (proj2 (Rleb_true _ _) (HA w Hd Hw) : D w = true). reflexivity.
    - apply (Rle_trans _ _ _ (Pr_or E HE _ _)). lra. }
  split; intros H; apply K; clear K; intros w Hd Hw; rewrite cv_test in Hw by auto;
    set (f := fraction (fun y => Rleb y v) (draws n S w)); destruct (st_alternative st) eqn:EA; cbn [exact_p_value] in H; unfold cvr, cvl in Hw;
    try apply negb_true_iff in Hw.
  - apply (proj1 (right_cv_reject _ level v Hd (ND w) ltac:(lra))) in Hw. rewrite LD in Hw. fold f in Hw. rewrite Rabs_pos_eq; lra.
  - apply (proj1 (left_cv_reject _ level v Hd (ND w) ltac:(lra))) in Hw. rewrite LD in Hw. fold f in Hw. rewrite Rabs_left1; lra.
  - pose proof (Rmin_l (F v) (1 - F v)). pose proof (Rmin_r (F v) (1 - F v)). apply orb_true_iff in Hw. destruct Hw as [Hw|Hw].
    + apply (proj1 (left_cv_reject _ (level / 2) v Hd (ND w) ltac:(lra))) in Hw. rewrite LD in Hw. fold f in Hw. rewrite Rabs_left1; lra.
    + apply (proj1 (right_cv_reject _ (level / 2) v Hd (ND w) ltac:(lra))) in Hw. rewrite LD in Hw. fold f in Hw. rewrite Rabs_pos_eq; lra.
  - apply (proj2 (right_cv_reject _ level v Hd (ND w) ltac:(lra))) in Hw. rewrite LD in Hw. fold f in Hw. rewrite Rabs_left1; lra.
  - apply (proj2 (left_cv_reject _ level v Hd (ND w) ltac:(lra))) in Hw. rewrite LD in Hw. fold f in Hw. rewrite Rabs_pos_eq; lra.
  - apply orb_false_iff in Hw. destruct Hw as [H1 H2].
    apply (proj2 (left_cv_reject _ (level / 2) v Hd (ND w) ltac:(lra))) in H1. apply (proj2 (right_cv_reject _ (level / 2) v Hd (ND w) ltac:(lra))) in H2.
    rewrite LD in H1, H2. fold f in H1, H2. revert H. unfold Rmin. destruct (Rle_dec (F v) (1 - F v)); intros H; [rewrite Rabs_pos_eq|rewrite Rabs_left1]; lra.
Qed.
(** one number of simulated values suffices for all laws, statistics and levels that stay eps away from the exact p-value:
    the decision is the one with the exact p-value, up to the probability delta *)
Lemma C118_consistent_holds : forall eps delta, 0 < eps -> 0 < delta -> exists N, forall n, (N <= n)%nat ->
  forall (Om : Type) (E : (Om -> R) -> R) S F st v level k,
  is_expectation E -> independent_draws E n S F -> 0 <= level <= 1 -> eps <= Rabs (exact_p_value F (st_alternative st) v - level) ->
  let wrong m w := xorb (test_rejects m st level k (draws n S w) v) (Rleb (exact_p_value F (st_alternative st) v) level) in
  Pr E (wrong PValueMethod) <= delta /\
  Pr E (wrong CriticalValueMethod) <= delta + Pr E (fun w => has_ties (draws n S w)).
Proof.
  intros eps delta He Hd. destruct (archimed_cor1 (Rmin (eps / 4) (delta * eps ^ 2 / 4))) as (N & HN & HN0).
  { apply Rmin_pos; [lra|]. pose proof (pow_lt eps 2 He). apply Rmult_lt_0_compat; [nra|lra]. }
  exists N. intros n Hn Om E S F st v level k HE HI Hl Ha wrong.
  assert (P0 : 0 < INR N) by (apply INR_pos; lia). assert (P : INR N <= INR n) by (apply le_INR; exact Hn). assert (Hn0 : (0 < n)%nat) by lia.
  assert (IN : / INR n <= / INR N) by (apply Rinv_le_contravar; lra).
  pose proof (Rmin_l (eps / 4) (delta * eps ^ 2 / 4)). pose proof (Rmin_r (eps / 4) (delta * eps ^ 2 / 4)). pose proof (pow_lt eps 2 He) as Q.
  assert (N4 : 4 <= INR n * eps).
  { assert (I : INR n * / INR n = 1) by (field; lra). assert (INR n * / INR n <= INR n * (eps / 4)) by (apply Rmult_le_compat_l; lra). lra. }
  assert (D4 : 4 / (INR n * eps ^ 2) <= delta).
  { replace (4 / (INR n * eps ^ 2)) with (/ INR n * (4 / eps ^ 2)) by (field; split; lra).
    apply Rle_trans with ((delta * eps ^ 2 / 4) * (4 / eps ^ 2)); [apply Rmult_le_compat_r; [apply Rlt_le, Rdiv_lt_0_compat; lra|lra]|]. right. field. lra. }
  assert (D1 : 1 / (INR n * eps ^ 2) <= delta).
  { apply Rle_trans with (2 := D4). unfold Rdiv. apply Rmult_le_compat_r; [|lra]. apply Rlt_le, Rinv_0_lt_compat. nra. }
  destruct (C118_p_value_decision_holds Om E n S F st v level eps k HE HI Hn0 He) as [A1 A2].
  destruct (C118_critical_value_decision_holds Om E n S F st v level eps k HE HI He N4 Hl) as [B1 B2].
  assert (X : forall m, exact_p_value F (st_alternative st) v <= level -> forall w, wrong m w = negb (test_rejects m st level k (draws n S w) v)).
  { intros m HX w. unfold wrong. rewrite (proj2 (Rleb_true _ _) HX). apply xorb_true_r. }
  assert (Y : forall m, level < exact_p_value F (st_alternative st) v -> forall w, wrong m w = test_rejects m st level k (draws n S w) v).
  { intros m HX w. unfold wrong. rewrite (proj2 (Rleb_false _ _) HX). apply xorb_false_r. }
  assert (EX : forall A B : Om -> bool, (forall w, A w = B w) -> Pr E A <= Pr E B) by (intros A B HAB; apply (Pr_mono E HE); intros w; now rewrite HAB).
  destruct (Rle_or_lt (exact_p_value F (st_alternative st) v) level) as [L|L].
  - rewrite Rabs_left1 in Ha by lra. split.
    + apply (Rle_trans _ _ _ (EX _ _ (X PValueMethod L))). apply Rle_trans with (2 := D1). apply A2. lra.
    + apply (Rle_trans _ _ _ (EX _ _ (X CriticalValueMethod L))). apply (Rle_trans _ _ _ (B2 ltac:(lra))). lra.
  - rewrite Rabs_pos_eq in Ha by lra. split.
    + apply (Rle_trans _ _ _ (EX _ _ (Y PValueMethod L))). apply Rle_trans with (2 := D1). apply A1. lra.
    + apply (Rle_trans _ _ _ (EX _ _ (Y CriticalValueMethod L))). apply (Rle_trans _ _ _ (B1 ltac:(lra))). lra.
Qed.
(** two independent fair coins *)
Definition coins : list (R * (bool * bool)) := map (fun w => (1 / 4, w)) [(true, true); (true, false); (false, true); (false, false)].
Definition coin (i : nat) (w : bool * bool) : R := ind (if Nat.eqb i 0 then fst w else snd w).
Definition coin_law (x : R) : R := if Rltb x 0 then 0 else if Rltb x 1 then 1 / 2 else 1.
Lemma C118_nonvacuous_coins_holds : is_expectation (finite_expectation coins) /\ independent_draws (finite_expectation coins) 2 coin coin_law /\
  exact_p_value coin_law RIGHT 0 = 1 / 2.
Proof.
  split; [|split].
  - apply finite_is_expectation. split; [|simpl; lra]. intros p Hp. apply in_map_iff in Hp. destruct Hp as (w & <- & _). simpl. lra.
  - assert (C0 : forall x, Rleb 0 x = negb (Rltb x 0)).
    { intros x. destruct (Rltb x 0) eqn:E; [apply Rltb_true in E; apply Rleb_false; lra|apply Rltb_false in E; apply Rleb_true; lra]. }
    assert (C1 : forall x, Rleb 1 x = negb (Rltb x 1)).
    { intros x. destruct (Rltb x 1) eqn:E; [apply Rltb_true in E; apply Rleb_false; lra|apply Rltb_false in E; apply Rleb_true; lra]. }
    assert (C2 : forall x, Rltb x 0 = true -> Rltb x 1 = true) by (intros x E; apply Rltb_true in E; apply Rltb_true; lra).
    constructor.
    + intros i x Hi. unfold Pr, finite_expectation, coins, coin, coin_law. simpl. pose proof (C2 x) as Hx. destruct (Nat.eqb i 0); simpl; rewrite C0, C1; destruct (Rltb x 0), (Rltb x 1); simpl; try lra; discriminate (Hx eq_refl).
    + intros i j x y Hi Hj N. unfold Pr, finite_expectation, coins, coin, coin_law. simpl. pose proof (C2 x) as Hx. pose proof (C2 y) as Hy.
      destruct (Nat.eqb_spec i 0) as [->|Ni]; destruct (Nat.eqb_spec j 0) as [->|Nj]; try lia; simpl; rewrite !C0, !C1;
        destruct (Rltb x 0), (Rltb x 1), (Rltb y 0), (Rltb y 1); simpl; try lra; try discriminate (Hx eq_refl); discriminate (Hy eq_refl).
  - simpl. unfold coin_law. rewrite (proj2 (Rltb_false 0 0)), (proj2 (Rltb_true 0 1)) by lra. lra.
Qed.
