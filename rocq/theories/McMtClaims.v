(** Property C120: corrections of Monte-Carlo p-values control the error rate up to m/n. *)
From Verif Require Import Base MTModel MTSpec MTProofs ProbSpec ProbProofs MTErrorSpec MTErrorProofs DecModel DecSpec DecProofs DecMoreProofs SizeSpec SizeClaims ConvSpec ConvClaims McMtSpec.
From Coq Require Import Permutation Lra Lia.

Lemma nth_mc {Om} m alt Z (w : Om) i : (i < m)%nat -> nth i (mc_p_values m alt Z w) 0 = p_value_of (alt i) (tl (Z i w)) (hd 0 (Z i w)).
Proof.
  intros Hi. unfold mc_p_values. rewrite (nth_indep _ 0 ((fun i => p_value_of (alt i) (tl (Z i w)) (hd 0 (Z i w))) 0%nat)) by (rewrite map_length, seq_length; exact Hi).
  rewrite (map_nth (fun i => p_value_of (alt i) (tl (Z i w)) (hd 0 (Z i w)))). rewrite seq_nth by exact Hi. reflexivity.
Qed.
Lemma mc_length {Om} m alt Z (w : Om) : length (mc_p_values m alt Z w) = m.
Proof. unfold mc_p_values. rewrite map_length. apply seq_length. Qed.
Lemma mc_pvalues {Om} n m alt Z (w : Om) : (0 < n)%nat -> (forall i, (i < m)%nat -> length (Z i w) = S n) -> pvalues (mc_p_values m alt Z w).
Proof.
  intros Hn HL x Hx. apply in_map_iff in Hx. destruct Hx as (i & <- & Hi). apply in_seq in Hi. specialize (HL i ltac:(lia)).
  assert (Ne : tl (Z i w) <> []) by (destruct (Z i w) as [|a [|b l]]; simpl in *; [lia|lia|discriminate]).
  pose proof (ecdf_range (tl (Z i w)) (hd 0 (Z i w)) Ne) as R. unfold p_value_of, left_p_value, right_p_value, two_sided_p_value. destruct (alt i); try lra.
  unfold Rmin. destruct (Rle_dec _ _); lra.
Qed.
Lemma mc_tail (Om : Type) (E : (Om -> R) -> R) n alt Z c : is_expectation E -> exchangeable E (S n) Z -> (0 < n)%nat -> (forall w, NoDup (Z w)) -> 0 <= c <= 1 ->
  Pr E (fun w => Rltb (p_value_of alt (tl (Z w)) (hd 0 (Z w))) c) <= c + 2 / INR (S n).
Proof.
  intros HE HX Hn Hd Hc. assert (P : 0 < INR (S n)) by (apply INR_pos; lia). assert (I : 0 < / INR (S n)) by (now apply Rinv_0_lt_compat).
  apply Rle_trans with (size_of_test E Z PValueMethod (plain alt) c 0).
  - apply (Pr_mono E HE). intros w Hw. rewrite p_test. unfold reject_p. apply Rleb_true. apply Rltb_true in Hw. change (st_alternative (plain alt)) with alt. lra.
  - destruct (C117_p_value_size_holds Om E n Z (plain alt) c 0 HE HX Hn Hd Hc) as [A B]. unfold Rdiv in *. destruct alt.
    + destruct (A ltac:(unfold one_sided; discriminate)) as [_ U]. nra.
    + destruct (A ltac:(unfold one_sided; discriminate)) as [_ U]. nra.
    + destruct (B eq_refl) as [_ U]. nra.
Qed.
(** Bonferroni: the excess over the threshold is at most 2/(n+1) for every true hypothesis *)
Lemma C120_bonferroni_fwer_holds : forall (Om : Type) (E : (Om -> R) -> R) n m alt Z nulls t,
  is_expectation E -> (0 < n)%nat -> (0 < m)%nat -> 0 <= t <= 1 -> (forall i w, (i < m)%nat -> length (Z i w) = S n) ->
  (forall i, (i < m)%nat -> nulls i = true -> exchangeable E (S n) (Z i) /\ forall w, NoDup (Z i w)) ->
  FWER E Bonferroni m nulls (mc_p_values m alt Z) t <= INR (null_count m nulls) * (t / INR m + 2 / INR (S n)).
Proof.
  intros Om E n m alt Z nulls t HE Hn Hm Ht HL HN. assert (PM : 1 <= INR m) by (apply (le_INR 1 m); lia).
  assert (C : 0 <= t / INR m <= 1).
  { split; [apply Rmult_le_pos; [lra|left; apply Rinv_0_lt_compat; lra]|]. apply (Rmult_le_reg_r (INR m)); [lra|]. unfold Rdiv. rewrite Rmult_assoc, Rinv_l by lra. lra. }
  unfold FWER, some_false_rejection. eapply Rle_trans; [apply (Pr_union E HE (fun i w => nulls i && rejected_at (decisions Bonferroni (mc_p_values m alt Z w) t) i))|].
  unfold null_count. rewrite <- (sum_ind_count nulls (t / INR m + 2 / INR (S n)) (seq 0 m)). apply Rsum_map_le. intros i Hi. apply in_seq in Hi.
  destruct (nulls i) eqn:Ni; [|rewrite Pr_false by auto; simpl; lra].
  destruct (HN i ltac:(lia) Ni) as [HX Hd]. eapply Rle_trans; [|apply (mc_tail Om E n (alt i) (Z i) (t / INR m) HE HX Hn Hd C)].
  apply (Pr_mono E HE). intros w Hw. simpl in Hw. apply Rltb_true. rewrite <- (nth_mc m alt Z w i) by lia. rewrite <- (mc_length m alt Z w) at 2.
  apply bonferroni_rejects; [apply (mc_pvalues n); auto|exact Ht|exact Hw].
Qed.
(** n >= 2 m / delta simulations keep the error within delta of the threshold *)
Lemma C120_enough_simulations_holds : forall (Om : Type) (E : (Om -> R) -> R) n m alt Z nulls t delta,
  is_expectation E -> (0 < n)%nat -> (0 < m)%nat -> 0 <= t <= 1 -> 0 < delta -> 2 * INR m <= delta * INR n -> (forall i w, (i < m)%nat -> length (Z i w) = S n) ->
  (forall i, (i < m)%nat -> nulls i = true -> exchangeable E (S n) (Z i) /\ forall w, NoDup (Z i w)) ->
  FWER E Bonferroni m nulls (mc_p_values m alt Z) t <= t + delta.
Proof.
  intros Om E n m alt Z nulls t delta HE Hn Hm Ht Hd Hs HL HN.
  eapply Rle_trans; [apply (C120_bonferroni_fwer_holds Om E n m alt Z nulls t HE Hn Hm Ht HL HN)|].
  assert (PM : 0 < INR m) by (apply INR_pos; exact Hm). assert (PN : 0 < INR n) by (apply INR_pos; exact Hn). assert (PS : 0 < INR (S n)) by (apply INR_pos; lia).
  assert (Q : INR (null_count m nulls) <= INR m) by (apply le_INR, null_count_le). pose proof (pos_INR (null_count m nulls)) as Q0.
  assert (T : 0 <= t / INR m) by (apply Rmult_le_pos; [lra|left; now apply Rinv_0_lt_compat]). assert (S2 : 0 < 2 / INR (S n)) by (apply Rdiv_lt_0_compat; lra).
  apply Rle_trans with (INR m * (t / INR m + 2 / INR (S n))); [nra|]. replace (INR m * (t / INR m + 2 / INR (S n))) with (t + 2 * INR m / INR (S n)) by (field; lra).
  apply Rplus_le_compat_l. apply (Rmult_le_reg_r (INR (S n))); [exact PS|]. unfold Rdiv. rewrite Rmult_assoc, Rinv_l by lra. rewrite (S_INR n). nra.
Qed.
(** ** n + 1 hypotheses *)
Lemma bonferroni_zero p t i : pvalues p -> (i < length p)%nat -> nth i p 0 = 0 -> 0 < t -> rejected_at (decisions Bonferroni p t) i = true.
Proof.
  intros Hp Hi H0 Ht. destruct (adjust_ok Bonferroni p Hp) as (a & Ha & Hl). apply (decisions_at Bonferroni p t a Hp Ha). split; [exact Hi|].
  simpl in Ha. unfold bonferroni_adjust in Ha. rewrite validate_ok in Ha by exact Hp. injection Ha as <-. rewrite nth_map_R by exact Hi. rewrite H0, ?Rmult_0_l, ?Rmult_0_r.
  unfold Rmin. destruct (Rle_dec _ _); lra.
Qed.
Definition shifted (n i w : nat) : list R := one_zero (S n) ((w + i) mod S n).
Lemma nodup_map_in {A B} (f : A -> B) l : (forall x y, In x l -> In y l -> f x = f y -> x = y) -> NoDup l -> NoDup (map f l).
Proof.
  intros Hf Hd. induction Hd as [|a l Ha Hd IH]; simpl; constructor.
  - intros Hin. apply in_map_iff in Hin. destruct Hin as (b & Eb & Hb). apply Hf in Eb; [subst; contradiction|simpl; auto|simpl; auto].
  - apply IH. intros x y Hx Hy. apply Hf; simpl; auto.
Qed.
Lemma shift_perm n i : Permutation (map (fun w => (w + i) mod S n) (seq 0 (S n))) (seq 0 (S n)).
Proof.
  apply NoDup_Permutation_bis.
  - apply nodup_map_in; [|apply seq_NoDup]. intros x y Hx Hy EQ. apply in_seq in Hx. apply in_seq in Hy.
    assert (G : forall a b, (a <= b)%nat -> (b < S n)%nat -> ((a + i) mod S n = (b + i) mod S n)%nat -> a = b).
    { intros a b Hab Hb HE. assert (D : ((b - a) mod S n = 0)%nat).
      { pose proof (Nat.div_mod_eq (a + i) (S n)) as A. pose proof (Nat.div_mod_eq (b + i) (S n)) as B. rewrite HE in A.
        assert (X : (b - a = S n * ((b + i) / S n - (a + i) / S n))%nat) by nia. rewrite X, Nat.mul_comm. apply Nat.mod_mul. lia. }
      rewrite Nat.mod_small in D by lia. lia. }
    destruct (Nat.le_ge_cases x y); [apply G|symmetry; apply G]; lia || (symmetry; exact EQ) || exact EQ.
  - rewrite map_length. lia.
  - intros x Hx. apply in_map_iff in Hx. destruct Hx as (w & <- & _). apply in_seq. pose proof (Nat.mod_upper_bound (w + i) (S n)). lia.
Qed.
Lemma shifted_exchangeable n i : exchangeable (finite_expectation (one_zero_law (S n))) (S n) (shifted n i).
Proof.
  destruct (one_zero_exchangeable (S n) ltac:(lia)) as [A B]. split; [intros w; apply A|]. intros pi Hpi f Hf.
  specialize (B pi Hpi f Hf). rewrite !one_zero_E in *. unfold shifted.
  assert (SH : forall g : nat -> R, Rsum (map (fun w => g ((w + i) mod S n)%nat) (seq 0 (S n))) = Rsum (map g (seq 0 (S n)))).
  { intros g. rewrite <- (map_map (fun w => (w + i) mod S n)%nat g). apply Rsum_map_perm, shift_perm. }
  rewrite (SH (fun v => f (map (fun j => nth j (one_zero (S n) v) 0) pi))), (SH (fun v => f (one_zero (S n) v))). exact B.
Qed.
(** With as few simulations as hypotheses the correction is void: for every n there is a law under which n+1 true hypotheses, tested in the
    left tail with n simulations each, lead to a false rejection with certainty, at every positive threshold. *)
Lemma C120_few_simulations_refuted_holds : forall n, (0 < n)%nat -> exists (E : (nat -> R) -> R) (Z : nat -> nat -> list R),
  is_expectation E /\ (forall i, exchangeable E (S n) (Z i)) /\
  forall t, 0 < t <= 1 -> FWER E Bonferroni (S n) (fun _ => true) (mc_p_values (S n) (fun _ => LEFT) Z) t = 1.
Proof.
  intros n Hn. exists (finite_expectation (one_zero_law (S n))), (shifted n). assert (HE := one_zero_expectation (S n) ltac:(lia)).
  split; [exact HE|]. split; [intros i; apply shifted_exchangeable|]. intros t Ht.
  apply Rle_antisym; [apply fwer_le1; exact HE|]. unfold FWER. rewrite <- (E_one _ HE) at 1. unfold Pr. apply (E_mono _ HE); [apply bounded_const|apply bounded_ind|].
  intros w. cut (some_false_rejection (S n) (fun _ => true) (decisions Bonferroni (mc_p_values (S n) (fun _ => LEFT) (shifted n) w) t) = true); [intros ->; simpl; lra|].
  apply existsb_exists. set (i := ((S n - w mod S n) mod S n)%nat). assert (Bi : (i < S n)%nat) by (apply Nat.mod_upper_bound; lia).
  exists i. split; [apply in_seq; lia|]. simpl andb.
  assert (Hp : pvalues (mc_p_values (S n) (fun _ => LEFT) (shifted n) w)).
  { apply (mc_pvalues n); [exact Hn|]. intros j _. unfold shifted, one_zero. rewrite map_length. apply seq_length. }
  apply bonferroni_zero; [exact Hp|rewrite mc_length; exact Bi| |lra]. rewrite nth_mc by exact Bi.
    assert (Z0 : ((w + i) mod S n = 0)%nat).
    { unfold i. rewrite Nat.add_mod_idemp_r by lia. rewrite <- (Nat.add_mod_idemp_l w) by lia. pose proof (Nat.mod_upper_bound w (S n) ltac:(lia)).
      replace (w mod S n + (S n - w mod S n))%nat with (S n) by lia. apply Nat.mod_same. lia. }
    unfold shifted. rewrite Z0. simpl p_value_of. unfold left_p_value. rewrite ecdf_is_fraction. unfold fraction. rewrite count_zero.
    + simpl (INR 0). unfold Rdiv. ring.
    + intros x Hx. unfold one_zero in Hx. simpl in Hx. apply in_map_iff in Hx. destruct Hx as (j & <- & Hj). apply in_seq in Hj. destruct j; [lia|]. simpl. apply Rleb_false. lra.
Qed.
Lemma C120_nonvacuous_holds : is_expectation (finite_expectation swap_law) /\ (forall i : nat, (i < 3)%nat -> exchangeable (finite_expectation swap_law) 2 swap_vec /\ (forall w, NoDup (swap_vec w))) /\
  null_count 3 (fun _ => true) = 3%nat.
Proof. split; [exact swap_law_expectation|]. split; [intros; split; [exact swap_law_exchangeable|exact swap_law_NoDup]|reflexivity]. Qed.
