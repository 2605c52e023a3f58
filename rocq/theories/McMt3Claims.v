(** Property C120 for the two Sidak corrections: independent Monte-Carlo p-values. *)
From Verif Require Import Base MTModel MTSpec MTProofs ProbSpec ProbProofs MTErrorSpec MTErrorProofs DecModel DecSpec DecProofs DecMoreProofs SizeSpec SizeClaims ConvSpec ConvClaims McMtSpec McMtClaims McMt2Claims.
From Coq Require Import Permutation Lra Lia.

Lemma Rprod_nonneg (f : nat -> R) l : (forall i, In i l -> 0 <= f i <= 1) -> 0 <= Rprod (map f l) <= 1.
Proof. induction l as [|a l IH]; intros H; simpl; [lra|]. specialize (IH (fun i Hi => H i (or_intror Hi))). specialize (H a (or_introl eq_refl)). nra. Qed.
(** factors that fall short of r by at most e *)
Lemma Rprod_near (f : nat -> R) l r e : 0 <= r <= 1 -> 0 <= e -> (forall i, In i l -> 0 <= f i <= 1 /\ r - e <= f i) -> r ^ length l - INR (length l) * e <= Rprod (map f l).
Proof.
  intros Hr He. induction l as [|a l IH]; intros H; cbn [length map Rprod pow]; [simpl; lra|].
  specialize (IH (fun i Hi => H i (or_intror Hi))). pose proof (Rprod_nonneg f l (fun i Hi => proj1 (H i (or_intror Hi)))) as P.
  destruct (H a (or_introl eq_refl)) as [Ha Hb]. rewrite S_INR.
  assert (N : 0 <= INR (length l)) by apply pos_INR. assert (Q : 0 <= r ^ length l <= 1) by (split; [apply pow_le; lra|rewrite <- (pow1 (length l)); apply pow_incr; lra]).
  assert (0 <= (f a - r + e) * Rprod (map f l)) by (apply Rmult_le_pos; lra).
    assert (r * (r ^ length l - INR (length l) * e) <= r * Rprod (map f l)) by (apply Rmult_le_compat_l; lra).
    assert (r * (INR (length l) * e) <= INR (length l) * e) by (rewrite <- (Rmult_1_l (INR (length l) * e)) at 2; apply Rmult_le_compat_r; [apply Rmult_le_pos; lra|lra]).
    assert (e * Rprod (map f l) <= e) by (rewrite <- (Rmult_1_r e) at 2; apply Rmult_le_compat_l; lra). nra.
Qed.
Lemma sidak_nearly {Om} (E : (Om -> R) -> R) e mt m nulls X t : mt = Sidak \/ mt = SidakHolm -> is_expectation E -> 0 <= e -> (forall w, length (X w) = m /\ pvalues (X w)) ->
  (forall i, (i < m)%nat -> nulls i = true -> nearly E e (fun w => nth i (X w) 0)) -> independent_nulls E m nulls (nullX X) -> 0 <= t ->
  FWER E mt m nulls X t <= t + INR (null_count m nulls) * e.
Proof.
  intros Hmt HE He HX Hn Hind Ht. assert (N0 : 0 <= INR (null_count m nulls) * e) by (apply Rmult_le_pos; [apply pos_INR|exact He]).
  destruct (Rlt_dec t 1) as [H1|H1]; [|pose proof (fwer_le1 E mt m nulls X t HE); lra].
  destruct m as [|m]; [rewrite fwer_m0; auto; lra|].
  destruct (sidak_cutoff (S m) t) as (c & Hc & Hp); [lia|lra|].
  assert (Hno : (1 - c) ^ (null_count (S m) nulls) - INR (null_count (S m) nulls) * e
     <= Pr E (fun w => forallb (fun i => Rleb c (nullX X i w)) (filter nulls (seq 0 (S m))))).
  { rewrite (Hind (fun _ => c)). unfold null_count, count.
    apply (Rprod_near (fun i => Pr E (fun w => Rleb c (nullX X i w)))); [lra|exact He|].
    intros i Hi. apply filter_In in Hi. destruct Hi as [Hi Ni]. apply in_seq in Hi.
    split; [split; [apply Pr_nonneg; exact HE|apply Pr_le1; exact HE]|].
    pose proof (Hn i ltac:(lia) Ni c ltac:(lra)) as B. fold (nullX X i) in B.
    pose proof (Pr_negb E HE (fun w => Rltb (nullX X i w) c)) as HN.
    assert (Pr E (fun w => negb (Rltb (nullX X i w) c)) <= Pr E (fun w => Rleb c (nullX X i w))).
    { apply Pr_mono; auto. intros w Hw. apply negb_true_iff, Rltb_false in Hw. apply Rleb_true; exact Hw. }
    unfold nullX in *. lra. }
  assert (H : FWER E mt (S m) nulls X t <= Pr E (fun w => negb (forallb (fun i => Rleb c (nullX X i w)) (filter nulls (seq 0 (S m)))))).
  { apply Pr_mono; auto. intros w Hw. unfold some_false_rejection in Hw.
    rewrite existsb_filter in Hw. apply existsb_exists in Hw. destruct Hw as [i [Hi Hr]].
    apply negb_true_iff. apply not_true_is_false. intros Hall.
    rewrite forallb_forall in Hall. specialize (Hall i Hi). apply Rleb_true in Hall.
    destruct (HX w) as [Hl Hv]. pose proof (sidak_family_rejects mt (X w) t c i Hmt Hv Hc H1 ltac:(rewrite Hl; exact Hp) Hr) as L. unfold nullX in Hall. lra. }
  rewrite Pr_negb in H by auto.
  assert ((1 - c) ^ S m <= (1 - c) ^ null_count (S m) nulls) by (apply pow_antitone; [lra|apply null_count_le]).
  lra.
Qed.
(** both Sidak corrections, for independent tests *)
Lemma C120_sidak_fwer_holds : forall (Om : Type) (E : (Om -> R) -> R) n m alt Z nulls mt t,
  is_expectation E -> (0 < n)%nat -> 0 <= t -> mt = Sidak \/ mt = SidakHolm -> (forall i w, (i < m)%nat -> length (Z i w) = S n) ->
  (forall i, (i < m)%nat -> nulls i = true -> exchangeable E (S n) (Z i) /\ forall w, NoDup (Z i w)) ->
  independent_nulls E m nulls (fun i w => nth i (mc_p_values m alt Z w) 0) ->
  FWER E mt m nulls (mc_p_values m alt Z) t <= t + INR (null_count m nulls) * (2 / INR (S n)).
Proof.
  intros Om E n m alt Z nulls mt t HE Hn Ht Hmt HL HN HI. apply sidak_nearly; auto.
  - apply Rmult_le_pos; [lra|left; apply Rinv_0_lt_compat, lt_0_INR; lia].
  - intros w. split; [apply mc_length|apply (mc_pvalues n); auto].
  - intros i Hi Ni. destruct (HN i Hi Ni) as [HX Hd]. apply (mc_nearly Om E n m alt Z nulls); auto.
Qed.
(** the hypotheses can be met *)
Lemma C120_nonvacuous_independent_holds : independent_nulls (finite_expectation swap_law) 1 (fun _ => true) (fun i w => nth i (mc_p_values 1 (fun _ => LEFT) (fun _ => swap_vec) w) 0) /\
  exchangeable (finite_expectation swap_law) 2 swap_vec /\ (forall w, NoDup (swap_vec w)).
Proof.
  split; [|split].
  - intros t. cbn [seq filter map Rprod]. rewrite Rmult_1_r. unfold Pr. f_equal. apply FunctionalExtensionality.functional_extensionality. intros w. cbn [forallb]. now rewrite andb_true_r.
  - apply C117_nonvacuous_exchangeable_holds.
  - apply C117_nonvacuous_exchangeable_holds.
Qed.
