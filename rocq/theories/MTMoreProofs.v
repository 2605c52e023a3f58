From Verif Require Import Base MTModel MTSpec MTProofs ProbSpec ProbProofs MTErrorSpec MTErrorProofs.
From Coq Require Import NArith.

Ltac pv := let x := fresh in let H := fresh in
  intros x H; simpl in H; repeat (destruct H as [<-|H]; [lra|]); destruct H.

Lemma bonferroni_value p : pvalues p ->
  exists a, adjust Bonferroni p = Ok a /\
    pointwise (fun x v => v = Rmin 1 (INR (length p) * x)) p a /\
    pointwise (fun x v => x <= v <= 1) p a.
Proof.
  intros Hp. exists (map (fun x => Rmin (x * INR (length p)) 1) p). simpl.
  unfold bonferroni_adjust. rewrite validate_ok by exact Hp. split; [reflexivity|].
  assert (Hl : length (map (fun x => Rmin (x * INR (length p)) 1) p) = length p)
    by apply map_length.
  split; (split; [exact Hl|]); intros i Hi; rewrite nth_map_R by exact Hi.
  - rewrite Rmin_comm, Rmult_comm. reflexivity.
  - assert (0 <= nth i p 0 <= 1) by (apply Hp, nth_In, Hi).
    assert (1 <= INR (length p)) by (apply INR_ge1; lia).
    split; [|apply Rmin_r]. apply Rmin_glb; [|lra]. nra.
Qed.

Lemma pow_le_base q m : 0 <= q <= 1 -> (1 <= m)%nat -> 0 <= q ^ m <= q.
Proof.
  intros Hq Hm. split; [apply pow_le; lra|]. rewrite <- (pow_1 q) at 2. apply pow_antitone; auto.
Qed.

Lemma sidak_range x m : 0 <= x <= 1 -> (1 <= m)%nat -> x <= 1 - (1 - x) ^ m <= 1.
Proof. intros Hx Hm. pose proof (pow_le_base (1 - x) m ltac:(lra) Hm). lra. Qed.

Lemma sidak_value p : pvalues p ->
  exists a, adjust Sidak p = Ok a /\
    pointwise (fun x v => v = 1 - (1 - x) ^ length p) p a /\
    pointwise (fun x v => x <= v <= 1) p a.
Proof.
  intros Hp. exists (map (fun x => 1 - (1 - x) ^ length p) p). simpl.
  unfold sidak_adjust. rewrite validate_ok by exact Hp. split; [reflexivity|].
  split; (split; [apply map_length|]); intros i Hi;
    rewrite (nth_map_R (fun x => 1 - (1 - x) ^ length p)) by exact Hi; [reflexivity|].
  apply sidak_range; [apply Hp, nth_In, Hi|lia].
Qed.

Lemma sidak_holm_is_sidak p : pvalues p -> adjust SidakHolm p = adjust Sidak p.
Proof.
  intros Hp. simpl. unfold sidak_adjust. rewrite validate_ok by exact Hp. simpl.
  unfold sidak_holm_adjust. destruct p as [|x p0] eqn:E; [reflexivity|]. rewrite <- E in *.
  f_equal. apply map_ext_in. intros y Hy. apply Rmin_right.
  apply sidak_range; [apply Hp, Hy|]. rewrite E; simpl; lia.
Qed.

(** ranges for the step-up methods *)
Lemma order_stat_exists p x : In x p -> exists k, (1 <= k <= length p)%nat /\ order_stat p k = x.
Proof.
  intros H. apply rsort_in in H. destruct (In_nth _ _ 0 H) as [k [Hk E]].
  rewrite rsort_length in Hk. exists (S k). split; [lia|]. unfold order_stat.
  replace (S k - 1)%nat with k by lia. exact E.
Qed.
Lemma step_up_range a p x v : pvalues p -> 0 <= x <= 1 ->
  (forall k, (1 <= k <= length p)%nat -> 1 <= a k) ->
  step_up_adjusted a p x v -> x <= v <= 1.
Proof.
  intros Hp Hx Ha [Hv Hmin]. split; [|apply Hmin; auto].
  destruct Hv as [->|(k & Hk & Hle & ->)]; [lra|].
  assert (0 <= order_stat p k <= 1) by (apply Hp, order_stat_in, Hk).
  specialize (Ha k Hk). nra.
Qed.

Lemma holm_range p : pvalues p ->
  exists a, adjust Holm p = Ok a /\ pointwise (fun x v => x <= v <= 1) p a.
Proof.
  intros Hp. destruct (holm_is_hochberg p Hp) as (a & E & Hl & Hpt). exists a; split; [exact E|].
  split; [exact Hl|]. intros i Hi. eapply step_up_range; [exact Hp| |  |apply Hpt, Hi].
  - apply Hp, nth_In, Hi.
  - intros k Hk. apply INR_ge1. lia.
Qed.
Lemma by_range p : pvalues p -> (N.of_nat (length p) <= 10000)%N ->
  exists a, adjust BenjaminiYekutieli p = Ok a /\ pointwise (fun x v => x <= v <= 1) p a.
Proof.
  intros Hp Hs. destruct (by_is_step_up p Hp) as (a & E & Hl & Hpt); [apply by_factor_ge_gamma|].
  exists a; split; [exact E|].
  split; [exact Hl|]. intros i Hi. eapply step_up_range; [exact Hp| |  |apply Hpt, Hi].
  - apply Hp, nth_In, Hi.
  - intros k Hk. rewrite by_factor_harmonic by exact Hs.
    assert (1 <= harmonic (length p)) by (apply harmonic_ge1; lia).
    assert (0 < INR k) by (apply INR_pos; lia).
    assert (INR k <= INR (length p)) by (apply le_INR; lia).
    apply (Rmult_le_reg_r (INR k)); [auto|]. unfold Rdiv.
    rewrite Rmult_assoc, Rinv_l by lra. nra.
Qed.

Lemma by_matches_spec p : pvalues p -> (N.of_nat (length p) <= 10000)%N ->
  exists a, adjust BenjaminiYekutieli p = Ok a /\
    pointwise (by_adjusted (harmonic (length p)) p) p a /\
    pointwise (fun x v => x <= v <= 1) p a.
Proof.
  intros Hp Hs. destruct (by_is_step_up p Hp) as (a & E & H); [apply by_factor_ge_gamma|].
  destruct (by_range p Hp Hs) as (a' & E' & H'). simpl in E'. rewrite E in E'.
  injection E' as <-. exists a. split; [exact E|]. split; [|exact H'].
  rewrite <- by_factor_harmonic by exact Hs. exact H.
Qed.

(** ** order preservation and equivariance *)
Lemma order_stat_perm p q k : Permutation p q -> order_stat p k = order_stat q k.
Proof. intros H. unfold order_stat. rewrite (rsort_perm_eq _ _ H). reflexivity. Qed.

Lemma step_up_mono a p q x y v w : Permutation p q -> x <= y ->
  step_up_adjusted a p x v -> step_up_adjusted a q y w -> v <= w.
Proof.
  intros HP Hxy [_ Hmin] [Hw _]. apply Hmin.
  destruct Hw as [->|(k & Hk & Hy & ->)]; [auto|]. right. exists k.
  rewrite (Permutation_length HP), (order_stat_perm _ _ _ HP). split; [auto|]. split; [lra|auto].
Qed.

Lemma adjust_mono mt p q a b i j :
  pvalues p -> Permutation p q -> adjust mt p = Ok a -> adjust mt q = Ok b ->
  (i < length p)%nat -> (j < length q)%nat -> nth i p 0 <= nth j q 0 ->
  nth i a 0 <= nth j b 0.
Proof.
  intros Hp HP Ha Hb Hi Hj Hle.
  assert (Hq : pvalues q).
  { intros x Hx. apply Hp. eapply Permutation_in; [symmetry; exact HP|exact Hx]. }
  assert (Hlen := Permutation_length HP).
  assert (Hpi : 0 <= nth i p 0 <= 1) by (apply Hp, nth_In, Hi).
  assert (Hqj : 0 <= nth j q 0 <= 1) by (apply Hq, nth_In, Hj).
  assert (Hsid : forall m, 1 - (1 - nth i p 0) ^ m <= 1 - (1 - nth j q 0) ^ m).
  { intros m. assert ((1 - nth j q 0) ^ m <= (1 - nth i p 0) ^ m) by (apply pow_incr; lra). lra. }
  assert (Hsidak : forall a b, adjust Sidak p = Ok a -> adjust Sidak q = Ok b -> nth i a 0 <= nth j b 0).
  { intros a' b' Ha' Hb'. destruct (sidak_value p Hp) as (a1 & E1 & [_ V1] & _).
    destruct (sidak_value q Hq) as (b1 & E2 & [_ V2] & _).
    rewrite Ha' in E1; rewrite Hb' in E2. injection E1 as <-. injection E2 as <-.
    rewrite V1, V2 by assumption. rewrite <- Hlen. apply Hsid. }
  destruct mt.
  - destruct (bonferroni_value p Hp) as (a1 & E1 & [_ V1] & _).
    destruct (bonferroni_value q Hq) as (b1 & E2 & [_ V2] & _).
    rewrite Ha in E1; rewrite Hb in E2. injection E1 as <-. injection E2 as <-.
    rewrite V1, V2 by assumption. rewrite <- Hlen.
    apply Rle_min_compat_l, Rmult_le_compat_l; [apply pos_INR|exact Hle].
  - apply Hsidak; assumption.
  - destruct (holm_is_hochberg p Hp) as (a1 & E1 & [_ V1]).
    destruct (holm_is_hochberg q Hq) as (b1 & E2 & [_ V2]).
    simpl in Ha, Hb. rewrite Ha in E1; rewrite Hb in E2. injection E1 as <-. injection E2 as <-.
    specialize (V1 i Hi); specialize (V2 j Hj). unfold hochberg_adjusted in *.
    rewrite <- Hlen in V2. eapply step_up_mono; eauto.
  - rewrite sidak_holm_is_sidak in Ha by exact Hp. rewrite sidak_holm_is_sidak in Hb by exact Hq.
    apply Hsidak; assumption.
  - destruct (by_is_step_up p Hp) as (a1 & E1 & [_ V1]); [apply by_factor_ge_gamma|].
    destruct (by_is_step_up q Hq) as (b1 & E2 & [_ V2]); [apply by_factor_ge_gamma|].
    simpl in Ha, Hb. rewrite Ha in E1; rewrite Hb in E2. injection E1 as <-. injection E2 as <-.
    specialize (V1 i Hi); specialize (V2 j Hj). unfold by_adjusted in *.
    rewrite <- Hlen in V2. eapply step_up_mono; eauto.
Qed.

(** reordering of a list by a list of positions *)
Definition permute {A} (d : A) (sigma : list nat) (l : list A) : list A :=
  map (fun i => nth i l d) sigma.

Lemma permute_perm {A} (d : A) sigma l :
  Permutation sigma (seq 0 (length l)) -> Permutation (permute d sigma l) l.
Proof.
  intros H. unfold permute. rewrite H. rewrite map_nth_seq. reflexivity.
Qed.
Lemma permute_nth {A} (d : A) sigma l i : (i < length sigma)%nat ->
  nth i (permute d sigma l) d = nth (nth i sigma 0%nat) l d.
Proof.
  intros H. unfold permute.
  rewrite (nth_indep _ d (nth 0 l d)) by (rewrite map_length; exact H).
  rewrite (map_nth (fun i => nth i l d) _ 0%nat). reflexivity.
Qed.

Lemma adjust_equivariant mt p sigma a : pvalues p -> Permutation sigma (seq 0 (length p)) ->
  adjust mt p = Ok a -> adjust mt (permute 0 sigma p) = Ok (permute 0 sigma a).
Proof.
  intros Hp Hs Ha.
  pose proof (permute_perm 0 sigma p Hs) as HP.
  assert (Hq : pvalues (permute 0 sigma p)).
  { intros x Hx. apply Hp. eapply Permutation_in; [exact HP|exact Hx]. }
  destruct (adjust_ok mt _ Hq) as (b & Hb & Hlb).
  destruct (adjust_ok mt p Hp) as (a' & Ha' & Hla). rewrite Ha in Ha'; injection Ha' as <-.
  rewrite Hb. f_equal.
  assert (Lq : length (permute 0 sigma p) = length p) by (apply Permutation_length, HP).
  assert (Ls : length sigma = length p).
  { rewrite (Permutation_length Hs), seq_length; reflexivity. }
  apply (nth_ext_R 0).
  - unfold permute at 1. rewrite map_length. lia.
  - intros i Hi. rewrite Hlb, Lq in Hi. rewrite permute_nth by lia.
    assert (Hsi : (nth i sigma 0 < length p)%nat).
    { assert (In (nth i sigma 0%nat) sigma) as Hin by (apply nth_In; lia).
      apply (Permutation_in _ Hs), in_seq in Hin. lia. }
    assert (Ev : nth i (permute 0 sigma p) 0 = nth (nth i sigma 0%nat) p 0)
      by (apply permute_nth; lia).
    apply Rle_antisym.
    + eapply (adjust_mono mt (permute 0 sigma p) p); eauto; try lia. rewrite Ev; lra.
    + eapply (adjust_mono mt p (permute 0 sigma p)); eauto; try lia.
      * symmetry; exact HP.
      * rewrite Ev; lra.
Qed.

(** ** [test] *)
Lemma mt_test_raises_iff mt p t :
  (exists e, mt_test mt p t = Raise e) <-> (exists x, In x p /\ ~ (0 <= x <= 1)).
Proof.
  split.
  - intros [e H]. destruct (p_values_valid p) eqn:V.
    + apply p_values_valid_iff in V. destruct (mt_test_ok mt p t V) as (a & _ & _ & E). congruence.
    + clear H. unfold p_values_valid in V. induction p as [|x p IH]; simpl in V; [discriminate|].
      apply andb_false_iff in V. destruct V as [V|V].
      * exists x. split; [simpl; auto|]. apply andb_false_iff in V.
        rewrite !Rleb_false in V. lra.
      * destruct (IH V) as [y [Hy Hn]]. exists y; simpl; auto.
  - intros [x [Hx Hn]]. exists ValueError. unfold mt_test, validate_p_values.
    destruct (p_values_valid p) eqn:V; [|reflexivity].
    apply p_values_valid_iff in V. exfalso; apply Hn, V, Hx.
Qed.
Lemma mt_test_error_kind mt p t e : mt_test mt p t = Raise e -> e = ValueError.
Proof.
  intros H. destruct (p_values_valid p) eqn:V.
  - apply p_values_valid_iff in V. destruct (mt_test_ok mt p t V) as (a & _ & _ & E). congruence.
  - unfold mt_test, validate_p_values in H. rewrite V in H. simpl in H. congruence.
Qed.

(** ** relation to the step-down procedures the class names announce *)
Lemma holm_below_step_down p a i v : pvalues p -> adjust Holm p = Ok a -> (i < length p)%nat ->
  holm_adjusted p (nth i p 0) v -> nth i a 0 <= v.
Proof.
  intros Hp Ha Hi [_ Hmax].
  destruct (holm_is_hochberg p Hp) as (a1 & E1 & [_ V1]). simpl in Ha. rewrite Ha in E1.
  injection E1 as <-. destruct (V1 i Hi) as [_ Hmin].
  destruct (order_stat_exists p (nth i p 0)) as (k & Hk & Ek); [apply nth_In, Hi|].
  eapply Rle_trans; [|apply Hmax; exists k; split; [exact Hk|]; split; [rewrite Ek; apply Rle_refl|reflexivity]].
  apply Rmin_glb; [apply Hmin; auto|]. apply Hmin. right. exists k.
  split; [exact Hk|]. split; [rewrite Ek; apply Rle_refl|reflexivity].
Qed.

Lemma sidak_holm_above_step_down p a i v : pvalues p -> adjust SidakHolm p = Ok a ->
  (i < length p)%nat -> holm_sidak_adjusted p (nth i p 0) v -> v <= nth i a 0.
Proof.
  intros Hp Ha Hi [Hv _].
  rewrite sidak_holm_is_sidak in Ha by exact Hp.
  destruct (sidak_value p Hp) as (a1 & E1 & [_ V1] & _). rewrite Ha in E1. injection E1 as <-.
  rewrite V1 by exact Hi. destruct Hv as (k & Hk & Hx & ->).
  assert (Hxi : 0 <= nth i p 0 <= 1) by (apply Hp, nth_In, Hi).
  assert (Hok : 0 <= order_stat p k <= 1) by (apply Hp, order_stat_in, Hk).
  eapply Rle_trans; [apply Rmin_r|].
  assert ((1 - nth i p 0) ^ length p <= (1 - nth i p 0) ^ (length p - k + 1)).
  { apply pow_antitone; [lra|lia]. }
  assert ((1 - nth i p 0) ^ (length p - k + 1) <= (1 - order_stat p k) ^ (length p - k + 1)).
  { apply pow_incr; lra. }
  lra.
Qed.

(** concrete sorting of two values *)
Lemma rsort_2 x y : x <= y -> rsort [x; y] = [x; y].
Proof. intros H; simpl; rcase; reflexivity. Qed.

Lemma holm_adjust_2 x y : 0 <= x <= y -> y <= 1 ->
  holm_adjust [x; y] = Ok [Rmin (2 * x) y; y].
Proof.
  intros Hx Hy. unfold holm_adjust, sorted_indices, assign_loop, downrange, holm_step, enumerate, get.
  cbn [length seq ksort kinsert nth].
  rewrite (proj2 (Rleb_true x y)) by lra.
  cbn -[INR Rmin]. change (INR 2) with (1 + 1). change (INR 1) with 1.
  rewrite (Rmin_right 1 (y * 1)) by lra. replace (y * 1) with y by ring.
  replace (x * (1 + 1)) with (2 * x) by ring.
  destruct (Rltb_spec y (Rmin 1 (2 * x))) as [H|H]; f_equal; f_equal.
  - unfold Rmin in *. destruct (Rle_dec 1 (2 * x)), (Rle_dec (2 * x) y); lra.
  - unfold Rmin in *. destruct (Rle_dec 1 (2 * x)), (Rle_dec (2 * x) y); lra.
Qed.

Lemma order_stat_21 x y : x <= y -> order_stat [x; y] 1 = x.
Proof. intros H. unfold order_stat. rewrite rsort_2 by exact H. reflexivity. Qed.
Lemma order_stat_22 x y : x <= y -> order_stat [x; y] 2 = y.
Proof. intros H. unfold order_stat. rewrite rsort_2 by exact H. reflexivity. Qed.

(** the Holm step-down adjusted p-value of the smaller of two distinct p-values *)
Lemma holm_spec_2 x y : 0 <= x < y -> 2 * x <= 1 -> holm_adjusted [x; y] x (2 * x).
Proof.
  intros H H2. split.
  - exists 1%nat. rewrite order_stat_21 by lra. split; [simpl; lia|]. split; [lra|].
    cbn [length]. change (INR (2 - 1 + 1)) with (1 + 1). rewrite Rmin_right by lra. ring.
  - intros w (k & Hk & Hle & ->). simpl in Hk.
    assert (k = 1 \/ k = 2)%nat as [-> | ->] by lia.
    + rewrite order_stat_21 by lra. cbn [length]. change (INR (2 - 1 + 1)) with (1 + 1).
      eapply Rle_trans; [apply Rmin_r|]. lra.
    + rewrite order_stat_22 in Hle by lra. lra.
Qed.

Lemma holm_not_step_down :
  exists p a v, pvalues p /\ adjust Holm p = Ok a /\ holm_adjusted p (nth 0 p 0) v /\ nth 0 a 0 < v.
Proof.
  exists [1/100; 11/1000], [11/1000; 11/1000], (2/100).
  split; [pv|]. split; [|split].
  - change (adjust Holm) with holm_adjust. rewrite holm_adjust_2 by lra. unfold Rmin. destruct (Rle_dec _ _); [lra|reflexivity].
  - replace (2/100) with (2 * (1/100)) by lra. apply (holm_spec_2 (1/100) (11/1000)); lra.
  - simpl; lra.
Qed.

Lemma sidak_holm_not_step_down :
  exists p a v, pvalues p /\ adjust SidakHolm p = Ok a /\
    holm_sidak_adjusted p (nth 1 p 0) v /\ v < nth 1 a 0.
Proof.
  exists [1/10; 1/2], [19/100; 3/4], (1/2).
  split; [pv|]. split; [|split; [split|]].
  - simpl. rewrite !Rmin_right by lra. f_equal. f_equal; [lra|]. f_equal. lra.
  - exists 2%nat. rewrite order_stat_22 by lra. split; [simpl; lia|]. split; [simpl; lra|].
    simpl. rewrite Rmin_right; lra.
  - intros w (k & Hk & _ & ->). simpl in Hk.
    assert (k = 1 \/ k = 2)%nat as [-> | ->] by lia;
      rewrite ?order_stat_21, ?order_stat_22 by lra; simpl;
      (eapply Rle_trans; [apply Rmin_r|lra]).
  - simpl; lra.
Qed.

Lemma holm_adjust_2' x y : 0 <= x <= y -> y <= 1 -> adjust Holm [y; x] = Ok [y; Rmin (2 * x) y].
Proof.
  intros Hx Hy.
  pose proof (adjust_equivariant Holm [x; y] [1%nat; 0%nat] [Rmin (2 * x) y; y]) as H.
  unfold permute in H. simpl in H. apply H; [pv|apply perm_swap|apply holm_adjust_2; lra].
Qed.

(** a joint law of two true nulls for which Holm.test exceeds its level *)
Definition bad_vector (w : bool * bool) : list R :=
  match w with
  | (true, true) => [4/100; 1]
  | (true, false) => [1; 4/100]
  | (false, true) => [8/100; 8/100]
  | (false, false) => [1; 1]
  end.
Definition bad_law : list (R * (bool * bool)) :=
  [(4/100, (true, true)); (4/100, (true, false)); (4/100, (false, true)); (88/100, (false, false))].

Lemma bad_law_expectation : is_expectation (finite_expectation bad_law).
Proof.
  apply finite_is_expectation. split.
  - intros p Hp. simpl in Hp. repeat (destruct Hp as [<-|Hp]; [simpl; lra|]). destruct Hp.
  - simpl; lra.
Qed.

Lemma bad_law_valid : valid_null_pvalues (finite_expectation bad_law) 2 (fun _ => true) bad_vector.
Proof.
  split.
  - intros [[] []]; split; try reflexivity; pv.
  - intros i Hi _ t Ht. unfold Pr, finite_expectation. simpl.
    assert (i = 0 \/ i = 1)%nat as [-> | ->] by lia; simpl; unfold ind; rcase; lra.
Qed.

Lemma bad_law_fwer : FWER (finite_expectation bad_law) Holm 2 (fun _ => true) bad_vector (1/10) = 12/100.
Proof.
  unfold FWER, Pr, finite_expectation, bad_law. cbn [map Rsum fst snd bad_vector].
  unfold decisions, mt_test.
  rewrite !validate_ok by pv. cbn [bind].
  rewrite (holm_adjust_2' (4/100) 1) by lra.
  change (adjust Holm) with holm_adjust. rewrite !holm_adjust_2 by lra. cbn [bind].
  unfold some_false_rejection, rejected_at. cbn [seq existsb map nth andb].
  unfold Rmin. repeat (destruct (Rle_dec _ _); try (exfalso; lra)). unfold ind.
  rcase; simpl; lra.
Qed.
