(** Property C118 for laws with finitely many values. *)
From Verif Require Import Base ProbSpec ProbProofs DecModel DecSpec DecProofs DecMoreProofs SizeSpec SizeClaims ConvSpec ConvClaims Conv2Spec.
From Coq Require Import Permutation Lra Lia List Sorted.
Import ListNotations.
Local Open Scope R_scope.

Lemma finite_scal {A} (law : list (R * A)) c f : finite_expectation law (fun a => c * f a) = c * finite_expectation law f.
Proof. unfold finite_expectation. induction law as [|p l IH]; simpl; [ring|]. rewrite IH. ring. Qed.
Lemma finite_lin {A} (law : list (R * A)) a b f g : finite_expectation law (fun x => a * f x + b * g x) = a * finite_expectation law f + b * finite_expectation law g.
Proof. unfold finite_expectation. induction law as [|p l IH]; simpl; [ring|]. rewrite IH. ring. Qed.
Lemma finite_ext {A} (law : list (R * A)) f g : (forall a, f a = g a) -> finite_expectation law f = finite_expectation law g.
Proof. intros H. unfold finite_expectation. f_equal. apply map_ext. intros p. now rewrite H. Qed.
Lemma finite_const {A} (law : list (R * A)) c : weights law -> finite_expectation law (fun _ => c) = c.
Proof. intros [_ H]. transitivity (c * 1); [|ring]. rewrite <- H. unfold finite_expectation. clear. induction law as [|p l IH]; simpl; [ring|]. rewrite IH. ring. Qed.
Lemma repeated_ext {A} (law : list (R * A)) n : forall f g, (forall w, f w = g w) -> repeated law n f = repeated law n g.
Proof. induction n as [|n IH]; intros f g H; simpl; [apply H|]. apply finite_ext. intros a. apply IH. intros w. apply H. Qed.
Lemma repeated_scal {A} (law : list (R * A)) n c : forall f, repeated law n (fun w => c * f w) = c * repeated law n f.
Proof. induction n as [|n IH]; intros f; simpl; [reflexivity|]. rewrite <- finite_scal. apply finite_ext. intros a. apply (IH (fun w => f (a :: w))). Qed.
Lemma repeated_const {A} (law : list (R * A)) n c : weights law -> repeated law n (fun _ => c) = c.
Proof. intros H. induction n as [|n IH]; simpl; [reflexivity|]. rewrite (finite_ext law _ (fun _ => c)) by (intros; exact IH). now apply finite_const. Qed.
Lemma repeated_lin {A} (law : list (R * A)) n a b : forall f g, repeated law n (fun w => a * f w + b * g w) = a * repeated law n f + b * repeated law n g.
Proof.
  induction n as [|n IH]; intros f g; simpl; [reflexivity|].
  rewrite (finite_ext law _ (fun x => a * repeated law n (fun w => f (x :: w)) + b * repeated law n (fun w => g (x :: w)))) by (intros x; apply (IH (fun w => f (x :: w)) (fun w => g (x :: w)))).
  apply (finite_lin law a b (fun x => repeated law n (fun w => f (x :: w))) (fun x => repeated law n (fun w => g (x :: w)))).
Qed.
Lemma repeated_mono {A} (law : list (R * A)) n : weights law -> forall f g, (forall w, f w <= g w) -> repeated law n f <= repeated law n g.
Proof.
  intros [HW _]. induction n as [|n IH]; intros f g H; simpl; [apply H|].
  unfold finite_expectation. apply Rsum_map_le. intros p Hp. apply Rmult_le_compat_l; [now apply HW|]. apply IH. intros w. apply H.
Qed.
Lemma repeated_expectation {A} (law : list (R * A)) n : weights law -> is_expectation (repeated law n).
Proof. intros H. constructor; intros; [apply repeated_lin|now apply repeated_mono|now apply repeated_const]. Qed.
Lemma repeated_coord {A} (law : list (R * A)) d g : weights law -> forall n i, (i < n)%nat -> repeated law n (fun w => g (nth i w d)) = finite_expectation law g.
Proof.
  intros HW. induction n as [|n IH]; intros i Hi; [lia|]. destruct i as [|i]; simpl.
  - apply finite_ext. intros a. now apply repeated_const.
  - rewrite (finite_ext law _ (fun _ => finite_expectation law g)); [now apply finite_const|]. intros a. apply IH. lia.
Qed.
Lemma repeated_pair {A} (law : list (R * A)) d g h : weights law -> forall n i j, (i < n)%nat -> (j < n)%nat -> i <> j -> repeated law n (fun w => g (nth i w d) * h (nth j w d)) = finite_expectation law g * finite_expectation law h.
Proof.
  intros HW. induction n as [|n IH]; intros i j Hi Hj N; [lia|]. destruct i as [|i], j as [|j]; simpl; try lia.
  - rewrite (finite_ext law _ (fun a => finite_expectation law h * g a)); [rewrite finite_scal; ring|]. intros a. rewrite (repeated_scal law n (g a) (fun w => h (nth j w d))), repeated_coord by (auto; lia). ring.
  - rewrite (finite_ext law _ (fun a => finite_expectation law g * h a)); [rewrite finite_scal; ring|]. intros a. rewrite (repeated_ext law n _ (fun w => h a * g (nth i w d))) by (intros; ring). rewrite repeated_scal, repeated_coord by (auto; lia). ring.
  - rewrite (finite_ext law _ (fun _ => finite_expectation law g * finite_expectation law h)); [now apply finite_const|]. intros a. apply IH; lia.
Qed.
(** independent draws of every finite law exist in every number *)
Lemma C118_nonvacuous_repeated_holds : forall (A : Type) (law : list (R * A)) (v : A -> R) d n, weights law ->
  is_expectation (repeated law n) /\ independent_draws (repeated law n) n (fun i w => v (nth i w d)) (law_cdf law v).
Proof.
  intros A law v d n HW. split; [now apply repeated_expectation|]. constructor.
  - intros i x Hi. unfold law_cdf, Pr. exact (repeated_coord law d (fun a => ind (Rleb (v a) x)) HW n i Hi).
  - intros i j x y Hi Hj N. unfold law_cdf, Pr. rewrite <- (repeated_pair law d (fun a => ind (Rleb (v a) x)) (fun a => ind (Rleb (v a) y)) HW n i j Hi Hj N).
    apply repeated_ext. intros w. destruct (Rleb (v (nth i w d)) x), (Rleb (v (nth j w d)) y); simpl; ring.
Qed.

(** the critical value when the simulated values are 0, 1, ..., m *)
Lemma strict_seq k : forall s, StronglySorted Rlt (map INR (seq s k)).
Proof. induction k as [|k IH]; intros s; simpl; constructor; [apply IH|]. apply Forall_forall. intros x Hx. apply in_map_iff in Hx. destruct Hx as (i & <- & Hi). apply in_seq in Hi. apply lt_INR. lia. Qed.
Lemma nth_INR_seq k n : (k < n)%nat -> nth k (map INR (seq 0 n)) 0 = INR k.
Proof. intros H. rewrite (nth_indep _ 0 (INR 0)) by (rewrite map_length, seq_length; exact H). rewrite map_nth, seq_nth by exact H. reflexivity. Qed.
Lemma cvh_seq m level sim : (0 < m)%nat -> 0 < level <= 1 -> (forall x, In x (map INR (seq 0 (S m))) <-> In x sim) -> cvh sim (1 - level) = INR m * (1 - level).
Proof.
  intros Hm Hl HS. unfold cvh. rewrite (quantiles_are sim (map INR (seq 0 (S m))) (strict_seq _ _) HS). rewrite map_length, seq_length. replace (S m - 1)%nat with m by lia.
  assert (P : 0 < INR m) by (apply INR_pos; exact Hm). set (h := INR m * (1 - level)). assert (H0 : 0 <= h < INR m) by (unfold h; split; nra).
  pose proof (floor_nat_spec h (proj1 H0)) as [F1 F2]. unfold interp. rewrite map_length, seq_length. replace (S m - 1)%nat with m by lia.
  assert (K : (floor_nat h < m)%nat) by (apply INR_lt; lra). rewrite Nat.min_l by lia. rewrite !nth_INR_seq by lia. rewrite plus_INR. simpl (INR 1). ring.
Qed.
(** simulated values 0, 1, ..., m, each with probability at least q: the value m - 1 is rejected almost always once m * level > 1,
    however probable m is *)
Lemma C118_many_values_rejected_holds : forall (Om : Type) (E : (Om -> R) -> R) n S F m q st level k,
  is_expectation E -> independent_draws E n S F -> (0 < n)%nat -> (0 < m)%nat -> 0 < level <= 1 -> 1 < INR m * level -> 0 < q ->
  (forall i w, (i < n)%nat -> exists j, (j <= m)%nat /\ S i w = INR j) -> q <= F 0 -> (forall j, (j < m)%nat -> q <= F (INR (j + 1)) - F (INR j)) -> tests st RIGHT ->
  1 - INR (m + 1) / (INR n * q ^ 2) <= Pr E (fun w => test_rejects CriticalValueMethod st level k (draws n S w) (INR (m - 1))).
Proof.
  intros Om E n S F m q st level k HE HI Hn Hm Hl HL Hq HV H0 HJ HT.
  assert (P : 0 < INR n) by (apply INR_pos; exact Hn). assert (Q : 0 < q ^ 2) by (apply pow_lt; exact Hq).
  set (bad := fun (j : nat) (w : Om) => Rleb (q / 2) (Rabs (fraction (fun y => Rleb y (INR j)) (draws n S w) - F (INR j)))).
  assert (B : Pr E (fun w => existsb (fun j => bad j w) (seq 0 (m + 1))) <= INR (m + 1) / (INR n * q ^ 2)).
  { eapply Rle_trans; [apply (Pr_union E HE bad)|]. apply Rle_trans with (Rsum (map (fun _ : nat => / (INR n * q ^ 2)) (seq 0 (m + 1)))).
    - apply Rsum_map_le. intros j _. replace (/ (INR n * q ^ 2)) with (/ (4 * INR n * (q / 2) ^ 2)) by (field; lra).
      apply (fraction_chebyshev E HE n S F (INR j) (bad j) (q / 2) HI Hn); [lra|]. intros w Hw. apply Rleb_true in Hw. exact Hw.
    - assert (C : forall c l, Rsum (map (fun _ : nat => c) l) = INR (length l) * c). { intros c l. induction l as [|a l IH]; [simpl; ring|]. cbn [length map Rsum]. rewrite IH, S_INR. ring. }
      rewrite C, seq_length. right. reflexivity. }
  pose proof (Pr_negb E HE (fun w => existsb (fun j => bad j w) (seq 0 (m + 1)))) as N.
  apply Rle_trans with (Pr E (fun w => negb (existsb (fun j => bad j w) (seq 0 (m + 1))))); [lra|]. apply (Pr_mono E HE). intros w Hw. apply negb_true_iff in Hw.
  assert (G : forall j, (j <= m)%nat -> Rabs (fraction (fun y => Rleb y (INR j)) (draws n S w) - F (INR j)) < q / 2).
  { intros j Hj. destruct (bad j w) eqn:Eb; [|unfold bad in Eb; apply Rleb_false in Eb; exact Eb]. exfalso. assert (X : existsb (fun j => bad j w) (seq 0 (m + 1)) = true) by (apply existsb_exists; exists j; split; [apply in_seq; lia|exact Eb]). congruence. }
  assert (LN : length (draws n S w) = n) by (unfold draws; rewrite map_length; apply seq_length).
  assert (V : forall x, In x (draws n S w) -> exists j, (j <= m)%nat /\ x = INR j).
  { intros x Hx. unfold draws in Hx. apply in_map_iff in Hx. destruct Hx as (i & <- & Hi). apply in_seq in Hi. apply HV. lia. }
  assert (A : forall x, In x (map INR (seq 0 (Datatypes.S m))) <-> In x (draws n S w)).
  { intros x. split; intros Hx.
    - apply in_map_iff in Hx. destruct Hx as (j & <- & Hj). apply in_seq in Hj. destruct (in_dec Req_EM_T (INR j) (draws n S w)) as [|Nx]; [assumption|exfalso].
      destruct j as [|j].
      + specialize (G 0%nat ltac:(lia)). change (INR 0) with 0 in *. assert (Z : fraction (fun y => Rleb y 0) (draws n S w) = 0).
        { unfold fraction. rewrite (count_zero (fun y => Rleb y 0)); [simpl; unfold Rdiv; ring|]. intros x Hx. destruct (V x Hx) as (i & Hi & ->). apply Rleb_false. destruct i as [|i]; [now elim Nx|apply INR_pos; lia]. }
        rewrite Z in G. rewrite Rabs_left1 in G by lra. lra.
      + pose proof (G j ltac:(lia)) as G1. pose proof (G (Datatypes.S j) ltac:(lia)) as G2. specialize (HJ j ltac:(lia)). replace (j + 1)%nat with (Datatypes.S j) in HJ by lia.
        assert (Z : fraction (fun y => Rleb y (INR (Datatypes.S j))) (draws n S w) = fraction (fun y => Rleb y (INR j)) (draws n S w)).
        { unfold fraction. f_equal. f_equal. apply count_ext. intros x Hx. destruct (V x Hx) as (i & Hi & ->). destruct (Nat.le_gt_cases i j) as [Hij|Hij].
          - rewrite !(proj2 (Rleb_true _ _)); [reflexivity|apply le_INR; lia|apply le_INR; lia].
          - assert (i <> Datatypes.S j) by (intros ->; now apply Nx). rewrite !(proj2 (Rleb_false _ _)); [reflexivity|apply lt_INR; lia|apply lt_INR; lia]. }
        rewrite Z in G2. apply Rabs_def2 in G1. apply Rabs_def2 in G2. lra.
    - destruct (V x Hx) as (j & Hj & ->). apply in_map. apply in_seq. lia. }
  rewrite cv_test; [|intros X; rewrite X in LN; simpl in LN; lia|lra]. rewrite HT. unfold cvr. rewrite (cvh_seq m level _ Hm Hl A). apply Rltb_true. rewrite minus_INR by lia. simpl (INR 1). lra.
Qed.

(** m small values and a large one *)
Definition top_heavy (m : nat) (q : R) : list (R * nat) := (1 - INR m * q, m) :: map (fun j => (q, j)) (seq 0 m).
Lemma sum_up_to q m j : (j < m)%nat -> Rsum (map (fun i => q * ind (Rleb (INR (Nat.min m i)) (INR j))) (seq 0 m)) = q * INR (j + 1).
Proof.
  intros Hj. replace (map (fun i => q * ind (Rleb (INR (Nat.min m i)) (INR j))) (seq 0 m)) with (map (fun i => q * ind (i <=? j)%nat) (seq 0 m)).
  2:{ apply map_ext_in. intros i Hi. apply in_seq in Hi. f_equal. f_equal. rewrite Nat.min_r by lia. destruct (Nat.leb_spec i j); symmetry; [apply Rleb_true, le_INR; lia|apply Rleb_false, lt_INR; lia]. }
  assert (G : forall k, Rsum (map (fun i => q * ind (i <=? j)%nat) (seq 0 k)) = q * INR (Nat.min k (j + 1))).
  { induction k as [|k IH]; [simpl; ring|]. rewrite seq_S, map_app, Rsum_app, IH. cbn [map Rsum Nat.add].
    destruct (Nat.leb_spec k j); cbn [ind]; [rewrite !Nat.min_l by lia; rewrite S_INR; ring|rewrite !Nat.min_r by lia; ring]. }
  rewrite G. now rewrite Nat.min_r by lia.
Qed.
Lemma top_heavy_weights m q : 0 <= q -> INR m * q <= 1 -> weights (top_heavy m q).
Proof.
  intros Hq Hm. split.
  - intros p [<-|Hp]; simpl; [lra|]. apply in_map_iff in Hp. destruct Hp as (j & <- & _). exact Hq.
  - unfold top_heavy. cbn [map fst Rsum]. rewrite map_map. cbn [fst].
    assert (C : forall l : list nat, Rsum (map (fun _ => q) l) = INR (length l) * q). { induction l as [|a l IH]; [simpl; ring|]. cbn [length map Rsum]. rewrite IH, S_INR. ring. }
    rewrite C, seq_length. lra.
Qed.
Lemma top_heavy_cdf m q j : (j < m)%nat -> law_cdf (top_heavy m q) (fun i => INR (Nat.min m i)) (INR j) = q * INR (j + 1).
Proof.
  intros Hj. unfold law_cdf, Pr, finite_expectation, top_heavy. cbn [map fst snd Rsum]. rewrite Nat.min_id, map_map. cbn [fst snd]. rewrite sum_up_to by exact Hj.
  rewrite (proj2 (Rleb_false (INR m) (INR j))) by (apply lt_INR; lia). simpl ind. ring.
Qed.
Lemma top_heavy_cdf_top m q : law_cdf (top_heavy m q) (fun i => INR (Nat.min m i)) (INR m) = 1.
Proof.
  unfold law_cdf, Pr, finite_expectation, top_heavy. cbn [map fst snd Rsum]. rewrite Nat.min_id, map_map. cbn [fst snd].
  rewrite (proj2 (Rleb_true (INR m) (INR m))) by lra.
  assert (C : forall l : list nat, Rsum (map (fun i => q * ind (Rleb (INR (Nat.min m i)) (INR m))) l) = INR (length l) * q).
  { induction l as [|a l IH]; [simpl; ring|]. cbn [length map Rsum]. rewrite IH, S_INR, (proj2 (Rleb_true (INR (Nat.min m a)) (INR m))) by (apply le_INR; lia). simpl ind. ring. }
  rewrite C, seq_length. simpl ind. ring.
Qed.
(** With ties the critical values do not converge to the exact decision: at every level there is a law and a value whose exact p-value
    is as near to 1 as one likes, and yet the value is rejected with a probability that tends to 1. *)
Lemma C118_ties_refuted_holds : forall level eps delta, 0 < level <= 1 -> 0 < eps -> 0 < delta ->
  exists F v, 1 - eps <= exact_p_value F RIGHT v /\ exists N, forall n, (N <= n)%nat ->
  exists (E : (list nat -> R) -> R) S, is_expectation E /\ independent_draws E n S F /\
  forall st k, tests st RIGHT -> 1 - delta <= Pr E (fun w => test_rejects CriticalValueMethod st level k (draws n S w) v).
Proof.
  intros level eps delta Hl He Hd. destruct (archimed_cor1 level (proj1 Hl)) as (m & Hm & Hm0). assert (P : 0 < INR m) by (apply INR_pos; lia).
  assert (HL : 1 < INR m * level) by (apply Rmult_lt_compat_l with (r := INR m) in Hm; [rewrite Rinv_r in Hm by lra; exact Hm|exact P]).
  set (q := Rmin eps 1 / INR (m + 1)). assert (P1 : INR (m + 1) = INR m + 1) by (rewrite plus_INR; simpl; ring).
  assert (E0 : 0 < Rmin eps 1) by (apply Rmin_pos; lra). pose proof (Rmin_l eps 1) as E1. pose proof (Rmin_r eps 1) as E2.
  assert (Hq : 0 < q) by (apply Rdiv_lt_0_compat; lra). assert (Q : INR (m + 1) * q = Rmin eps 1) by (unfold q; field; lra). rewrite P1 in Q.
  assert (HW : weights (top_heavy m q)) by (apply top_heavy_weights; nra).
  exists (law_cdf (top_heavy m q) (fun i => INR (Nat.min m i))), (INR (m - 1)). split.
  - cbn [exact_p_value]. rewrite top_heavy_cdf by lia. replace (m - 1 + 1)%nat with m by lia. nra.
  - assert (Q2 : 0 < q ^ 2) by (apply pow_lt; exact Hq). destruct (archimed_cor1 (delta * q ^ 2 / INR (m + 1))) as (N & HN & HN0); [apply Rdiv_lt_0_compat; [nra|lra]|].
    exists N. intros n Hn. exists (repeated (top_heavy m q) n), (fun i w => INR (Nat.min m (nth i w 0%nat))).
    destruct (C118_nonvacuous_repeated_holds nat (top_heavy m q) (fun i => INR (Nat.min m i)) 0%nat n HW) as [HE HI]. split; [exact HE|split; [exact HI|]]. intros st k HT.
    assert (PN : 0 < INR N) by (apply INR_pos; lia). assert (PM : INR N <= INR n) by (apply le_INR; exact Hn).
    pose proof (C118_many_values_rejected_holds (list nat) (repeated (top_heavy m q) n) n (fun i w => INR (Nat.min m (nth i w 0%nat))) _ m q st level k HE HI ltac:(lia) Hm0 Hl HL Hq) as B.
    apply Rle_trans with (2 := B ltac:(intros i w _; exists (Nat.min m (nth i w 0%nat)); split; [lia|reflexivity]) ltac:(change 0 with (INR 0); rewrite top_heavy_cdf by lia; simpl; lra)
      ltac:(intros j Hj; destruct (Nat.eq_dec (j + 1) m) as [<-|Nj]; [rewrite top_heavy_cdf_top, top_heavy_cdf by lia; lra|rewrite !top_heavy_cdf by lia; rewrite !plus_INR; simpl; lra]) HT).
    assert (I : / INR n <= / INR N) by (apply Rinv_le_contravar; lra).
    assert (INR (m + 1) / (INR n * q ^ 2) <= delta); [|lra].
    replace (INR (m + 1) / (INR n * q ^ 2)) with (/ INR n * (INR (m + 1) / q ^ 2)) by (field; lra).
    replace delta with ((delta * q ^ 2 / INR (m + 1)) * (INR (m + 1) / q ^ 2)) by (field; lra).
    apply Rmult_le_compat_r; [apply Rlt_le, Rdiv_lt_0_compat; lra|lra].
Qed.
