(** Lemmas about the beta statistics. *)
From Coq Require Import String.
From Coquelicot Require Import Coquelicot.
From Verif Require Import Base DecModel EdfModel EdfSpec GraphModel NormalLaw ExpModel NormModel NormSpec BetaModel BetaSpec
  Analysis EdfProofs EdfRotProofs EdfPowerProofs NormProofs NormSymProofs NormReflProofs NormRangeProofs NormFiniteProofs EdfClaims StudentProofs.
From Coq Require Import Lra Lia.
Local Open Scope R_scope.

(** ** the uniform distribution satisfies the law *)
Lemma unit_law : beta_law (fun _ _ => unit_cdf) (fun _ _ => 0).
Proof.
  split; trivial.
  - intros _ _ _ _. split; [|split].
    + intros x y H. unfold unit_cdf, Rmax, Rmin. repeat destruct (Rle_dec _ _); lra.
    + intros x. unfold unit_cdf, Rmax, Rmin. repeat destruct (Rle_dec _ _); lra.
    + intros x. apply continuity_pt_filterlim. 
      apply (continuous_ext (fun x => (Rabs x - Rabs (x - 1) + 1) / 2)).
      { intros t. unfold unit_cdf, Rmax, Rmin, Rabs. repeat destruct (Rle_dec _ _); repeat destruct (Rcase_abs _); lra. }
      apply (continuous_mult (fun x => Rabs x - Rabs (x - 1) + 1) (fun _ => / 2) x); [|apply continuous_const].
      apply (continuous_plus (fun x => Rabs x - Rabs (x - 1)) (fun _ => 1) x); [|apply continuous_const].
      apply (continuous_minus (fun x => Rabs x) (fun x => Rabs (x - 1)) x); [apply continuous_Rabs|].
      apply (continuous_comp (fun x => x - 1) Rabs); [|apply continuous_Rabs].
      apply (continuous_minus (fun x : R => x) (fun _ => 1) x); [apply continuous_id|apply continuous_const].
  - intros _ _ _ _. unfold unit_cdf. rewrite Rmin_right, Rmax_left by lra. reflexivity.
  - intros _ _ _ _. unfold unit_cdf. rewrite Rmin_left, Rmax_right by lra. reflexivity.
  - intros _ _ x y _ _ H1 H2 H3. unfold unit_cdf, Rmax, Rmin. repeat destruct (Rle_dec _ _); lra.
  - intros _ _ x _ _. unfold unit_cdf, Rmax, Rmin. repeat destruct (Rle_dec _ _); lra.
Qed.

(** ** mirrored samples *)
Lemma mirror_aff l : mirror l = aff 1 (-1) l.
Proof. unfold mirror, aff. apply map_ext. intros; ring. Qed.
Lemma mirror_length l : length (mirror l) = length l. Proof. apply map_length. Qed.
Lemma mirror_len l : len (mirror l) = len l. Proof. unfold len. now rewrite mirror_length. Qed.
Lemma mirror_ne l : l <> [] -> mirror l <> []. Proof. now destruct l. Qed.
Lemma mirror_mean l : l <> [] -> mean (mirror l) = 1 - mean l.
Proof. intros H. rewrite mirror_aff, aff_mean by trivial. ring. Qed.
Lemma mirror_ssq l : ssq (mirror l) = ssq l. Proof. rewrite mirror_aff, ssq_aff. ring. Qed.
Lemma mirror_varying l : varying (mirror l) = varying l. Proof. unfold varying. now rewrite mirror_ssq. Qed.
Lemma mirror_kurt l : kurt (mirror l) = kurt l.
Proof. rewrite mirror_aff. unfold kurt. rewrite !moment_aff. f_equal; [ring|]. f_equal. f_equal. ring. Qed.
Lemma mirror_skewness l : skewness (mirror l) = - skewness l.
Proof. rewrite mirror_aff. unfold skewness. rewrite !moment_aff. replace ((-1) ^ 2 * moment 2 l) with (moment 2 l) by ring. unfold Rdiv. ring. Qed.
Lemma rsort_mirror l : rsort (mirror l) = flip (rsort l).
Proof. unfold mirror, flip. apply rsort_anti. intros; lra. Qed.
Lemma mirror_mirror l : mirror (mirror l) = l.
Proof. unfold mirror. rewrite map_map. rewrite (map_ext _ (fun x => x)), map_id by (intros; ring). reflexivity. Qed.
Lemma mirror_unit l : in_unit (mirror l) <-> in_unit l.
Proof.
  assert (K : forall l, in_unit l -> in_unit (mirror l)). { intros w H x Hx. apply in_map_iff in Hx as (y & <- & Hy). specialize (H y Hy). lra. }
  split; [intros H; rewrite <- mirror_mirror; now apply K|apply K].
Qed.
Lemma validated_ok f l : in_unit l -> beta_validated f l = f l.
Proof.
  intros H. unfold beta_validated. destruct (existsb _ l) eqn:E; trivial. exfalso. apply existsb_exists in E as (x & Hx & E). specialize (H x Hx).
  apply orb_true_iff in E as [E|E]; apply Rltb_true in E; lra.
Qed.
Lemma validated_raise f l : ~ in_unit l -> beta_validated f l = Raise ValueError.
Proof.
  intros H. unfold beta_validated. destruct (existsb _ l) eqn:E; trivial. exfalso. apply H. intros x Hx.
  destruct (Rltb_spec x 0) as [L|L]; [|destruct (Rltb_spec 1 x) as [L'|L']; [|lra]].
  - assert (existsb (fun x => Rltb x 0 || Rltb 1 x) l = true); [|congruence]. apply existsb_exists. exists x. split; trivial. apply orb_true_iff. left. now apply Rltb_true.
  - assert (existsb (fun x => Rltb x 0 || Rltb 1 x) l = true); [|congruence]. apply existsb_exists. exists x. split; trivial. apply orb_true_iff. right. now apply Rltb_true.
Qed.
Lemma in_unit_dec l : in_unit l \/ ~ in_unit l. Proof. apply Classical_Prop.classic. Qed.

Section Law.
Variables (B : R -> R -> R -> R) (betaln : R -> R -> R).
Hypothesis HL : beta_law B betaln.
Variables (a b : R).
Hypotheses (Ha : 0 < a) (Hb : 0 < b).
Lemma beta_vals_mirror l : cdf_vals (B b a) (mirror l) = flip (cdf_vals (B a b) l).
Proof.
  unfold cdf_vals. rewrite rsort_mirror. unfold flip. rewrite map_rev, !map_map. f_equal. apply map_ext. intros x. now apply (bl_mirror _ _ HL).
Qed.
Lemma beta_inside x : 0 < x < 1 -> 0 < B a b x < 1.
Proof.
  intros H. split.
  - rewrite <- (bl_zero _ _ HL a b Ha Hb). apply (bl_increasing _ _ HL); trivial; lra.
  - rewrite <- (bl_one _ _ HL a b Ha Hb). apply (bl_increasing _ _ HL); trivial; lra.
Qed.
End Law.

(** ** statistics of mirrored distribution function values *)
Lemma kuiper_flip u : kuiper_of (flip u) = kuiper_of u.
Proof.
  unfold kuiper_of. rewrite d_plus_flip, d_minus_flip, !np_max_rev. destruct (np_max (d_minus u)) eqn:E1, (np_max (d_plus u)) eqn:E2; cbn; trivial.
  1: f_equal; ring.
  all: unfold np_max, d_minus, d_plus in *; destruct u; cbn in *; congruence.
Qed.
Lemma watson_flip u : watson_of (flip u) = watson_of u.
Proof.
  unfold watson_of. rewrite cvm_flip, flip_len. destruct u as [|x u]; trivial. rewrite mean_flip by discriminate.
  destruct (cvm_do_execute (x :: u)); trivial. cbn [bind]. f_equal. f_equal. f_equal. lra.
Qed.

(** ** histograms *)
Lemma filter_map_strict (f : R -> R) e (l : list R) : (forall x y, x < y -> f x < f y) -> filter (fun x => Rltb x (f e)) (map f l) = map f (filter (fun x => Rltb x e) l).
Proof.
  intros Hf. induction l as [|x l IH]; trivial. cbn [map filter]. rewrite IH.
  destruct (Rltb_spec x e) as [L|L], (Rltb_spec (f x) (f e)) as [L'|L']; trivial.
  - apply Hf in L. lra.
  - destruct L as [L|<-]; [apply Hf in L|]; lra.
Qed.
Lemma filter_map_strict_neg (f : R -> R) e (l : list R) : (forall x y, x < y -> f x < f y) -> filter (fun x => negb (Rltb x (f e))) (map f l) = map f (filter (fun x => negb (Rltb x e)) l).
Proof.
  intros Hf. induction l as [|x l IH]; trivial. cbn [map filter]. rewrite IH.
  destruct (Rltb_spec x e) as [L|L], (Rltb_spec (f x) (f e)) as [L'|L']; trivial.
  - apply Hf in L. lra.
  - destruct L as [L|<-]; [apply Hf in L|]; lra.
Qed.
Lemma histogram_map (f : R -> R) : (forall x y, x < y -> f x < f y) -> forall inner l, histogram (map f inner) (map f l) = histogram inner l.
Proof.
  intros Hf inner. induction inner as [|e inner IH]; intros l; cbn [map histogram]; [now rewrite map_length|].
  now rewrite filter_map_strict, filter_map_strict_neg, IH, map_length.
Qed.
Definition inner_edges (k : nat) : list R := map (fun i => INR (S i) / INR k) (seq 0 (k - 1)).
Lemma inner_edges_in k x : In x (inner_edges k) -> exists i, (1 <= i < k)%nat /\ x = INR i / INR k.
Proof. intros H. apply in_map_iff in H as (i & <- & Hi). apply in_seq in Hi. exists (S i). split; [lia|reflexivity]. Qed.
Lemma inner_edges_sorted k : sortedR (inner_edges k).
Proof.
  apply sorted_seq. intros i j H. apply Rmult_le_compat_r; [|apply le_INR; lia].
  destruct k; [lia|]. left. apply Rinv_0_lt_compat, lt_0_INR. lia.
Qed.
Lemma inner_edges_antisym k : antisym (map (fun x => x - 1 / 2) (inner_edges k)).
Proof.
  unfold inner_edges. rewrite map_map. destruct k as [|k]; [reflexivity|]. apply antisym_seq. intros i Hi.
  rewrite !S_INR, INR_rev by exact Hi. rewrite minus_INR by lia. rewrite S_INR. pose proof (pos_INR k). simpl (INR 1). field. lra.
Qed.
Lemma histogram_unit_mirror k l : off_edges k l -> histogram (inner_edges k) (mirror l) = rev (histogram (inner_edges k) l).
Proof.
  intros H. pose (f := fun x => x - 1 / 2). assert (Hf : forall x y, x < y -> f x < f y) by (intros; unfold f; lra).
  rewrite <- (histogram_map f Hf _ (mirror l)), <- (histogram_map f Hf _ l).
  replace (map f (mirror l)) with (neg (map f l)). 2:{ unfold neg, mirror. rewrite !map_map. apply map_ext. intros x. unfold f. lra. }
  apply histogram_mirror.
  - pose proof (inner_edges_sorted k) as S. revert S. clear. generalize (inner_edges k). intros w S. induction S as [|x w S IH F]; cbn [map]; constructor; trivial.
    rewrite Forall_forall in *. intros y Hy. apply in_map_iff in Hy as (z & <- & Hz). specialize (F z Hz). unfold f. lra.
  - apply inner_edges_antisym.
  - intros x Hx C. apply in_map_iff in Hx as (y & <- & Hy). apply in_map_iff in C as (e & E & He). apply inner_edges_in in He as (i & Hi & ->).
    apply (H y i Hy Hi). unfold f in E. lra.
Qed.
Lemma pd_sum_app lambda o1 : forall e1 o2 e2, length o1 = length e1 ->
  pd_sum lambda (o1 ++ o2) (e1 ++ e2) = match pd_sum lambda o1 e1, pd_sum lambda o2 e2 with Some s, Some t => Some (s + t) | _, _ => None end.
Proof.
  induction o1 as [|o o1 IH]; intros [|e e1] o2 e2 H; try discriminate.
  - cbn [app pd_sum]. destruct (pd_sum lambda o2 e2); trivial. f_equal. ring.
  - cbn [app pd_sum]. rewrite IH by (simpl in H; lia). destruct (pd_term lambda o e), (pd_sum lambda o1 e1), (pd_sum lambda o2 e2); trivial. f_equal. ring.
Qed.
Lemma pd_rev lambda o : forall e, length o = length e -> power_divergence lambda (rev o) (rev e) = power_divergence lambda o e.
Proof.
  assert (K : forall e, length o = length e -> pd_sum lambda (rev o) (rev e) = pd_sum lambda o e); [|intros e H; unfold power_divergence; now rewrite K].
  induction o as [|x o IH]; intros [|y e] H; try discriminate; trivial. cbn [rev]. rewrite pd_sum_app by (rewrite !rev_length; simpl in H; lia).
  rewrite IH by (simpl in H; lia). cbn [pd_sum]. destruct (pd_term lambda x y), (pd_sum lambda o e); trivial. f_equal. ring.
Qed.
Lemma beta_edges_rev k : (0 < k)%nat -> rev (beta_edges k) = map (fun x => 1 - x) (beta_edges k).
Proof.
  intros Hk. unfold beta_edges. rewrite rev_seq_map, map_map. apply map_ext_in. intros i Hi. apply in_seq in Hi.
  replace (S k - 1 - i)%nat with (k - i)%nat by lia. rewrite minus_INR by lia. assert (0 < INR k) by (apply lt_0_INR; lia). field. lra.
Qed.
Lemma expected_mirror B betaln a b k n : beta_law B betaln -> 0 < a -> 0 < b -> (0 < k)%nat ->
  map (fun d => d * n) (diff (map (B b a) (beta_edges k))) = rev (map (fun d => d * n) (diff (map (B a b) (beta_edges k)))).
Proof.
  intros HL Ha Hb Hk. rewrite <- map_rev. f_equal. assert (E : map (B b a) (beta_edges k) = rev (map (fun p => 1 - p) (map (B a b) (beta_edges k)))).
  { rewrite <- map_rev, <- map_rev, beta_edges_rev by trivial. rewrite !map_map. apply map_ext. intros x.
    rewrite <- (bl_mirror _ _ HL a b) by trivial. f_equal. ring. }
  rewrite E, diff_rev. f_equal. generalize (map (B a b) (beta_edges k)). clear. intros w. induction w as [|x [|y w] IH]; trivial.
  assert (D : forall u v (t : list R), diff (u :: v :: t) = (v - u) :: diff (v :: t)) by reflexivity.
  unfold neg in *. cbn [map] in *. rewrite !D. cbn [map]. rewrite IH. f_equal. ring.
Qed.

(** ** bins *)
Lemma sqrt_up_pos n : (0 < n)%nat -> (0 < Nat.sqrt_up n)%nat.
Proof. apply Nat.sqrt_up_pos. Qed.
Lemma beta_edges_strict k : (0 < k)%nat -> StronglySorted Rlt (beta_edges k) /\ in_unit (beta_edges k).
Proof.
  intros Hk. assert (0 < INR k) by (apply lt_0_INR; lia). split.
  - unfold beta_edges.
    assert (K : forall m s, StronglySorted Rlt (map (fun i => INR i / INR k) (seq s m))).
    { induction m as [|m IH]; intros s; [constructor|]. cbn [seq map]. constructor; [apply IH|]. apply Forall_forall. intros x Hx. apply in_map_iff in Hx as (i & <- & Hi).
      apply in_seq in Hi. apply Rmult_lt_compat_r; [now apply Rinv_0_lt_compat|apply lt_INR; lia]. }
    apply K.
  - intros x Hx. apply in_map_iff in Hx as (i & <- & Hi). apply in_seq in Hi. assert (INR i <= INR k) by (apply le_INR; lia). pose proof (pos_INR i). split.
    + apply Rmult_le_pos; [trivial|]. left. now apply Rinv_0_lt_compat.
    + apply (Rmult_le_reg_r (INR k)); trivial. unfold Rdiv. rewrite Rmult_assoc, Rinv_l by lra. lra.
Qed.
Lemma diff_strict l : StronglySorted Rlt l -> forall d, In d (diff l) -> 0 < d.
Proof.
  induction 1 as [|x l S IH F]; [easy|]. destruct l as [|y l]; [easy|]. change (diff (x :: y :: l)) with ((y - x) :: diff (y :: l)).
  intros d [<-|Hd]; [inversion F; subst; lra|auto].
Qed.
Lemma map_strict (f : R -> R) l : (forall x y, In x l -> In y l -> x < y -> f x < f y) -> StronglySorted Rlt l -> StronglySorted Rlt (map f l).
Proof.
  intros Hf S. induction S as [|x l S IH F]; cbn [map]; constructor.
  - apply IH. intros; apply Hf; simpl; auto.
  - rewrite Forall_forall in *. intros y Hy. apply in_map_iff in Hy as (z & <- & Hz). apply Hf; simpl; auto.
Qed.
Lemma expected_pos B betaln a b k n e : beta_law B betaln -> 0 < a -> 0 < b -> (0 < k)%nat -> 0 < n ->
  In e (map (fun d => d * n) (diff (map (B a b) (beta_edges k)))) -> 0 < e.
Proof.
  intros HL Ha Hb Hk Hn H. apply in_map_iff in H as (d & <- & Hd). apply Rmult_lt_0_compat; trivial. destruct (beta_edges_strict k Hk) as [S U].
  apply (diff_strict _ (map_strict (B a b) _ (fun x y Hx Hy L => bl_increasing _ _ HL a b x y Ha Hb (proj1 (U x Hx)) L (proj2 (U y Hy))) S) d Hd).
Qed.
Lemma expected_length (B : R -> R -> R -> R) a b k n : length (map (fun d => d * n) (diff (map (B a b) (beta_edges k)))) = k.
Proof. rewrite map_length, NormReflProofs.diff_length, map_length. unfold beta_edges. rewrite map_length, seq_length. lia. Qed.
Lemma last_map_seq {A} (f : nat -> A) s k d : last (map f (seq s (S k))) d = f (s + k)%nat.
Proof. rewrite seq_S, map_app. cbn [map]. apply last_last. Qed.
Lemma expected_total B betaln a b k n : beta_law B betaln -> 0 < a -> 0 < b -> (0 < k)%nat ->
  Rsum (map (fun d => d * n) (diff (map (B a b) (beta_edges k)))) = n.
Proof.
  intros HL Ha Hb Hk. rewrite (map_ext _ (fun d => n * d)) by (intros; ring). rewrite (Rsum_map_scal n (fun d => d)), map_id.
  assert (K : INR k <> 0) by (apply not_0_INR; lia).
  unfold beta_edges. rewrite map_map.
  assert (E : map (fun i => B a b (INR i / INR k)) (seq 0 (S k)) = B a b 0 :: map (fun i => B a b (INR i / INR k)) (seq 1 k)).
  { cbn [seq map]. f_equal. f_equal. simpl (INR 0). field. exact K. }
  rewrite E, diff_sum, <- E, last_map_seq. cbn [Nat.add]. replace (INR k / INR k) with 1 by (field; exact K).
  rewrite (bl_zero _ _ HL), (bl_one _ _ HL) by trivial. ring.
Qed.

(** ** moments *)
Lemma beta_var_pos a b : 0 < a -> 0 < b -> 0 < beta_var a b.
Proof. intros. unfold beta_var. apply Rdiv_lt_0_compat; [nra|]. apply Rmult_lt_0_compat; [nra|lra]. Qed.
Lemma beta_mean_swap a b : 0 < a -> 0 < b -> beta_mean b a = 1 - beta_mean a b.
Proof. intros. unfold beta_mean. field. lra. Qed.
Lemma beta_var_swap a b : beta_var b a = beta_var a b.
Proof. unfold beta_var. rewrite (Rmult_comm b a), (Rplus_comm b a). reflexivity. Qed.
Lemma beta_skew_swap a b : beta_skewness b a = - beta_skewness a b.
Proof. unfold beta_skewness. rewrite (Rmult_comm b a), (Rplus_comm b a). unfold Rdiv. ring. Qed.
Lemma beta_kurtosis_swap a b : beta_kurtosis b a = beta_kurtosis a b.
Proof. unfold beta_kurtosis. rewrite (Rmult_comm b a), (Rplus_comm b a). f_equal. ring. Qed.
Lemma skew_unbiased_mirror l : skew_unbiased (mirror l) = - skew_unbiased l.
Proof. unfold skew_unbiased. rewrite mirror_length, mirror_len, mirror_skewness. destruct (2 <? length l)%nat; ring. Qed.
Lemma kurtosis_unbiased_mirror l : kurtosis_unbiased (mirror l) = kurtosis_unbiased l.
Proof. unfold kurtosis_unbiased. now rewrite mirror_length, mirror_len, mirror_kurt. Qed.

(** ** entropy *)
Lemma vasicek_flip s : vasicek (flip s) = vasicek s.
Proof.
  unfold vasicek. rewrite flip_length. f_equal. rewrite (Rsum_seq_rev _ 0). apply f_equal. apply map_ext_in. intros i Hi. apply in_seq in Hi.
  replace (0 + length s - 1 - i)%nat with (length s - 1 - i)%nat by lia. set (m := (length s / 4)%nat).
  assert (E : window_range (flip s) m (length s - 1 - i) = window_range s m i); [|now rewrite E].
  unfold window_range. rewrite flip_length. unfold flip.
  assert (K : forall j, (j < length s)%nat -> nth j (rev (map (fun p => 1 - p) s)) 0 = 1 - nth (length s - 1 - j) s 0).
  { intros j Hj. rewrite rev_nth by (rewrite map_length; lia). rewrite map_length. replace (length s - S j)%nat with (length s - 1 - j)%nat by lia.
    rewrite (nth_indep _ 0 (1 - 0)) by (rewrite map_length; lia). now rewrite (map_nth (fun p => 1 - p)). }
  rewrite !K by lia. replace (length s - 1 - Nat.min (length s - 1) (length s - 1 - i + m))%nat with (i - m)%nat by lia.
  replace (length s - 1 - (length s - 1 - i - m))%nat with (Nat.min (length s - 1) (i + m)) by lia. ring.
Qed.

(** ** the ratio of geometric and arithmetic mean *)
Lemma mean_pos_of l : (forall x, In x l -> 0 <= x) -> mean l <> 0 -> l <> [] -> 0 < mean l.
Proof.
  intros H N NE. assert (0 <= mean l); [|lra]. unfold mean. apply Rmult_le_pos; [apply Rsum_nonneg, H|]. left. apply Rinv_0_lt_compat. now apply len_pos.
Qed.
Lemma geometric_range l : l <> [] -> (forall x, In x l -> 0 <= x) -> mean l <> 0 -> 0 <= geometric_mean l <= mean l.
Proof.
  intros NE H N. pose proof (mean_pos_of l H N NE) as M. unfold geometric_mean. destruct (existsb (fun x => Reqb x 0) l) eqn:E; [lra|].
  assert (P : forall x, In x l -> 0 < x). { intros x Hx. destruct (H x Hx) as [|Z]; trivial. exfalso. assert (existsb (fun x => Reqb x 0) l = true); [|congruence]. apply existsb_exists. exists x. split; trivial. now apply Reqb_true. }
  split; [left; apply exp_pos|]. rewrite <- (exp_ln (mean l)) at 1 by trivial.
  assert (K : mean (map ln l) <= ln (mean l)).
  { pose proof (len_pos l NE) as L. assert (S : Rsum (map ln l) <= len l * ln (mean l)).
    { assert (T : forall w, (forall x, In x w -> 0 < x) -> Rsum (map ln w) <= len w * ln (mean l) + (Rsum w / mean l - len w)).
      { induction w as [|x w IH]; intros Hw; [unfold len; cbn; unfold Rdiv; lra|]. cbn [map]. assert (RC : forall (u : R) w', Rsum (u :: w') = u + Rsum w') by reflexivity. rewrite !RC. replace (len (x :: w)) with (len w + 1) by (unfold len; cbn [length]; rewrite S_INR; reflexivity).
        specialize (IH (fun y Hy => Hw y (or_intror Hy))). pose proof (Hw x (or_introl eq_refl)) as Px. pose proof (ln_le_sub1 (x / mean l) ltac:(now apply Rdiv_lt_0_compat)) as Z.
        rewrite ln_div in Z by trivial. replace ((x + Rsum w) / mean l) with (x / mean l + Rsum w / mean l) by (field; lra). lra. }
      specialize (T l P). replace (Rsum l / mean l) with (len l) in T; [lra|]. unfold mean. fold (len l). field. split; [lra|]. intros Z. apply N. unfold mean. rewrite Z. unfold Rdiv. ring. }
    unfold mean at 1. rewrite len_map.
    apply (Rmult_le_reg_r (len l)); trivial. unfold Rdiv. rewrite Rmult_assoc, Rinv_l by lra. lra. }
  destruct K as [K|K]; [left; now apply exp_increasing|rewrite K; lra].
Qed.

(** ** the mode *)
Lemma argmax_from_in f best g : In (argmax_from f best g) (best :: g).
Proof.
  revert best. induction g as [|x g IH]; intros best; [now left|]. cbn [argmax_from]. specialize (IH (if Rltb (f best) (f x) then x else best)).
  destruct IH as [E|I]; [|right; now right]. rewrite <- E. destruct (Rltb (f best) (f x)); [right; now left|now left].
Qed.
Lemma argmax_from_ge f best g x : In x (best :: g) -> f x <= f (argmax_from f best g).
Proof.
  revert best x. induction g as [|y g IH]; intros best x H; cbn [argmax_from].
  - destruct H as [<-|[]]. lra.
  - destruct (Rltb_spec (f best) (f y)) as [L|L].
    + destruct H as [<-|[<-|H]]; [|apply IH; now left|apply IH; now right]. pose proof (IH y y (or_introl eq_refl)). lra.
    + destruct H as [<-|[<-|H]]; [apply IH; now left| |apply IH; now right]. pose proof (IH best best (or_introl eq_refl)). lra.
Qed.
Lemma argmax_in f g : g <> [] -> In (argmax_on f g) g.
Proof. destruct g as [|x g]; [easy|]. intros _. apply argmax_from_in. Qed.
Lemma argmax_ge f g x : In x g -> f x <= f (argmax_on f g).
Proof. destruct g as [|y g]; [easy|]. apply argmax_from_ge. Qed.
Lemma argmax_unique f g m : In m g -> (forall x, In x g -> x <> m -> f x < f m) -> argmax_on f g = m.
Proof.
  intros I U. destruct (Req_dec (argmax_on f g) m) as [|N]; trivial. exfalso.
  pose proof (U _ (argmax_in f g ltac:(destruct g; easy)) N). pose proof (argmax_ge f g m I). lra.
Qed.
Lemma mode_grid_ne : mode_grid <> []. Proof. unfold mode_grid. now destruct (seq 0 200) eqn:E. Qed.
Lemma mode_grid_in x : In x mode_grid <-> exists i, (i < 200)%nat /\ x = 0.01 + 0.98 * INR i / 199.
Proof.
  unfold mode_grid. rewrite in_map_iff. split; intros (i & H1 & H2).
  - exists i. apply in_seq in H2. split; [lia|now symmetry].
  - exists i. split; [now symmetry|]. apply in_seq. lia.
Qed.
Lemma mode_grid_mirror x : In x mode_grid -> In (1 - x) mode_grid.
Proof.
  rewrite !mode_grid_in. intros (i & Hi & ->). exists (199 - i)%nat. split; [lia|]. rewrite minus_INR by lia. replace (INR 199) with 199 by (simpl; lra). lra.
Qed.
Lemma kde_mirror l x : kde (mirror l) (1 - x) = kde l x.
Proof.
  unfold kde. rewrite mirror_ssq, mirror_len. unfold mirror. rewrite map_map. apply f_equal. apply map_ext. intros y.
  replace (1 - x - (1 - y)) with (- (x - y)) by ring. replace ((- (x - y)) ^ 2) with ((x - y) ^ 2) by ring. reflexivity.
Qed.
Lemma mode_half x : In x mode_grid -> 0.49 / 199 <= Rabs (x - 1 / 2).
Proof.
  rewrite mode_grid_in. intros (i & Hi & ->). destruct (le_lt_dec i 99) as [L|L].
  - apply le_INR in L. replace (INR 99) with 99 in L by (simpl; lra). rewrite Rabs_left1; lra.
  - apply (le_INR 100) in L. replace (INR 100) with 100 in L by (simpl; lra). rewrite Rabs_right; lra.
Qed.
