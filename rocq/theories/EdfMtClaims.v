(** Property C80: the Min-Toshiyuki statistic. *)
From Verif Require Import Base DecModel EdfModel EdfSpec EdfProofs.
From Coq Require Import Lra Lia.

Lemma Rsum_imap_bounds (f : nat -> R -> R) l lo hi :
  (forall i x, nth_error l i = Some x -> lo <= f i x <= hi) -> len l * lo <= Rsum (imap f l) <= len l * hi.
Proof.
  revert f; induction l as [|x l IH]; intros f H.
  - unfold imap, len. simpl. lra.
  - rewrite imap_cons. unfold len in *. cbn [Rsum length]. rewrite S_INR.
    pose proof (H 0%nat x eq_refl). specialize (IH (fun i => f (S i)) (fun i y => H (S i) y)). lra.
Qed.
Lemma inv_var_ge x : 0 < x < 1 -> 2 <= sqrt (1 / (x * (1 - x))).
Proof.
  intros H. assert (0 < x * (1 - x)) by (apply Rmult_lt_0_compat; lra).
  rewrite <- (sqrt_Rsqr 2) by lra. apply sqrt_le_1_alt. unfold Rsqr.
  apply (Rmult_le_reg_r (x * (1 - x))); [lra|]. replace (1 / (x * (1 - x)) * (x * (1 - x))) with 1 by (field; lra). pose proof (Rle_0_sqr (2 * x - 1)) as Q. unfold Rsqr in Q. lra.
Qed.
Lemma inside_bool u : forallb (fun x => Rltb 0 x && Rltb x 1) u && negb (Nat.eqb (length u) 0) = true
  <-> (u <> [] /\ forall x, In x u -> 0 < x < 1).
Proof.
  rewrite andb_true_iff, forallb_forall, negb_true_iff, Nat.eqb_neq, length_zero_iff_nil.
  split; intros [A B]; split; auto.
  - intros x Hx. specialize (A x Hx). apply andb_true_iff in A. rewrite !Rltb_true in A. exact A.
  - intros x Hx. apply andb_true_iff. rewrite !Rltb_true. auto.
Qed.
Lemma mt_range u v w d : mt_do_execute u = Fin v -> ks_do_execute TWO_TAILED u = Ok d ->
  (forall x, In x u -> sqrt (1 / (x * (1 - x))) <= w) ->
  u <> [] /\ / sqrt (len u) <= v <= sqrt (len u) * d * w.
Proof.
  unfold mt_do_execute. intros H K W.
  destruct (forallb _ u && _) eqn:E; [|discriminate]. injection H as <-.
  apply inside_bool in E. destruct E as [Hne Hin]. split; [exact Hne|].
  rewrite ks_eval in K by exact Hne. injection K as <-.
  pose proof (len_pos u Hne) as Hp. pose proof (sqrt_lt_R0 _ Hp) as Hs.
  assert (Hss : sqrt (len u) * sqrt (len u) = len u) by (apply sqrt_sqrt; lra).
  assert (B := Rsum_imap_bounds (fun i x => Rmax (INR (S i) / len u - x) (x - INR i / len u) * sqrt (1 / (x * (1 - x)))) u
     (/ len u) (Rmax (dpv u) (dmv u) * w)).
  destruct B as [B1 B2].
  - intros i x Hx. pose proof (nth_error_In _ _ Hx) as Hi. pose proof (Hin x Hi) as H01.
    pose proof (inv_var_ge x H01) as H2. pose proof (W x Hi) as HW.
    apply (nth_error_nth0 _ _ _ 0) in Hx. destruct Hx as [Ex Hl].
    pose proof (dpv_ge u i Hl) as P. pose proof (dmv_ge u i Hl) as M. rewrite Ex in P, M.
    set (m := Rmax (INR (S i) / len u - x) (x - INR i / len u)).
    assert (M1 : / (2 * len u) <= m).
    { assert ((INR (S i) / len u - x) + (x - INR i / len u) = / len u) by (rewrite S_INR; field; lra).
      assert (/ (2 * len u) = / len u / 2) by (field; lra).
      pose proof (Rmax_l (INR (S i) / len u - x) (x - INR i / len u)) as H1.
      pose proof (Rmax_r (INR (S i) / len u - x) (x - INR i / len u)) as H3. fold m in H1, H3. lra. }
    assert (0 < / (2 * len u)) by (apply Rinv_0_lt_compat; lra).
    assert (M2 : m <= Rmax (dpv u) (dmv u)).
    { apply Rmax_lub; [eapply Rle_trans; [exact P|apply Rmax_l]|eapply Rle_trans; [exact M|apply Rmax_r]]. }
    split.
    + replace (/ len u) with (/ (2 * len u) * 2) by (field; lra). apply Rmult_le_compat; lra.
    + apply Rmult_le_compat; lra.
  - replace (len u * / len u) with 1 in B1 by (field; lra). split.
    + unfold Rdiv. rewrite <- (Rmult_1_l (/ sqrt (len u))) at 1.
      apply Rmult_le_compat_r; [left; apply Rinv_0_lt_compat; lra|exact B1].
    + apply (Rmult_le_reg_r (sqrt (len u))); [lra|].
      unfold Rdiv. rewrite Rmult_assoc, Rinv_l, Rmult_1_r by lra.
      replace (sqrt (len u) * Rmax (dpv u) (dmv u) * w * sqrt (len u))
        with (sqrt (len u) * sqrt (len u) * (Rmax (dpv u) (dmv u) * w)) by ring.
      rewrite Hss. exact B2.
Qed.

(** *** C80 *)
Lemma C80_finite_exactly_inside_holds : forall F rvs,
  mt_stat F rvs <> NonFinite <-> rvs <> [] /\ forall x, In x rvs -> 0 < F x < 1.
Proof.
  intros F rvs. unfold mt_stat, mt_do_execute, cdf_vals.
  assert (E : (map F (rsort rvs) <> [] /\ (forall x, In x (map F (rsort rvs)) -> 0 < x < 1)) <->
              (rvs <> [] /\ forall x, In x rvs -> 0 < F x < 1)).
  { split; intros [A B]; split.
    - intros ->. apply A. reflexivity.
    - intros x Hx. apply B, in_map. now apply rsort_in.
    - intros E. apply A. apply map_eq_nil in E. now apply rsort_nil_iff.
    - intros y Hy. apply in_map_iff in Hy. destruct Hy as (x & <- & Hx). apply B. now apply rsort_in. }
  rewrite <- E, <- inside_bool. destruct (_ && _); split; congruence.
Qed.
(** the value lies between 1/sqrt n and sqrt n times the Kolmogorov distance times the largest weight *)
Lemma C80_range_holds : forall F rvs v d w, mt_stat F rvs = Fin v -> ks_stat F TWO_TAILED rvs = Ok d ->
  (forall x, In x rvs -> sqrt (1 / (F x * (1 - F x))) <= w) ->
  / sqrt (INR (length rvs)) <= v <= sqrt (INR (length rvs)) * d * w.
Proof.
  intros F rvs v d w H K W. destruct (mt_range (cdf_vals F rvs) v w d H K) as [_ B].
  - intros y Hy. apply in_map_iff in Hy. destruct Hy as (x & <- & Hx). apply W. now apply rsort_in.
  - unfold cdf_vals, len in B. rewrite map_length, rsort_length in B. exact B.
Qed.
Lemma C80_order_irrelevant_holds : forall F rvs1 rvs2, Permutation rvs1 rvs2 -> mt_stat F rvs1 = mt_stat F rvs2.
Proof. intros F rvs1 rvs2 P. unfold mt_stat, cdf_vals. now rewrite (rsort_perm_eq _ _ P). Qed.
(** both bounds are attained *)
Lemma C80_nonvacuous_holds : mt_stat (fun x => x) [1/2] = Fin 1 /\ ks_stat (fun x => x) TWO_TAILED [1/2] = Ok (1/2) /\
  sqrt (1 / (1/2 * (1 - 1/2))) = 2.
Proof.
  assert (E : sqrt (1 / (1/2 * (1 - 1/2))) = 2).
  { replace (1 / (1/2 * (1 - 1/2))) with (Rsqr 2) by (unfold Rsqr; field). apply sqrt_Rsqr. lra. }
  split; [|split; [|exact E]].
  - unfold mt_stat, mt_do_execute, cdf_vals. cbn [rsort rinsert map].
    rewrite (proj2 (inside_bool [1/2])).
    + unfold imap, len. cbn [imap_from Rsum length INR]. rewrite E.
      replace (1 / 1 - 1 / 2) with (1/2) by field. replace (1 / 2 - 0 / 1) with (1/2) by field.
      rewrite Rmax_left by lra. f_equal. rewrite sqrt_1. field.
    + split; [discriminate|]. intros x [<-|[]]. lra.
  - unfold ks_stat, cdf_vals. cbn [rsort rinsert map]. rewrite ks_eval by discriminate. f_equal.
    unfold dpv, dmv, d_plus, d_minus, imap, len. cbn [imap_from Rmaxl fold_left fold_right length INR].
    replace (1 / 1 - 1 / 2) with (1/2) by field. replace (1 / 2 - 0 / 1) with (1/2) by field.
    apply Rmax_left. lra.
Qed.
