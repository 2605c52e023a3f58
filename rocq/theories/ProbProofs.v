From Verif Require Import Base ProbSpec.

Lemma bounded_const {Om} c : bounded (fun _ : Om => c).
Proof. exists (Rabs c); intros; lra. Qed.
Lemma bounded_ind {Om} (A : Om -> bool) : bounded (fun w => ind (A w)).
Proof. exists 1; intros w; unfold ind; destruct (A w); rewrite ?Rabs_R0, ?Rabs_R1; lra. Qed.
Lemma bounded_scal {Om} c (f : Om -> R) : bounded f -> bounded (fun w => c * f w).
Proof.
  intros [M H]. exists (Rabs c * M); intros w. rewrite Rabs_mult.
  apply Rmult_le_compat_l; [apply Rabs_pos|apply H].
Qed.
Lemma bounded_plus {Om} (f g : Om -> R) : bounded f -> bounded g -> bounded (fun w => f w + g w).
Proof.
  intros [M H] [N K]. exists (M + N); intros w. specialize (H w); specialize (K w).
  eapply Rle_trans; [apply Rabs_triang|lra].
Qed.
Lemma bounded_between {Om} (f : Om -> R) a b : (forall w, a <= f w <= b) -> bounded f.
Proof.
  intros H. exists (Rabs a + Rabs b). intros w. specialize (H w).
  unfold Rabs at 1. destruct (Rcase_abs (f w)).
  - pose proof (Rle_abs (- a)). rewrite Rabs_Ropp in H0. pose proof (Rabs_pos b). lra.
  - pose proof (Rle_abs b). pose proof (Rabs_pos a). lra.
Qed.
Lemma bounded_sum {Om A} (f : A -> Om -> R) l :
  (forall a, In a l -> bounded (f a)) -> bounded (fun w => Rsum (map (fun a => f a w) l)).
Proof.
  induction l as [|a l IH]; intros H; simpl; [apply bounded_const|].
  apply bounded_plus; [apply H; simpl; auto|apply IH; intros; apply H; simpl; auto].
Qed.

Section Expect.
Context {Om : Type} (E : (Om -> R) -> R) (HE : is_expectation E).

Lemma E_ext f g : bounded f -> bounded g -> (forall w, f w = g w) -> E f = E g.
Proof.
  intros Hf Hg H. apply Rle_antisym; apply (E_mono _ HE); auto; intros w; rewrite H; lra.
Qed.
Lemma E_scal c f : bounded f -> E (fun w => c * f w) = c * E f.
Proof.
  intros Hf. transitivity (E (fun w => c * f w + 0 * f w)).
  - apply E_ext; [apply bounded_scal, Hf| |intros; lra].
    apply bounded_plus; apply bounded_scal, Hf.
  - rewrite (E_lin _ HE) by assumption. lra.
Qed.
Lemma E_plus f g : bounded f -> bounded g -> E (fun w => f w + g w) = E f + E g.
Proof.
  intros Hf Hg. transitivity (E (fun w => 1 * f w + 1 * g w)).
  - apply E_ext; [apply bounded_plus; auto| |intros; lra].
    apply bounded_plus; apply bounded_scal; auto.
  - rewrite (E_lin _ HE) by assumption. lra.
Qed.
Lemma E_const c : E (fun _ => c) = c.
Proof.
  transitivity (E (fun _ => c * 1)).
  - apply E_ext; try apply bounded_const. intros; lra.
  - rewrite (E_scal c (fun _ => 1)) by apply bounded_const. rewrite (E_one _ HE). lra.
Qed.
Lemma E_sum {A} (f : A -> Om -> R) l :
  (forall a, In a l -> bounded (f a)) ->
  E (fun w => Rsum (map (fun a => f a w) l)) = Rsum (map (fun a => E (f a)) l).
Proof.
  induction l as [|a l IH]; intros H; simpl; [apply E_const|].
  rewrite E_plus.
  - rewrite IH; auto. intros; apply H; simpl; auto.
  - apply H; simpl; auto.
  - apply bounded_sum. intros; apply H; simpl; auto.
Qed.
Lemma Pr_mono (A B : Om -> bool) : (forall w, A w = true -> B w = true) -> Pr E A <= Pr E B.
Proof.
  intros H. apply (E_mono _ HE); try apply bounded_ind.
  intros w. specialize (H w). unfold ind. destruct (A w), (B w); try lra.
Qed.
Lemma Pr_le1 A : Pr E A <= 1.
Proof.
  rewrite <- (E_one _ HE). apply (E_mono _ HE); [apply bounded_ind|apply bounded_const|].
  intros w; unfold ind; destruct (A w); lra.
Qed.
Lemma Pr_nonneg A : 0 <= Pr E A.
Proof.
  rewrite <- (E_const 0). apply (E_mono _ HE); [apply bounded_const|apply bounded_ind|].
  intros w; unfold ind; destruct (A w); lra.
Qed.
Lemma Pr_false A : (forall w, A w = false) -> Pr E A = 0.
Proof.
  intros H. rewrite <- (E_const 0). apply E_ext; [apply bounded_ind|apply bounded_const|].
  intros w; rewrite H; reflexivity.
Qed.
Lemma Pr_negb A : Pr E (fun w => negb (A w)) = 1 - Pr E A.
Proof.
  unfold Pr. transitivity (E (fun w => 1 * 1 + (-1) * ind (A w))).
  - apply E_ext; [apply (bounded_ind (fun w => negb (A w)))| |].
    + apply bounded_plus; apply bounded_scal; [apply bounded_const|apply bounded_ind].
    + intros w; unfold ind; destruct (A w); simpl; lra.
  - rewrite (E_lin _ HE 1 (-1) (fun _ => 1)); [|apply bounded_const|apply bounded_ind].
    rewrite (E_one _ HE). lra.
Qed.
(** union bound *)
Lemma Pr_union {A} (P : A -> Om -> bool) l :
  Pr E (fun w => existsb (fun a => P a w) l) <= Rsum (map (fun a => Pr E (P a)) l).
Proof.
  unfold Pr at 2. rewrite <- (E_sum (fun a w => ind (P a w))).
  - apply (E_mono _ HE); [apply bounded_ind|apply bounded_sum; intros; apply bounded_ind|].
    intros w. destruct (existsb _ l) eqn:Hex; simpl.
    + apply existsb_exists in Hex. destruct Hex as [a [Ha HP]].
      apply Rle_trans with (ind (P a w)); [rewrite HP; simpl; lra|].
      apply Rsum_in_le.
      * intros y Hy. apply in_map_iff in Hy. destruct Hy as [b [<- _]]. unfold ind; destruct (P b w); lra.
      * apply in_map_iff; eauto.
    + apply Rsum_map_nonneg. intros b _. unfold ind; destruct (P b w); lra.
  - intros; apply bounded_ind.
Qed.

Lemma superuniform_lt X t : superuniform E X -> 0 <= t -> Pr E (fun w => Rltb (X w) t) <= t.
Proof.
  intros H Ht. destruct (Rle_dec t 1) as [H1|H1].
  - eapply Rle_trans; [|apply (H t); lra]. apply Pr_mono.
    intros w Hw. apply Rltb_true in Hw. apply Rleb_true; lra.
  - pose proof (Pr_le1 (fun w => Rltb (X w) t)). lra.
Qed.

(** ** Hommel weights: [tail b k c x] = sum over l = k..k+c of weights times [x < b*l] *)
Fixpoint tail (b : R) (k c : nat) (x : R) : R :=
  match c with
  | O => / INR k * ind (Rltb x (b * INR k))
  | S c' => (/ INR k - / INR (S k)) * ind (Rltb x (b * INR k)) + tail b (S k) c' x
  end.

Lemma inv_step k : (1 <= k)%nat -> 0 <= / INR k - / INR (S k).
Proof.
  intros H. assert (/ INR (S k) <= / INR k); [|lra].
  apply Rinv_le_contravar; [apply INR_pos; lia|apply le_INR; lia].
Qed.
Lemma ind_range b : 0 <= ind b <= 1.
Proof. destruct b; simpl; lra. Qed.

Lemma tail_nonneg b k c x : (1 <= k)%nat -> 0 <= tail b k c x.
Proof.
  revert k; induction c as [|c IH]; intros k Hk; simpl tail.
  - apply Rmult_le_pos; [left; apply Rinv_0_lt_compat, INR_pos; lia|apply ind_range].
  - apply Rplus_le_le_0_compat; [|apply IH; lia].
    apply Rmult_le_pos; [apply inv_step, Hk|apply ind_range].
Qed.
Lemma tail_all b k c x : 0 <= b -> (1 <= k)%nat -> x < b * INR k -> tail b k c x = / INR k.
Proof.
  intros Hb; revert k; induction c as [|c IH]; intros k Hk Hx; cbn [tail];
    rewrite (proj2 (Rltb_true _ _) Hx); cbn [ind]; [lra|].
  rewrite IH; [lra|lia|].
  eapply Rlt_le_trans; [exact Hx|]. apply Rmult_le_compat_l; [exact Hb|apply le_INR; lia].
Qed.
Lemma tail_ge b k c x j : 0 <= b -> (1 <= k)%nat -> (k <= j <= k + c)%nat ->
  x < b * INR j -> / INR j <= tail b k c x.
Proof.
  intros Hb; revert k; induction c as [|c IH]; intros k Hk Hj Hx.
  - assert (j = k) by lia; subst. rewrite tail_all; auto; lra.
  - destruct (Nat.eq_dec j k) as [->|Hne]; [rewrite tail_all; auto; lra|].
    cbn [tail]. assert (/ INR j <= tail b (S k) c x) by (apply IH; auto; lia).
    assert (0 <= (/ INR k - / INR (S k)) * ind (Rltb x (b * INR k))).
    { apply Rmult_le_pos; [apply inv_step, Hk|apply ind_range]. }
    lra.
Qed.
Lemma tail_bounded b k c (X : Om -> R) : bounded (fun w => tail b k c (X w)).
Proof.
  revert k; induction c as [|c IH]; intros k; cbn [tail].
  - apply bounded_scal, bounded_ind.
  - apply bounded_plus; [apply bounded_scal, bounded_ind|apply IH].
Qed.
(** 1/(k+1) + ... + 1/(k+c) *)
Fixpoint hsum (k c : nat) : R := match c with O => 0 | S c' => / INR (S k) + hsum (S k) c' end.

Lemma tail_expect b k c X : 0 <= b -> (1 <= k)%nat -> superuniform E X ->
  E (fun w => tail b k c (X w)) <= b * (1 + hsum k c).
Proof.
  intros Hb Hk HX; revert k Hk; induction c as [|c IH]; intros k Hk.
  - cbn [tail hsum]. rewrite (E_scal (/ INR k)) by apply bounded_ind.
    assert (Pr E (fun w => Rltb (X w) (b * INR k)) <= b * INR k).
    { apply superuniform_lt; auto. apply Rmult_le_pos; [auto|apply pos_INR]. }
    assert (0 < INR k) by (apply INR_pos; lia).
    apply Rle_trans with (/ INR k * (b * INR k)).
    + apply Rmult_le_compat_l; [left; apply Rinv_0_lt_compat; lra|exact H].
    + right. field. lra.
  - cbn [tail hsum].
    rewrite (E_plus (fun w => (/ INR k - / INR (S k)) * ind (Rltb (X w) (b * INR k))));
      [|apply bounded_scal, bounded_ind|apply tail_bounded].
    rewrite (E_scal (/ INR k - / INR (S k))) by apply bounded_ind.
    assert (HP : Pr E (fun w => Rltb (X w) (b * INR k)) <= b * INR k).
    { apply superuniform_lt; auto. apply Rmult_le_pos; [auto|apply pos_INR]. }
    assert (0 < INR k) by (apply INR_pos; lia).
    specialize (IH (S k) ltac:(lia)).
    assert ((/ INR k - / INR (S k)) * Pr E (fun w => Rltb (X w) (b * INR k))
            <= b * / INR (S k)).
    { apply Rle_trans with ((/ INR k - / INR (S k)) * (b * INR k)).
      - apply Rmult_le_compat_l; [apply inv_step, Hk|exact HP].
      - right. rewrite S_INR. field. lra. }
    unfold Pr in H0. lra.
Qed.
End Expect.

Lemma finite_is_expectation {Om} (pts : list (R * Om)) :
  weights pts -> is_expectation (finite_expectation pts).
Proof.
  intros [Hw Hs]. unfold finite_expectation. split.
  - intros a b f g _ _. rewrite <- !Rsum_map_scal, <- Rsum_map_plus.
    apply Rsum_map_ext; intros; ring.
  - intros f g _ _ H. apply Rsum_map_le. intros p Hp.
    apply Rmult_le_compat_l; [apply Hw, Hp|apply H].
  - etransitivity; [|exact Hs]. f_equal. apply map_ext. intros [a b]; simpl; ring.
Qed.
