(** Power divergences vanish only for equal frequencies; histograms in terms of the numbers of observations below the edges. *)
From Coq Require Import Lia Lra.
From Verif Require Import Base DecModel EdfModel EdfSpec EdfProofs Analysis EdfPowerProofs ChisqSpec.
Local Open Scope R_scope.

(** *** strict versions of Bernoulli's inequality *)
Lemma exp_convex_strict p t : 0 < p < 1 -> t <> 0 -> exp (p * t) < p * exp t + (1 - p).
Proof.
  intros Hp Ht.
  assert (A : exp (p * t) * (1 + (t - p * t)) <= exp t).
  { replace (exp t) with (exp (p * t) * exp (t - p * t)) by (rewrite <- exp_plus; f_equal; ring).
    apply Rmult_le_compat_l; [left; apply exp_pos|]. apply exp_ineq1_le. }
  assert (B : exp (p * t) * (1 + (- (p * t))) < 1).
  { replace 1 with (exp (p * t) * exp (- (p * t))) at 2 by (rewrite <- exp_plus, <- exp_0; f_equal; ring).
    apply Rmult_lt_compat_l; [apply exp_pos|]. apply exp_ineq1. apply Ropp_neq_0_compat. apply Rmult_integral_contrapositive. split; lra. }
  assert (A' : p * (exp (p * t) * (1 + (t - p * t))) <= p * exp t) by (apply Rmult_le_compat_l; lra).
  assert (B' : (1 - p) * (exp (p * t) * (1 + (- (p * t)))) < (1 - p) * 1) by (apply Rmult_lt_compat_l; lra).
  assert (E : p * (exp (p * t) * (1 + (t - p * t))) + (1 - p) * (exp (p * t) * (1 + (- (p * t)))) = exp (p * t)) by ring.
  lra.
Qed.
Lemma ln_neq_0' x : 0 < x -> x <> 1 -> ln x <> 0.
Proof. intros H N E. apply N. apply ln_inv; trivial; [lra|now rewrite ln_1]. Qed.
Lemma ln_lt_sub1 x : 0 < x -> x <> 1 -> ln x < x - 1.
Proof. intros H N. pose proof (exp_ineq1 (ln x) (ln_neq_0' x H N)) as E. rewrite exp_ln in E by trivial. lra. Qed.
Lemma bernoulli_mid_strict p x : 0 < x -> x <> 1 -> 0 < p < 1 -> Rpower x p < 1 + p * (x - 1).
Proof. intros Hx N Hp. unfold Rpower. pose proof (exp_convex_strict p (ln x) Hp (ln_neq_0' x Hx N)) as H. rewrite exp_ln in H by exact Hx. lra. Qed.
Lemma bernoulli_out_strict p x : 0 < x -> x <> 1 -> p < 0 \/ 1 < p -> 1 + p * (x - 1) < Rpower x p.
Proof.
  intros Hx N [Hp|Hp]; unfold Rpower.
  - pose proof (exp_ineq1_le (p * ln x)). pose proof (ln_lt_sub1 x Hx N). nra.
  - assert (Hq : 0 < / p < 1).
    { split; [apply Rinv_0_lt_compat; lra|]. rewrite <- Rinv_1. apply Rinv_lt_contravar; lra. }
    pose proof (exp_convex_strict (/ p) (p * ln x) Hq) as H. replace (/ p * (p * ln x)) with (ln x) in H by (field; lra). rewrite exp_ln in H by exact Hx.
    assert (Z : x < / p * exp (p * ln x) + (1 - / p)) by (apply H, Rmult_integral_contrapositive; split; [lra|now apply ln_neq_0']).
    assert (Y : p * x < p * (/ p * exp (p * ln x) + (1 - / p))) by (apply Rmult_lt_compat_l; lra).
    replace (p * (/ p * exp (p * ln x) + (1 - / p))) with (exp (p * ln x) + (p - 1)) in Y by (field; lra). lra.
Qed.
Lemma pd_term_gt lambda_ o e t : 0 <= o -> 0 < e -> lambda_ <> 1 -> o <> e -> pd_term lambda_ o e = Some t ->
  (if Reqb lambda_ 0 then 2 else pd_slope lambda_) * (o - e) < t.
Proof.
  intros Ho He Hl1 N H. unfold pd_term in H. unfold pd_slope. rewrite (proj2 (Reqb_false _ _) Hl1) in H.
  assert (Q1 : forall u v, 0 < u -> 0 < v -> u <> v -> v / u <> 1) by (intros u v Hu Hv D E; apply D; apply (Rmult_eq_reg_r (/ u)); [|apply Rinv_neq_0_compat; lra]; rewrite Rinv_r by lra; unfold Rdiv in E; lra).
  destruct (Reqb_spec lambda_ 0) as [->|H0].
  - rewrite (proj2 (Reqb_false e 0)) in H by lra. injection H as <-. unfold xlogy.
    destruct (Reqb_spec o 0) as [->|Hne]; [lra|].
    assert (A : ln (e / o) < e / o - 1) by (apply ln_lt_sub1; [apply Rdiv_lt_0_compat; lra|apply Q1; lra]).
    rewrite ln_quot in A by lra. rewrite ln_quot by lra.
    assert (H : o * (ln e - ln o) < o * (e / o - 1)) by (apply Rmult_lt_compat_l; lra).
    replace (o * (e / o - 1)) with (e - o) in H by (field; lra). lra.
  - destruct (Reqb_spec lambda_ (-1)) as [->|Hm1].
    + destruct (Reqb_spec o 0) as [->|Hne]; [discriminate|]. injection H as <-. unfold xlogy.
      rewrite (proj2 (Reqb_false e 0)) by lra.
      assert (A : ln (o / e) < o / e - 1) by (apply ln_lt_sub1; [apply Rdiv_lt_0_compat; lra|apply Q1; lra]).
      rewrite ln_quot in A by lra. rewrite ln_quot by lra.
      assert (H : e * (ln o - ln e) < e * (o / e - 1)) by (apply Rmult_lt_compat_l; lra).
      replace (e * (o / e - 1)) with (o - e) in H by (field; lra). lra.
    + rewrite (proj2 (Reqb_false e 0)) in H by lra.
      destruct (Reqb_spec o 0) as [->|Hne].
      * destruct (Rltb_spec 0 lambda_); [|discriminate]. injection H as <-.
        assert (0 < 2 / (lambda_ + 1)) by (apply Rdiv_lt_0_compat; lra). nra.
      * injection H as <-. set (x := o / e). assert (Hx : 0 < x) by (apply Rdiv_lt_0_compat; lra).
        assert (X1 : x <> 1) by (apply Q1; lra).
        assert (Eo : o = e * x) by (unfold x; field; lra).
        set (p := lambda_ + 1). assert (Hp0 : p <> 0) by (unfold p; lra). assert (Hp1 : p <> 1) by (unfold p; lra).
        assert (EP : x * Rpower x lambda_ = Rpower x p).
        { unfold p. rewrite Rpower_plus, Rpower_1 by exact Hx. ring. }
        assert (G : 0 < (Rpower x p - 1 - p * (x - 1)) / (p * (p - 1))).
        { destruct (Rdichotomy _ _ Hp0) as [L|L].
          - pose proof (bernoulli_out_strict p x Hx X1 (or_introl L)). apply Rdiv_lt_0_compat; [lra|nra].
          - destruct (Rdichotomy _ _ Hp1) as [L1|L1].
            + pose proof (bernoulli_mid_strict p x Hx X1 ltac:(lra)).
              replace ((Rpower x p - 1 - p * (x - 1)) / (p * (p - 1)))
                with ((1 + p * (x - 1) - Rpower x p) / (p * (1 - p))) by (field; repeat split; lra).
              apply Rdiv_lt_0_compat; [lra|]. apply Rmult_lt_0_compat; lra.
            + pose proof (bernoulli_out_strict p x Hx X1 (or_intror L1)).
              apply Rdiv_lt_0_compat; [lra|]. apply Rmult_lt_0_compat; lra. }
        assert (E : o * (Rpower x lambda_ - 1) / (0.5 * lambda_ * p) - 2 / p * (o - e)
                    = 2 * e * ((Rpower x p - 1 - p * (x - 1)) / (p * (p - 1)))).
        { rewrite <- EP. rewrite Eo at 1 2. replace 0.5 with (1 / 2) by lra. unfold p. field. repeat split; lra. }
        assert (0 < 2 * e * ((Rpower x p - 1 - p * (x - 1)) / (p * (p - 1)))) by (apply Rmult_lt_0_compat; lra).
        lra.
Qed.
Lemma pd_sum_gt lambda_ : lambda_ <> 1 -> forall f_obs f_exp s, length f_obs = length f_exp ->
  (forall o, In o f_obs -> 0 <= o) -> (forall e, In e f_exp -> 0 < e) -> pd_sum lambda_ f_obs f_exp = Some s -> f_obs <> f_exp ->
  (if Reqb lambda_ 0 then 2 else pd_slope lambda_) * (Rsum f_obs - Rsum f_exp) < s.
Proof.
  intros Hl. induction f_obs as [|o f_obs IH]; intros [|e f_exp] s HL Ho He H N; simpl in HL; try discriminate; [now elim N|].
  cbn [pd_sum] in H. destruct (pd_term lambda_ o e) as [t|] eqn:Et; [|discriminate].
  destruct (pd_sum lambda_ f_obs f_exp) as [s'|] eqn:Es; [|discriminate]. injection H as <-.
  assert (Ho' : forall o, In o f_obs -> 0 <= o) by (intros; apply Ho; now right). assert (He' : forall e, In e f_exp -> 0 < e) by (intros; apply He; now right).
  pose proof (Ho o (or_introl eq_refl)) as Po. pose proof (He e (or_introl eq_refl)) as Pe.
  pose proof (pd_sum_ge lambda_ Hl f_obs f_exp s' ltac:(congruence) Ho' He' Es) as G1. pose proof (pd_term_ge lambda_ o e t Po Pe Hl Et) as G2.
  cbn [Rsum fold_right]. change (fold_right Rplus 0 f_obs) with (Rsum f_obs). change (fold_right Rplus 0 f_exp) with (Rsum f_exp).
  assert (G : (if Reqb lambda_ 0 then 2 else pd_slope lambda_) * (o - e) < t \/ (if Reqb lambda_ 0 then 2 else pd_slope lambda_) * (Rsum f_obs - Rsum f_exp) < s').
  { destruct (Req_dec o e) as [->|D]; [right; apply (IH f_exp s'); trivial; congruence|left; now apply pd_term_gt]. }
  set (k := if Reqb lambda_ 0 then 2 else pd_slope lambda_) in *.
  replace (k * (o + Rsum f_obs - (e + Rsum f_exp))) with (k * (o - e) + k * (Rsum f_obs - Rsum f_exp)) by ring. lra.
Qed.
Lemma pd_zero lambda_ f_obs f_exp : length f_obs = length f_exp -> (forall o, In o f_obs -> 0 <= o) -> (forall e, In e f_exp -> 0 < e) ->
  Rsum f_obs = Rsum f_exp -> (power_divergence lambda_ f_obs f_exp = Fin 0 <-> f_obs = f_exp).
Proof.
  intros HL Ho He T. split.
  - intros H. unfold power_divergence in H. destruct (pd_sum lambda_ f_obs f_exp) as [s|] eqn:E; [|discriminate]. injection H as ->.
    destruct (Req_dec lambda_ 1) as [->|Hl]; [now apply (proj2 (pearson_ge _ _ _ HL He E))|].
    destruct (list_eq_dec Req_EM_T f_obs f_exp) as [|N]; trivial. pose proof (pd_sum_gt lambda_ Hl _ _ _ HL Ho He E N). rewrite T in *. rewrite Rminus_diag_eq, Rmult_0_r in H by trivial. lra.
  - intros ->. now apply pd_equal.
Qed.
(** *** histograms and the numbers of observations below the edges *)
Lemma below_above e e' l : e <= e' -> below e' (filter (fun x => negb (Rltb x e)) l) = below e' l - below e l.
Proof.
  intros H. unfold below. induction l as [|x l IH]; [simpl; lra|]. cbn [filter].
  destruct (Rltb_spec x e); cbn [negb]; [|cbn [filter]]; destruct (Rltb_spec x e'); try lra; cbn [length]; rewrite ?S_INR; lra.
Qed.
Lemma histogram_shares : forall inner l w, sortedR inner -> length w = S (length inner) -> Rsum w = len l ->
  (map INR (histogram inner l) = w <-> forall i, (i < length inner)%nat -> below (nth i inner 0) l = Rsum (firstn (S i) w)).
Proof.
  induction inner as [|e inner IH]; intros l w HS HL HT.
  - destruct w as [|x [|y w]]; try discriminate HL. cbn [histogram map Rsum fold_right] in *. split; [intros _ i Hi; simpl in Hi; lia|]. intros _. unfold len in HT. f_equal. lra.
  - destruct w as [|x w]; [discriminate|]. simpl in HL. inversion HS as [|? ? HS' HF]; subst. rewrite Forall_forall in HF. cbn [histogram map].
    change (INR (length (filter (fun x => Rltb x e) l))) with (below e l). set (m := filter (fun x => negb (Rltb x e)) l).
    assert (LM : len m = len l - below e l).
    { pose proof (histogram_total [e] l) as T. cbn [histogram map Rsum fold_right] in T. fold m in T. unfold below, len in *. lra. }
    assert (NM : forall i, (i < length inner)%nat -> below (nth i inner 0) m = below (nth i inner 0) l - below e l) by (intros i Hi; apply below_above, HF, nth_In; trivial).
    cbn [Rsum fold_right] in HT. change (fold_right Rplus 0 w) with (Rsum w) in HT. split.
    + intros E. injection E as E1 E2. intros i Hi. destruct i as [|i]; [cbn [nth firstn Rsum fold_right]; lra|].
      cbn [nth]. assert (Hi' : (i < length inner)%nat) by (simpl in Hi; lia). pose proof (proj1 (IH m w HS' ltac:(lia) ltac:(rewrite LM; lra)) E2 i Hi') as K. rewrite NM in K by trivial.
      change (firstn (S (S i)) (x :: w)) with (x :: firstn (S i) w). cbn [Rsum fold_right]. change (fold_right Rplus 0 (firstn (S i) w)) with (Rsum (firstn (S i) w)). lra.
    + intros H. pose proof (H 0%nat ltac:(simpl; lia)) as H0. cbn [nth firstn Rsum fold_right] in H0. assert (E1 : below e l = x) by lra. f_equal; trivial.
      apply IH; trivial; [lia|rewrite LM; lra|]. intros i Hi. rewrite NM by trivial. specialize (H (S i) ltac:(simpl; lia)). cbn [nth] in H.
      change (firstn (S (S i)) (x :: w)) with (x :: firstn (S i) w) in H. cbn [Rsum fold_right] in H. change (fold_right Rplus 0 (firstn (S i) w)) with (Rsum (firstn (S i) w)) in H. lra.
Qed.
Lemma firstn_repeat (x : R) i n : (i <= n)%nat -> Rsum (firstn i (repeat x n)) = INR i * x.
Proof.
  revert n; induction i as [|i IH]; intros n H; [simpl; lra|]. destruct n as [|n]; [lia|]. cbn [repeat firstn Rsum fold_right]. change (fold_right Rplus 0 (firstn i (repeat x n))) with (Rsum (firstn i (repeat x n))). rewrite IH by lia. rewrite S_INR. ring.
Qed.
(** equiprobable cells *)
Lemma equal_cells lambda_ inner l bins : sortedR inner -> l <> [] -> (0 < bins)%nat -> length inner = (bins - 1)%nat ->
  (power_divergence lambda_ (map INR (histogram inner l)) (repeat (len l / INR bins) bins) = Fin 0 <->
   forall i, (0 < i < bins)%nat -> below (nth (i - 1) inner 0) l = len l * (INR i / INR bins)).
Proof.
  intros HS Hne Hb HL. assert (HB : 0 < INR bins) by (apply lt_0_INR; lia). pose proof (len_pos l Hne) as Hl.
  assert (T : Rsum (repeat (len l / INR bins) bins) = len l) by (rewrite Rsum_repeat; field; lra).
  rewrite pd_zero, histogram_shares; trivial.
  - split; intros H.
    + intros i Hi. specialize (H (i - 1)%nat ltac:(lia)). replace (S (i - 1)) with i in H by lia. rewrite H, firstn_repeat by lia. field. lra.
    + intros i Hi. specialize (H (S i) ltac:(lia)). replace (S i - 1)%nat with i in H by lia. rewrite H, firstn_repeat by lia. field. lra.
  - rewrite repeat_length. lia.
  - rewrite map_length, histogram_length, repeat_length. lia.
  - intros o Ho. apply in_map_iff in Ho as (k & <- & _). apply pos_INR.
  - intros e He. apply repeat_spec in He. subst e. apply Rdiv_lt_0_compat; lra.
  - now rewrite histogram_total, T.
Qed.
