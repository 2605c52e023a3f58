From Coq Require Import Lia Lra.
From Verif Require Import Base DecModel EdfModel EdfSpec EdfProofs Analysis.

(** ** Bernoulli's inequality for real exponents *)
Lemma exp_convex p t : 0 <= p <= 1 -> exp (p * t) <= p * exp t + (1 - p).
Proof.
  intros Hp.
  assert (A : exp (p * t) * (1 + (t - p * t)) <= exp t).
  { replace (exp t) with (exp (p * t) * exp (t - p * t)) by (rewrite <- exp_plus; f_equal; ring).
    apply Rmult_le_compat_l; [left; apply exp_pos|]. apply exp_ineq1_le. }
  assert (B : exp (p * t) * (1 + (- (p * t))) <= 1).
  { replace 1 with (exp (p * t) * exp (- (p * t))) at 2 by (rewrite <- exp_plus, <- exp_0; f_equal; ring).
    apply Rmult_le_compat_l; [left; apply exp_pos|]. apply exp_ineq1_le. }
  assert (A' : p * (exp (p * t) * (1 + (t - p * t))) <= p * exp t) by (apply Rmult_le_compat_l; lra).
  assert (B' : (1 - p) * (exp (p * t) * (1 + (- (p * t)))) <= (1 - p) * 1) by (apply Rmult_le_compat_l; lra).
  assert (E : p * (exp (p * t) * (1 + (t - p * t))) + (1 - p) * (exp (p * t) * (1 + (- (p * t)))) = exp (p * t)) by ring.
  lra.
Qed.
Lemma bernoulli_mid p x : 0 < x -> 0 <= p <= 1 -> Rpower x p <= 1 + p * (x - 1).
Proof.
  intros Hx Hp. unfold Rpower. pose proof (exp_convex p (ln x) Hp) as H. rewrite exp_ln in H by exact Hx. lra.
Qed.
Lemma bernoulli_out p x : 0 < x -> p <= 0 \/ 1 <= p -> 1 + p * (x - 1) <= Rpower x p.
Proof.
  intros Hx [Hp|Hp]; unfold Rpower.
  - pose proof (exp_ineq1_le (p * ln x)). pose proof (ln_le_sub1 x Hx). nra.
  - assert (Hq : 0 <= / p <= 1).
    { split; [left; apply Rinv_0_lt_compat; lra|]. rewrite <- Rinv_1. apply Rinv_le_contravar; lra. }
    pose proof (exp_convex (/ p) (p * ln x) Hq) as H.
    replace (/ p * (p * ln x)) with (ln x) in H by (field; lra). rewrite exp_ln in H by exact Hx.
    assert (p * x <= p * (/ p * exp (p * ln x) + (1 - / p))) by (apply Rmult_le_compat_l; lra).
    replace (p * (/ p * exp (p * ln x) + (1 - / p))) with (exp (p * ln x) + (p - 1)) in H0 by (field; lra). lra.
Qed.

(** ** one term dominates a multiple of o - e *)
Definition pd_slope (lambda_ : R) : R := if Reqb lambda_ (-1) then -2 else 2 / (lambda_ + 1).
Lemma pd_term_ge lambda_ o e t : 0 <= o -> 0 < e -> lambda_ <> 1 -> pd_term lambda_ o e = Some t ->
  (if Reqb lambda_ 0 then 2 else pd_slope lambda_) * (o - e) <= t.
Proof.
  intros Ho He Hl1 H. unfold pd_term in H. unfold pd_slope.
  rewrite (proj2 (Reqb_false _ _) Hl1) in H.
  destruct (Reqb_spec lambda_ 0) as [->|H0].
  - rewrite (proj2 (Reqb_false e 0)) in H by lra. injection H as <-. unfold xlogy.
    destruct (Reqb_spec o 0) as [->|Hne]; [lra|].
    assert (A : ln (e / o) <= e / o - 1) by (apply ln_le_sub1, Rdiv_lt_0_compat; lra).
    rewrite ln_quot in A by lra. rewrite ln_quot by lra.
    assert (o * (ln e - ln o) <= o * (e / o - 1)) by (apply Rmult_le_compat_l; lra).
    replace (o * (e / o - 1)) with (e - o) in H by (field; lra). lra.
  - destruct (Reqb_spec lambda_ (-1)) as [->|Hm1].
    + destruct (Reqb_spec o 0) as [->|Hne]; [discriminate|]. injection H as <-. unfold xlogy.
      rewrite (proj2 (Reqb_false e 0)) by lra.
      assert (A : ln (o / e) <= o / e - 1) by (apply ln_le_sub1, Rdiv_lt_0_compat; lra).
      rewrite ln_quot in A by lra. rewrite ln_quot by lra.
      assert (e * (ln o - ln e) <= e * (o / e - 1)) by (apply Rmult_le_compat_l; lra).
      replace (e * (o / e - 1)) with (o - e) in H by (field; lra). lra.
    + rewrite (proj2 (Reqb_false e 0)) in H by lra.
      destruct (Reqb_spec o 0) as [->|Hne].
      * destruct (Rltb_spec 0 lambda_); [|discriminate]. injection H as <-.
        assert (0 < 2 / (lambda_ + 1)) by (apply Rdiv_lt_0_compat; lra). nra.
      * injection H as <-. set (x := o / e). assert (Hx : 0 < x) by (apply Rdiv_lt_0_compat; lra).
        assert (Eo : o = e * x) by (unfold x; field; lra).
        set (p := lambda_ + 1). assert (Hp0 : p <> 0) by (unfold p; lra). assert (Hp1 : p <> 1) by (unfold p; lra).
        assert (EP : x * Rpower x lambda_ = Rpower x p).
        { unfold p. rewrite Rpower_plus, Rpower_1 by exact Hx. ring. }
        assert (G : 0 <= (Rpower x p - 1 - p * (x - 1)) / (p * (p - 1))).
        { destruct (Rle_lt_dec p 0) as [L|L].
          - pose proof (bernoulli_out p x Hx (or_introl L)).
            apply Rmult_le_pos; [lra|]. left. apply Rinv_0_lt_compat. nra.
          - destruct (Rlt_le_dec p 1) as [L1|L1].
            + pose proof (bernoulli_mid p x Hx ltac:(lra)).
              replace ((Rpower x p - 1 - p * (x - 1)) / (p * (p - 1)))
                with ((1 + p * (x - 1) - Rpower x p) / (p * (1 - p))) by (field; repeat split; lra).
              apply Rmult_le_pos; [lra|]. left. apply Rinv_0_lt_compat. nra.
            + pose proof (bernoulli_out p x Hx (or_intror L1)).
              apply Rmult_le_pos; [lra|]. left. apply Rinv_0_lt_compat. nra. }
        assert (E : o * (Rpower x lambda_ - 1) / (0.5 * lambda_ * p) - 2 / p * (o - e)
                    = 2 * e * ((Rpower x p - 1 - p * (x - 1)) / (p * (p - 1)))).
        { rewrite <- EP. rewrite Eo at 1 2. replace 0.5 with (1 / 2) by lra. unfold p. field. repeat split; lra. }
        assert (0 <= 2 * e * ((Rpower x p - 1 - p * (x - 1)) / (p * (p - 1)))) by (apply Rmult_le_pos; lra).
        lra.
Qed.
Lemma pd_sum_ge lambda_ : lambda_ <> 1 -> forall f_obs f_exp s, length f_obs = length f_exp ->
  (forall o, In o f_obs -> 0 <= o) -> (forall e, In e f_exp -> 0 < e) -> pd_sum lambda_ f_obs f_exp = Some s ->
  (if Reqb lambda_ 0 then 2 else pd_slope lambda_) * (Rsum f_obs - Rsum f_exp) <= s.
Proof.
  intros Hl. induction f_obs as [|o f_obs IH]; intros [|e f_exp] s HL Ho He H; simpl in *; try discriminate.
  - injection H as <-. lra.
  - destruct (pd_term lambda_ o e) as [t|] eqn:Et; [|discriminate].
    destruct (pd_sum lambda_ f_obs f_exp) as [s'|] eqn:Es; [|discriminate]. injection H as <-.
    specialize (IH f_exp s' ltac:(congruence) ltac:(auto) ltac:(auto) Es).
    pose proof (pd_term_ge lambda_ o e t ltac:(auto) ltac:(auto) Hl Et).
    set (k := if Reqb lambda_ 0 then 2 else pd_slope lambda_) in *.
    replace (k * (o + Rsum f_obs - (e + Rsum f_exp))) with (k * (o - e) + k * (Rsum f_obs - Rsum f_exp)) by ring. lra.
Qed.
Lemma pearson_ge : forall f_obs f_exp s, length f_obs = length f_exp -> (forall e, In e f_exp -> 0 < e) ->
  pd_sum 1 f_obs f_exp = Some s -> 0 <= s /\ (s = 0 -> f_obs = f_exp).
Proof.
  induction f_obs as [|o f_obs IH]; intros [|e f_exp] s HL He H; simpl in *; try discriminate.
  - injection H as <-. split; [lra|auto].
  - unfold pd_term in H. rewrite (proj2 (Reqb_true 1 1) eq_refl) in H.
    assert (Hep : 0 < e) by auto. rewrite (proj2 (Reqb_false e 0)) in H by lra.
    destruct (pd_sum 1 f_obs f_exp) as [s'|] eqn:Es; [|discriminate]. injection H as <-.
    destruct (IH f_exp s' ltac:(congruence) ltac:(auto) Es) as [P1 P2].
    assert (P : 0 <= (o - e) ^ 2 / e) by (apply Rmult_le_pos; [apply pow2_ge_0|left; apply Rinv_0_lt_compat; lra]).
    split; [lra|]. intros E.
    assert (E1 : (o - e) ^ 2 / e = 0) by lra. assert (E2 : s' = 0) by lra.
    rewrite (P2 E2). f_equal.
    assert ((o - e) ^ 2 = 0).
    { replace ((o - e) ^ 2) with ((o - e) ^ 2 / e * e) by (field; lra). rewrite E1. ring. }
    assert (o - e = 0); [|lra]. destruct (Req_dec (o - e) 0); auto. exfalso. nra.
Qed.
Lemma pd_nonneg lambda_ f_obs f_exp s : length f_obs = length f_exp ->
  (forall o, In o f_obs -> 0 <= o) -> (forall e, In e f_exp -> 0 < e) -> Rsum f_obs = Rsum f_exp ->
  power_divergence lambda_ f_obs f_exp = Fin s -> 0 <= s.
Proof.
  intros HL Ho He Hs H. unfold power_divergence in H.
  destruct (pd_sum lambda_ f_obs f_exp) as [s'|] eqn:Es; [|discriminate]. injection H as ->.
  destruct (Req_dec lambda_ 1) as [->|Hl].
  - apply (pearson_ge f_obs f_exp); auto.
  - pose proof (pd_sum_ge lambda_ Hl f_obs f_exp s HL Ho He Es) as G. rewrite Hs in G.
    rewrite Rminus_diag_eq, Rmult_0_r in G by reflexivity. exact G.
Qed.
Lemma pd_equal lambda_ f : (forall e, In e f -> 0 < e) -> power_divergence lambda_ f f = Fin 0.
Proof.
  intros H. unfold power_divergence.
  assert (E : pd_sum lambda_ f f = Some 0); [|rewrite E; reflexivity].
  induction f as [|e f IH]; [reflexivity|]. cbn [pd_sum]. rewrite IH by (intros; apply H; simpl; auto).
  assert (He : 0 < e) by (apply H; simpl; auto).
  assert (Et : pd_term lambda_ e e = Some 0).
  { unfold pd_term, xlogy. rewrite (proj2 (Reqb_false e 0)) by lra.
    replace (e / e) with 1 by (field; lra). rewrite ln_1.
    destruct (Reqb_spec lambda_ 1); [f_equal; field; lra|].
    destruct (Reqb_spec lambda_ 0); [f_equal; ring|].
    destruct (Reqb_spec lambda_ (-1)); [f_equal; ring|].
    f_equal. unfold Rpower. rewrite ln_1, Rmult_0_r, exp_0. unfold Rdiv. ring. }
  rewrite Et. f_equal. ring.
Qed.
(** a value is returned (no infinity) when all expected counts are positive and either lambda > 0, lambda = 0, or
    every observed count is positive *)
Lemma pd_defined lambda_ f_obs f_exp : (forall e, In e f_exp -> 0 < e) ->
  0 <= lambda_ \/ (forall o, In o f_obs -> o <> 0) -> exists s, power_divergence lambda_ f_obs f_exp = Fin s.
Proof.
  intros He Ho. unfold power_divergence.
  assert (E : exists s, pd_sum lambda_ f_obs f_exp = Some s); [|destruct E as (s & ->); eauto].
  revert f_exp He; induction f_obs as [|o f_obs IH]; intros [|e f_exp] He; cbn [pd_sum]; eauto.
  assert (Ho' : 0 <= lambda_ \/ (forall o, In o f_obs -> o <> 0)) by (destruct Ho; [left|right]; simpl in *; auto).
  destruct (IH Ho' f_exp ltac:(simpl in *; auto)) as (s & ->).
  assert (Hep : 0 < e) by (apply He; simpl; auto).
  assert (T : exists t, pd_term lambda_ o e = Some t); [|destruct T as (t & ->); eauto].
  unfold pd_term. rewrite (proj2 (Reqb_false e 0)) by lra.
  destruct (Reqb_spec lambda_ 1); [eauto|]. destruct (Reqb_spec lambda_ 0); [eauto|].
  destruct Ho as [Ho|Ho].
  - rewrite (proj2 (Reqb_false lambda_ (-1))) by lra. destruct (Reqb o 0); [|eauto].
    rewrite (proj2 (Rltb_true 0 lambda_)) by lra. eauto.
  - rewrite (proj2 (Reqb_false o 0)) by (apply Ho; simpl; auto). destruct (Reqb lambda_ (-1)); eauto.
Qed.

(** ** histograms *)
Lemma histogram_length inner s : length (histogram inner s) = S (length inner).
Proof. revert s; induction inner; intros; simpl; auto. Qed.
Lemma histogram_total inner s : Rsum (map INR (histogram inner s)) = len s.
Proof.
  revert s; induction inner as [|e inner IH]; intros s; [unfold len; simpl; lra|].
  cbn [histogram map Rsum]. rewrite IH. unfold len. rewrite <- plus_INR. f_equal.
  apply (count_negb (fun x => Rltb x e)).
Qed.
Lemma Rsum_repeat x n : Rsum (repeat x n) = INR n * x.
Proof. induction n as [|n IH]; [simpl; lra|]. cbn [repeat Rsum]. rewrite IH, S_INR. ring. Qed.
(** counts are really the numbers of observations between consecutive edges *)
Lemma histogram_nth inner s i : sortedR inner -> (i <= length inner)%nat ->
  nth i (histogram inner s) 0%nat =
  count (fun x => (match i with O => true | S j => Rleb (nth j inner 0) x end) &&
                  (if (i <? length inner)%nat then Rltb x (nth i inner 0) else true)) s.
Proof.
  intros H; revert s i; induction H as [|e inner Hs IH Hf]; intros s i Hi.
  - simpl in *. replace i with 0%nat by lia. simpl. symmetry. apply count_all. reflexivity.
  - cbn [histogram]. destruct i as [|i].
    + cbn [nth length]. unfold count. f_equal.
  + cbn [nth]. cbn [length] in *. rewrite IH by lia. rewrite Forall_forall in Hf.
    assert (EB : (S i <? S (length inner))%nat = (i <? length inner)%nat) by reflexivity. rewrite EB.
    unfold count. induction s as [|x s IHs]; [reflexivity|].
    cbn [filter]. destruct (Rltb_spec x e) as [L|L]; cbn [negb].
    * rewrite IHs. destruct i as [|i].
      -- rewrite (proj2 (Rleb_false e x)) by lra. reflexivity.
      -- assert (e <= nth i inner 0) by (apply Hf, nth_In; lia).
         rewrite (proj2 (Rleb_false (nth i inner 0) x)) by lra. reflexivity.
    * cbn [filter].
      match goal with |- length (if ?b then _ else _) = length (if ?c then _ else _) => assert (Eb : b = c) end.
      { f_equal. destruct i as [|i]; [|reflexivity]. symmetry. apply Rleb_true. lra. }
      rewrite <- Eb. destruct (_ && _); cbn [length]; rewrite IHs; reflexivity.
Qed.

(** ** spacings *)
Lemma diff_sum x l : Rsum (diff (x :: l)) = last (x :: l) 0 - x.
Proof.
  revert x; induction l as [|y l IH]; intros x; [simpl; lra|].
  change (diff (x :: y :: l)) with ((y - x) :: diff (y :: l)). cbn [Rsum]. rewrite IH.
  change (last (x :: y :: l) 0) with (last (y :: l) 0). ring.
Qed.
Lemma diff_length x l : length (diff (x :: l)) = length l.
Proof. revert x; induction l as [|y l IH]; intros x; [reflexivity|]. change (diff (x :: y :: l)) with ((y - x) :: diff (y :: l)). cbn [length]. rewrite IH. reflexivity. Qed.
Lemma diff_nonneg l : sortedR l -> forall d, In d (diff l) -> 0 <= d.
Proof.
  induction 1 as [|x l Hs IH Hf]; intros d Hd; [destruct Hd|].
  destruct l as [|y l]; [destruct Hd|]. change (diff (x :: y :: l)) with ((y - x) :: diff (y :: l)) in Hd.
  destruct Hd as [<-|Hd]; [|auto]. inversion Hf; subst. lra.
Qed.
Lemma spacings_length lo u hi : length (spacings lo u hi) = S (length u).
Proof. unfold spacings. rewrite diff_length, app_length. simpl. lia. Qed.
Lemma spacings_sum lo u hi : Rsum (spacings lo u hi) = hi - lo.
Proof. unfold spacings. rewrite diff_sum. f_equal. rewrite app_comm_cons. apply last_last. Qed.
Lemma spacings_nonneg lo u hi : sortedR u -> lo <= hi -> (forall x, In x u -> lo <= x <= hi) ->
  forall d, In d (spacings lo u hi) -> 0 <= d.
Proof.
  intros Hs Hl Hu. apply diff_nonneg. constructor.
  - apply sorted_snoc. split; [exact Hs|]. intros y Hy. apply Hu, Hy.
  - rewrite Forall_forall. intros y Hy. apply in_app_or in Hy. destruct Hy as [Hy|[<-|[]]]; [apply Hu, Hy|exact Hl].
Qed.
Lemma cauchy_schwarz_sum l : Rsum l ^ 2 <= len l * Rsum (map (fun d => d ^ 2) l).
Proof.
  induction l as [|x l IH]; [unfold len; simpl; lra|].
  cbn [map Rsum]. unfold len in *. cbn [length]. rewrite S_INR.
  assert (H : 2 * x * Rsum l <= INR (length l) * x ^ 2 + Rsum (map (fun d => d ^ 2) l)).
  { clear IH. induction l as [|y l IH]; [simpl; lra|]. cbn [map Rsum length]. rewrite S_INR. pose proof (pow2_ge_0 (x - y)). nra. }
  nra.
Qed.
Lemma sumsq_le_sq l : (forall d, In d l -> 0 <= d) -> Rsum (map (fun d => d ^ 2) l) + consecutive_products l <= Rsum l ^ 2.
Proof.
  induction l as [|x l IH]; intros H; [simpl; lra|].
  assert (IH' := IH (fun d h => H d (or_intror h))). assert (Hx : 0 <= x) by (apply H; simpl; auto).
  assert (Hl : 0 <= Rsum l) by (apply Rsum_nonneg; intros; apply H; simpl; auto).
  destruct l as [|y l].
  - simpl. nra.
  - change (consecutive_products (x :: y :: l)) with (x * y + consecutive_products (y :: l)).
    cbn [map Rsum] in *. assert (0 <= Rsum l) by (apply Rsum_nonneg; intros; apply H; simpl; auto).
    assert (0 <= y) by (apply H; simpl; auto). nra.
Qed.
Lemma products_nonneg l : (forall d, In d l -> 0 <= d) -> 0 <= consecutive_products l.
Proof.
  induction l as [|x l IH]; intros H; [simpl; lra|]. destruct l as [|y l]; [simpl; lra|].
  change (consecutive_products (x :: y :: l)) with (x * y + consecutive_products (y :: l)).
  assert (0 <= x) by (apply H; simpl; auto). assert (0 <= y) by (apply H; simpl; auto).
  assert (0 <= consecutive_products (y :: l)) by (apply IH; intros; apply H; simpl; auto). nra.
Qed.
(** sum |d - E| when the total is (length) E *)
Lemma sum_pos_part E l : 0 <= E -> (forall d, In d l -> 0 <= d) ->
  Rsum (map (fun d => Rmax (E - d) 0) l) <= len l * E.
Proof.
  intros HE H. unfold len. rewrite <- Rsum_map_const. apply Rsum_map_le. intros d Hd. specialize (H d Hd).
  unfold Rmax. destruct (Rle_dec (E - d) 0); lra.
Qed.
Lemma sum_pos_part_strict E l : 0 <= E -> (forall d, In d l -> 0 <= d) -> (exists d, In d l /\ E <= d) ->
  Rsum (map (fun d => Rmax (E - d) 0) l) <= (len l - 1) * E.
Proof.
  intros HE. induction l as [|x l IH]; intros H (d & Hd & Hle); [destruct Hd|].
  unfold len in *. cbn [map Rsum length]. rewrite S_INR. destruct Hd as [->|Hd].
  - rewrite Rmax_right by lra.
    pose proof (sum_pos_part E l HE (fun y h => H y (or_intror h))) as G. unfold len in G. lra.
  - specialize (IH (fun y h => H y (or_intror h)) (ex_intro _ d (conj Hd Hle))).
    assert (0 <= x) by (apply H; simpl; auto).
    assert (Rmax (E - x) 0 <= E) by (unfold Rmax; destruct (Rle_dec (E - x) 0); lra). lra.
Qed.
Lemma exists_ge_mean E l : l <> [] -> Rsum l = len l * E -> exists d, In d l /\ E <= d.
Proof.
  intros Hne Hs. exists (Rmaxl 0 l). split; [apply Rmaxl_in, Hne|].
  apply Rnot_lt_le. intros Hlt.
  assert (Rsum l <= len l * Rmaxl 0 l).
  { unfold len. rewrite <- Rsum_map_const. rewrite <- (map_id l) at 1. apply Rsum_map_le. intros; apply Rmaxl_ge; auto. }
  pose proof (len_pos l Hne). nra.
Qed.
Lemma half_abs_dev E l : l <> [] -> 0 <= E -> (forall d, In d l -> 0 <= d) -> Rsum l = len l * E ->
  0 <= 0.5 * Rsum (map (fun d => Rabs (d - E)) l) <= (len l - 1) * E.
Proof.
  intros Hne HE H Hs. split.
  - assert (0 <= Rsum (map (fun d => Rabs (d - E)) l)); [|lra].
    apply Rsum_map_nonneg. intros; apply Rabs_pos.
  - assert (EE : Rsum (map (fun d => Rabs (d - E)) l) = 2 * Rsum (map (fun d => Rmax (E - d) 0) l)).
    { rewrite <- Rsum_map_scal.
      rewrite (Rsum_map_ext (fun d => Rabs (d - E)) (fun d => 2 * Rmax (E - d) 0 + (d - E))).
      - rewrite Rsum_map_plus, Rsum_map_minus, map_id, Rsum_map_const, Hs. unfold len. ring.
      - intros d _. unfold Rabs, Rmax. destruct (Rcase_abs (d - E)), (Rle_dec (E - d) 0); lra. }
    rewrite EE. pose proof (sum_pos_part_strict E l HE H (exists_ge_mean E l Hne Hs)). lra.
Qed.
Lemma greenwood_bounds u : sortedR u -> in01 u ->
  / (len u + 1) <= greenwood_of u <= 1.
Proof.
  intros Hs H01. unfold greenwood_of.
  assert (Hnn := spacings_nonneg 0 u 1 Hs ltac:(lra) H01).
  pose proof (spacings_sum 0 u 1) as Hsum.
  assert (HL : len (spacings 0 u 1) = len u + 1) by (unfold len; rewrite spacings_length, S_INR; reflexivity).
  assert (Hu : 0 <= len u) by apply pos_INR. split.
  - pose proof (cauchy_schwarz_sum (spacings 0 u 1)) as C. rewrite Hsum, HL in C.
    apply (Rmult_le_reg_l (len u + 1)); [lra|]. rewrite Rinv_r by lra. lra.
  - pose proof (sumsq_le_sq _ Hnn) as C. rewrite Hsum in C. pose proof (products_nonneg _ Hnn). lra.
Qed.
Lemma moran_bound u v : moran_of u = Ok v -> (len u + 1) * ln ((len u + 1) / len u) <= v.
Proof.
  unfold moran_of. destruct u as [|a u0] eqn:Eu; [discriminate|]. rewrite <- Eu.
  assert (Hne : u <> []) by (subst; discriminate). clear Eu. pose proof (len_pos u Hne) as HL.
  destruct (existsb _ _) eqn:Ex; [discriminate|]. intros H; injection H as <-.
  assert (Hp : forall d, In d (spacings 0 u 1) -> 0 < d).
  { intros d Hd. apply Rnot_le_lt. intros Hle.
    assert (existsb (fun d => Rleb d 0) (spacings 0 u 1) = true); [|congruence].
    apply existsb_exists. exists d. split; auto. apply Rleb_true, Hle. }
  assert (G : Rsum (map (fun d => ln (len u * d)) (spacings 0 u 1))
     <= Rsum (map (fun d => ((len u + 1) * d - 1) - ln ((len u + 1) / len u)) (spacings 0 u 1))).
  { apply Rsum_map_le. intros d Hd. specialize (Hp d Hd).
    assert (A : ln ((len u + 1) * d) <= (len u + 1) * d - 1) by (apply ln_le_sub1; apply Rmult_lt_0_compat; lra).
    rewrite ln_quot by lra. rewrite ln_mult in A by lra. rewrite ln_mult by lra. lra. }
  rewrite Rsum_map_minus, Rsum_map_minus, Rsum_map_scal, map_id, !Rsum_map_const, spacings_sum, spacings_length, S_INR in G.
  change (INR (length u)) with (len u) in G. lra.
Qed.
