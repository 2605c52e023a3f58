(** Lemmas about the gamma statistics. *)
From Coq Require Import String.
From Coquelicot Require Import Coquelicot.
From Verif Require Import Base DecModel EdfModel EdfSpec GraphModel NormalLaw ExpModel NormModel GammaModel GammaSpec
  EdfProofs EdfRotProofs EdfPowerProofs NormProofs NormRangeProofs NormFiniteProofs EdfClaims.
From Coq Require Import Lra Lia.
Local Open Scope R_scope.

(** ** the exponential distribution satisfies the law *)
Lemma exponential_law : gamma_law (fun _ => exponential_cdf) (fun _ => exponential_ppf).
Proof.
  split.
  - intros _ _. split; [|split].
    + intros x y H. unfold exponential_cdf. assert (Rmax 0 x <= Rmax 0 y) by (unfold Rmax; repeat destruct (Rle_dec _ _); lra).
      assert (exp (- Rmax 0 y) <= exp (- Rmax 0 x)); [|lra]. destruct (Req_dec (Rmax 0 x) (Rmax 0 y)) as [->|N]; [lra|]. left. apply exp_increasing. lra.
    + intros x. unfold exponential_cdf. pose proof (exp_pos (- Rmax 0 x)). pose proof (Rmax_l 0 x).
      assert (exp (- Rmax 0 x) <= 1); [|lra]. rewrite <- exp_0. destruct (Req_dec (Rmax 0 x) 0) as [->|N]; [rewrite Ropp_0; lra|]. left. apply exp_increasing. lra.
    + intros x. apply continuity_pt_filterlim. unfold exponential_cdf.
      apply (continuous_minus (fun _ : R => 1) (fun x => exp (- Rmax 0 x)) x); [apply continuous_const|].
      apply (continuous_comp (fun x => - Rmax 0 x) exp); [|apply continuous_exp].
      apply (continuous_opp (fun x => Rmax 0 x) x).
      apply (continuous_ext (fun x => (x + Rabs x) / 2)).
      { intros t. unfold Rmax, Rabs. destruct (Rle_dec 0 t), (Rcase_abs t); lra. }
      apply (continuous_mult (fun x => x + Rabs x) (fun _ => / 2) x); [|apply continuous_const].
      apply (continuous_plus (fun x => x) (fun x => Rabs x) x); [apply continuous_id|apply continuous_Rabs].
  - intros _ x _ H. unfold exponential_cdf. rewrite Rmax_left by lra. rewrite Ropp_0, exp_0. ring.
  - intros _ x y _ Hx Hy. unfold exponential_cdf. rewrite !Rmax_right by lra. pose proof (exp_increasing (- y) (- x)). lra.
  - intros _ x _. unfold exponential_cdf. pose proof (exp_pos (- Rmax 0 x)). lra.
  - intros _ p _ Hp. unfold exponential_cdf, exponential_ppf. assert (L : ln (1 - p) < 0) by (rewrite <- ln_1; apply ln_increasing; lra).
    rewrite Rmax_right by lra. rewrite Ropp_involutive, exp_ln by lra. ring.
Qed.

Section Law.
Variables (G Q : R -> R -> R).
Hypothesis HL : gamma_law G Q.
Variables (a s : R).
Hypotheses (Ha : 0 < a) (Hs : 0 < s).
Lemma gamma_continuous : continuous_cdf (gamma_cdf G a s).
Proof.
  destruct (gl_cdf _ _ HL a Ha) as (M & B & C). split; [|split].
  - intros x y H. apply M. apply Rmult_le_compat_r; [left; now apply Rinv_0_lt_compat|exact H].
  - intros x. apply B.
  - unfold gamma_cdf. apply (continuity_comp (fun x => x / s) (G a)); [|exact C].
    apply continuity_mult; [apply derivable_continuous, derivable_id|apply continuity_const; intros u v; reflexivity].
Qed.
Lemma gamma_positive x : 0 < x -> 0 < gamma_cdf G a s x < 1.
Proof.
  intros H. split; [|apply (gl_below_one _ _ HL); trivial]. unfold gamma_cdf. rewrite <- (gl_zero _ _ HL a 0) by (trivial; lra).
  apply (gl_increasing _ _ HL); trivial; [lra|]. now apply Rdiv_lt_0_compat.
Qed.
Lemma gamma_below x : gamma_cdf G a s x < 1. Proof. apply (gl_below_one _ _ HL); trivial. Qed.
Lemma gamma_nonpos x : x <= 0 -> gamma_cdf G a s x = 0.
Proof. intros H. apply (gl_zero _ _ HL); trivial. unfold Rdiv. apply Rinv_0_lt_compat in Hs. nra. Qed.
Lemma gamma_strict x y : 0 <= x -> x < y -> gamma_cdf G a s x < gamma_cdf G a s y.
Proof.
  intros Hx H. apply Rinv_0_lt_compat in Hs as I. apply (gl_increasing _ _ HL); trivial; unfold Rdiv; nra.
Qed.
Lemma quantile_pos p : 0 < p < 1 -> 0 < Q a p.
Proof.
  intros H. destruct (Rlt_le_dec 0 (Q a p)) as [L|L]; trivial. pose proof (gl_inverse _ _ HL a p Ha H) as E.
  rewrite (gl_zero _ _ HL) in E by trivial. lra.
Qed.
Lemma quantile_strict p q : 0 < p -> p < q -> q < 1 -> Q a p < Q a q.
Proof.
  intros H1 H2 H3. destruct (Rlt_le_dec (Q a p) (Q a q)) as [L|L]; trivial.
  destruct (gl_cdf _ _ HL a Ha) as (M & _). apply M in L. rewrite !(gl_inverse _ _ HL) in L by (trivial; lra). lra.
Qed.
(** the quantile function is the inverse of the distribution function *)
Lemma quantile_cdf x : 0 < x -> gamma_ppf Q a s (gamma_cdf G a s x) = x.
Proof.
  intros H. pose proof (gamma_positive x H) as P. unfold gamma_ppf, gamma_cdf in *. set (p := G a (x / s)) in *.
  assert (E : G a (Q a p) = p) by (apply (gl_inverse _ _ HL); trivial). assert (X : 0 < x / s) by now apply Rdiv_lt_0_compat.
  pose proof (quantile_pos p P) as P'. destruct (Rtotal_order (Q a p) (x / s)) as [L|[L|L]].
  - apply (gl_increasing _ _ HL a) in L; trivial; [unfold p in *; lra|lra].
  - rewrite L. field. lra.
  - apply Rgt_lt, (gl_increasing _ _ HL a) in L; trivial; [unfold p in *; lra|lra].
Qed.
End Law.

(** ** rescaling *)
Lemma rescale_vals G a beta c l : 0 < c -> beta <> 0 ->
  cdf_vals (gamma_cdf G a (1 / (beta / c))) (rescale c l) = cdf_vals (gamma_cdf G a (1 / beta)) l.
Proof.
  intros Hc Hb. unfold cdf_vals, rescale. rewrite rsort_map_mono by (intros x y H; nra). rewrite map_map. apply map_ext.
  intros x. unfold gamma_cdf. f_equal. field. lra.
Qed.
Lemma filter_rescale c e (l : list R) : 0 < c -> filter (fun x => Rltb x (c * e)) (rescale c l) = rescale c (filter (fun x => Rltb x e) l).
Proof.
  intros Hc. induction l as [|x l IH]; trivial. cbn [rescale map filter]. fold (rescale c l). rewrite IH.
  destruct (Rltb_spec x e), (Rltb_spec (c * x) (c * e)); trivial; nra.
Qed.
Lemma filter_rescale_neg c e (l : list R) : 0 < c ->
  filter (fun x => negb (Rltb x (c * e))) (rescale c l) = rescale c (filter (fun x => negb (Rltb x e)) l).
Proof.
  intros Hc. induction l as [|x l IH]; trivial. cbn [rescale map filter]. fold (rescale c l). rewrite IH.
  destruct (Rltb_spec x e), (Rltb_spec (c * x) (c * e)); trivial; nra.
Qed.
Lemma histogram_rescale c : 0 < c -> forall inner l, histogram (rescale c inner) (rescale c l) = histogram inner l.
Proof.
  intros Hc inner. induction inner as [|e inner IH]; intros l; cbn [rescale map histogram].
  - unfold rescale. now rewrite map_length.
  - fold (rescale c inner). rewrite filter_rescale, filter_rescale_neg, IH by trivial. unfold rescale. now rewrite map_length.
Qed.
Lemma binned_rescale Q a beta c lambda bins l : 0 < c -> beta <> 0 ->
  binned_stat (gamma_ppf Q a (1 / (beta / c))) lambda bins (rescale c l) = binned_stat (gamma_ppf Q a (1 / beta)) lambda bins l.
Proof.
  intros Hc Hb. unfold binned_stat. destruct l as [|x l]; trivial. set (l' := x :: l).
  change (rescale c l') with (c * x :: rescale c l). cbv iota. change (c * x :: rescale c l) with (rescale c l').
  replace (len (rescale c l')) with (len l') by (unfold rescale, len; now rewrite map_length).
  replace (map (fun i => gamma_ppf Q a (1 / (beta / c)) (INR (S i) / INR bins)) (seq 0 (bins - 1)))
    with (rescale c (map (fun i => gamma_ppf Q a (1 / beta) (INR (S i) / INR bins)) (seq 0 (bins - 1)))).
  - now rewrite histogram_rescale.
  - unfold rescale. rewrite map_map. apply map_ext. intros i. unfold gamma_ppf. field. lra.
Qed.

(** ** spacings and strictly increasing values *)
Lemma diff_pos l : (forall d, In d (diff l) -> 0 < d) <-> StronglySorted Rlt l.
Proof.
  induction l as [|x l IH]; [split; [constructor|easy]|]. destruct l as [|y l].
  - split; [repeat constructor|easy].
  - change (diff (x :: y :: l)) with ((y - x) :: diff (y :: l)). split.
    + intros H. assert (S : StronglySorted Rlt (y :: l)) by (apply IH; intros d Hd; apply H; now right).
      constructor; trivial. inversion S as [|? ? S' F]; subst. specialize (H _ (or_introl eq_refl)). constructor; [lra|].
      eapply Forall_impl; [|exact F]. cbn. intros; lra.
    + intros S d [<-|Hd]; [|apply (proj2 IH); [now inversion S|exact Hd]]. inversion S as [|? ? _ F]; subst. inversion F; subst. lra.
Qed.
Lemma strict_sorted_iff (l : list R) : StronglySorted Rlt l <-> sortedR l /\ NoDup l.
Proof.
  induction l as [|x l IH]; [split; [split; constructor|constructor]|]. split.
  - intros S. inversion S as [|? ? S' F]; subst. apply IH in S' as [A B]. split; constructor; trivial.
    + eapply Forall_impl; [|exact F]. cbn; intros; lra.
    + intros I. rewrite Forall_forall in F. specialize (F x I). lra.
  - intros [A B]. inversion A as [|? ? A' F]; subst. inversion B as [|? ? N B']; subst. constructor; [apply IH; auto|].
    rewrite Forall_forall in *. intros y Hy. specialize (F y Hy). destruct (Req_dec x y) as [->|]; [tauto|lra].
Qed.
Lemma spacings_pos u : (forall d, In d (spacings 0 u 1) -> 0 < d) -> StronglySorted Rlt u /\ forall x, In x u -> 0 < x < 1.
Proof.
  unfold spacings. rewrite diff_pos. intros S. inversion S as [|? ? S' F]; subst. rewrite Forall_forall in F.
  assert (K : forall l, StronglySorted Rlt (l ++ [1]) -> StronglySorted Rlt l /\ forall x, In x l -> x < 1).
  { clear. induction l as [|x l IH]; intros S; [split; [constructor|easy]|]. inversion S as [|? ? S' F]; subst. destruct (IH S') as [A B].
    rewrite Forall_forall in F. split.
    - constructor; trivial. apply Forall_forall. intros y Hy. apply F, in_or_app. now left.
    - intros y [<-|Hy]; auto. apply F, in_or_app. right; now left. }
  destruct (K u S') as [A B]. split; trivial. intros x Hx. split; auto. apply F, in_or_app. now left.
Qed.
Lemma spacings_pos_intro u : StronglySorted Rlt u -> (forall x, In x u -> 0 < x < 1) -> forall d, In d (spacings 0 u 1) -> 0 < d.
Proof.
  intros S B. unfold spacings. apply diff_pos. constructor.
  - induction S as [|x l S IH F]; [repeat constructor|]. cbn [app]. constructor.
    + apply IH. intros y Hy. apply B. now right.
    + apply Forall_app. split; trivial. constructor; [|constructor]. apply B. now left.
  - apply Forall_app. split; [|constructor; [lra|constructor]]. apply Forall_forall. intros x Hx. now apply B.
Qed.
Lemma moran_raises_iff u : moran_of u = Raise ValueError <-> u = [] \/ ~ (StronglySorted Rlt u /\ forall x, In x u -> 0 < x < 1).
Proof.
  unfold moran_of. destruct u as [|x u]; [tauto|]. set (v := x :: u). destruct (existsb (fun d => Rleb d 0) (spacings 0 v 1)) eqn:E.
  - split; [|easy]. intros _. right. intros [A B]. apply existsb_exists in E as (d & Hd & E). apply Rleb_true in E.
    pose proof (spacings_pos_intro v A B d Hd). lra.
  - split; [discriminate|]. intros [|N]; [discriminate|]. exfalso. apply N. apply spacings_pos. intros d Hd.
    destruct (Rlt_le_dec 0 d) as [|L]; trivial. apply Rleb_true in L. assert (existsb (fun d => Rleb d 0) (spacings 0 v 1) = true); [|congruence].
    apply existsb_exists. now exists d.
Qed.
Lemma moran_ok u : (exists v, moran_of u = Ok v) <-> moran_of u <> Raise ValueError.
Proof. unfold moran_of. destruct u; [split; [intros [? H]; discriminate|easy]|]. destruct (existsb _ _); split; try easy; [intros [? H]; discriminate|eauto]. Qed.

(** ** the probability plot *)
Lemma scores_blom Q a beta n : 0 < beta -> ppcc_scores Q a beta n = map (fun q => 0 + / beta * q) (blom_quantiles (Q a) n).
Proof.
  intros Hb. unfold ppcc_scores, blom_quantiles, gamma_ppf. rewrite <- seq_shift, !map_map. apply map_ext. intros i.
  replace ((INR (S i) - 3 / 8) / (INR n + 1 / 4)) with ((INR (S i) - 0.375) / (INR n + 0.25)).
  - field. lra.
  - apply (f_equal2 Rdiv); lra.
Qed.
Lemma blom_position n i : (i < n)%nat -> 0 < (INR (S i) - 0.375) / (INR n + 0.25) < 1.
Proof.
  intros H. assert (L : INR (S i) <= INR n) by (apply le_INR; lia). rewrite S_INR in *. pose proof (pos_INR i).
  split; [apply Rdiv_lt_0_compat; lra|]. apply (Rmult_lt_reg_r (INR n + 0.25)); [lra|]. unfold Rdiv. rewrite Rmult_assoc, Rinv_l by lra. lra.
Qed.
Lemma ppcc_scores_lt G Q a beta n i j : gamma_law G Q -> 0 < a -> 0 < beta -> (i < j < n)%nat ->
  gamma_ppf Q a (1 / beta) ((INR (S i) - 0.375) / (INR n + 0.25)) < gamma_ppf Q a (1 / beta) ((INR (S j) - 0.375) / (INR n + 0.25)).
Proof.
  intros HL Ha Hb H. unfold gamma_ppf. apply Rmult_lt_compat_r; [apply Rdiv_lt_0_compat; lra|].
  apply (quantile_strict G Q HL a Ha); [apply blom_position; lia| |apply blom_position; lia].
  apply Rmult_lt_compat_r; [apply Rinv_0_lt_compat; pose proof (pos_INR n); lra|]. assert (INR (S i) < INR (S j)) by (apply lt_INR; lia). lra.
Qed.
Lemma ppcc_scores_sorted G Q a beta n : gamma_law G Q -> 0 < a -> 0 < beta -> sortedR (ppcc_scores Q a beta n).
Proof.
  intros HL Ha Hb. apply sorted_seq. intros i j H. destruct (Nat.eq_dec i j) as [->|]; [lra|]. left. apply (ppcc_scores_lt G); trivial. lia.
Qed.
Lemma ppcc_scores_length Q a beta n : length (ppcc_scores Q a beta n) = n.
Proof. unfold ppcc_scores. now rewrite map_length, seq_length. Qed.
Lemma ppcc_scores_ssq G Q a beta n : gamma_law G Q -> 0 < a -> 0 < beta -> (2 <= n)%nat -> 0 < ssq (ppcc_scores Q a beta n).
Proof.
  intros HL Ha Hb H.
  apply two_values with (gamma_ppf Q a (1 / beta) ((INR 1 - 0.375) / (INR n + 0.25))) (gamma_ppf Q a (1 / beta) ((INR 2 - 0.375) / (INR n + 0.25))).
  - unfold ppcc_scores. change (INR 1) with (INR (S 0)). apply (in_map (fun i => gamma_ppf Q a (1 / beta) ((INR (S i) - 0.375) / (INR n + 0.25)))). apply in_seq. lia.
  - unfold ppcc_scores. change (INR 2) with (INR (S 1)). apply (in_map (fun i => gamma_ppf Q a (1 / beta) ((INR (S i) - 0.375) / (INR n + 0.25)))). apply in_seq. lia.
  - pose proof (ppcc_scores_lt G Q a beta n 0 1 HL Ha Hb ltac:(lia)). change (INR 1) with (INR (S 0)). change (INR 2) with (INR (S 1)). lra.
Qed.
Lemma ssq_nonneg l : 0 <= ssq l.
Proof. unfold ssq. apply Rsum_nonneg. intros x Hx. apply in_map_iff in Hx as (y & <- & _). apply pow2_ge_0. Qed.
(** the statistic is one minus the correlation, and is refused when that is undefined *)
Lemma ppcc_pearson G Q a beta l : gamma_law G Q -> 0 < a -> 0 < beta ->
  ppcc_gamma Q a beta l = (if (length l <? 2)%nat || negb (varying l) then Raise ValueError
                           else num true (1 - dot (dev (rsort l)) (dev (ppcc_scores Q a beta (length l))) /
                                              (sqrt (ssq (rsort l)) * sqrt (ssq (ppcc_scores Q a beta (length l)))))).
Proof.
  intros HL Ha Hb. unfold ppcc_gamma. destruct (Nat.ltb_spec (length l) 2) as [|Hn]; trivial. cbn [orb].
  pose proof (ppcc_scores_ssq G Q a beta (length l) HL Ha Hb Hn) as P. pose proof (ssq_nonneg (rsort l)) as N.
  rewrite pearson_dot by (rewrite rsort_length, ppcc_scores_length; trivial). rewrite sqrt_mult by lra.
  unfold varying. rewrite negb_involutive, ssq_rsort. set (q := ssq (ppcc_scores Q a beta (length l))) in *.
  destruct (sqrt_ssq (ppcc_scores Q a beta (length l)) P) as [Pq _]. fold q in Pq. rewrite ssq_rsort in N.
  destruct (Reqb_spec (ssq l) 0) as [Z|Z].
  - rewrite Z, sqrt_0, Rmult_0_l. rewrite (proj2 (Reqb_true 0 0)); trivial.
  - destruct (Reqb_spec (sqrt (ssq l) * sqrt q) 0) as [Z'|]; trivial. exfalso.
    assert (0 < sqrt (ssq l)) by (apply sqrt_lt_R0; lra). nra.
Qed.
Lemma ppcc_as_pearsonr G Q a beta l v : gamma_law G Q -> 0 < a -> 0 < beta -> ppcc_gamma Q a beta l = Ok (Some (Fin v)) ->
  pearsonr (rsort l) (ppcc_scores Q a beta (length l)) = Ok (Some (Fin (1 - v))).
Proof.
  intros HL Ha Hb. rewrite (ppcc_pearson G Q) by trivial. destruct (Nat.ltb_spec (length l) 2) as [|Hn]; [discriminate|]. cbn [orb].
  destruct (varying l) eqn:V; [|discriminate]. cbn [negb]. intros E. injection E as <-. unfold pearsonr. rewrite rsort_length.
  replace (length l <? 2)%nat with false by (symmetry; apply Nat.ltb_ge; lia).
  rewrite pearson_dot by (rewrite rsort_length, ppcc_scores_length; trivial).
  assert (V1 : varying (rsort l) = true) by (apply varying_iff; rewrite ssq_rsort; now apply varying_iff). rewrite V1.
  assert (V2 : varying (ppcc_scores Q a beta (length l)) = true) by (apply varying_iff; now apply (ppcc_scores_ssq G)). rewrite V2.
  cbn [andb num]. unfold num. do 3 f_equal. ring.
Qed.

(** ** the Lilliefors statistic *)
Lemma lillie_eval G l : (2 <= length l)%nat -> lillie_gamma G l =
  (if Rleb (mean l) 0 || Rleb (ssq l / (len l - 1)) 0 then Raise ValueError
   else lift (ks_stat (gamma_cdf G (mean l ^ 2 / (ssq l / (len l - 1))) (ssq l / (len l - 1) / mean l)) TWO_TAILED l)).
Proof. intros H. destruct l as [|x [|y l]]; simpl in H; try lia. reflexivity. Qed.
Lemma mean_rescale c l : mean (rescale c l) = c * mean l.
Proof.
  unfold mean, rescale. fold (len l). replace (len (map (fun x => c * x) l)) with (len l) by (unfold len; now rewrite map_length).
  unfold Rdiv. rewrite <- Rmult_assoc. f_equal. induction l as [|x l IH]; cbn [map Rsum fold_right]; [ring|].
  change (fold_right Rplus 0 (map (fun x => c * x) l)) with (Rsum (map (fun x => c * x) l)). rewrite IH. change (fold_right Rplus 0 l) with (Rsum l). ring.
Qed.
Lemma ssq_rescale c l : ssq (rescale c l) = c ^ 2 * ssq l.
Proof.
  unfold ssq. rewrite mean_rescale. unfold rescale. rewrite map_map. generalize (mean l). intros m. induction l as [|x l IH]; cbn [map Rsum fold_right]; [ring|].
  change (fold_right Rplus 0 ?l) with (Rsum l) in *. rewrite IH. ring.
Qed.
