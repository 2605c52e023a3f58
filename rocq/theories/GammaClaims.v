(** Properties C47, C48, C50, C53, C54, C61-C67 and C80 for the gamma statistics. *)
From Coq Require Import String.
From Verif Require Import Base DecModel EdfModel EdfSpec GraphModel RegistryModel NormalLaw ExpModel ExpSpec NormModel NormSpec GammaModel GammaSpec EdfProofs EdfRotProofs ExpRangeProofs EdfPowerProofs NormProofs NormSymProofs NormReflProofs NormRangeProofs NormFiniteProofs NormBoundProofs EdfClaims EdfMtClaims GraphConnProofs GraphClaims ExpClaims GammaProofs LognormClaims.
From Coq Require Import Lra Lia.
Local Open Scope string_scope.
Local Open Scope R_scope.

Ltac each H := cbn [gamma_statistics In] in H; repeat destruct H as [H|H]; [..|contradiction].
Ltac pickf H := first [injection H as <- <- | injection H as <-].
Ltac inlist := cbn [gamma_statistics In]; repeat (first [left; reflexivity|right]).
(** the table contains every gamma class of the registry *)
Lemma C54_gamma_complete_holds : forall G Q A c, In c stat_classes -> sc_dist c = GAMMA ->
  In (sc_name c) (map fst (gamma_statistics G Q A)).
Proof.
  intros G Q A c Hc Hd. assert (B : forallb (fun c => match sc_dist c with GAMMA => existsb (String.eqb (sc_name c))
    (map fst (gamma_statistics (fun _ _ => 0) (fun _ _ => 0) (GammaArgs 0 0 LEFT 0 0))) | _ => true end) stat_classes = true) by (vm_compute; reflexivity).
  rewrite forallb_forall in B. specialize (B c Hc). rewrite Hd in B. apply existsb_exists in B. destruct B as (x & Hx & E).
  apply String.eqb_eq in E. rewrite E. exact Hx.
Qed.
(** *** C47 *)
(** the Kolmogorov-Smirnov class measures the distance to the hypothesised distribution with shape alpha and rate beta *)
Lemma C47_gamma_holds : forall G Q A l, gamma_law G Q -> 0 < ga_alpha A -> 0 < ga_beta A -> ga_alt A = TWO_TAILED -> l <> [] ->
  exists f d, In ("KolmogorovSmirnovGammaGofStatistic", f) (gamma_statistics G Q A) /\
     nvalue (f l) = Ok (Some (Fin d)) /\ supremum (fun x => Rabs (edf l x - G (ga_alpha A) (ga_beta A * x))) d.
Proof.
  intros G Q A l HL Ha Hb Ht Hne.
  destruct (proj1 (C47_ks_is_sup_distance_holds _ l (gamma_continuous G Q HL _ (1 / ga_beta A) Ha ltac:(apply Rdiv_lt_0_compat; lra)) Hne)) as (d & E & S).
  eexists; exists d. split; [left; reflexivity|]. split; [cbn [nreads nvalue]; now rewrite Ht, E|].
  destruct S as [S1 S2]. assert (K : forall x, gamma_cdf G (ga_alpha A) (1 / ga_beta A) x = G (ga_alpha A) (ga_beta A * x)) by (intros x; unfold gamma_cdf; f_equal; field; lra).
  split.
  - intros v (x & ->). apply S1. exists x. now rewrite K.
  - intros b Hbb. apply S2. intros v (x & ->). apply Hbb. exists x. now rewrite K.
Qed.
(** the Lilliefors class measures the distance to the gamma distribution with the mean and variance of the sample *)
Lemma C47_gamma_lilliefors_holds : forall G Q A l, gamma_law G Q -> (2 <= length l)%nat -> 0 < mean l -> (exists x y, In x l /\ In y l /\ x <> y) ->
  exists f d shape scale, In ("LillieforsGammaGofStatistic", f) (gamma_statistics G Q A) /\ 0 < shape /\ 0 < scale /\
     shape * scale = mean l /\ shape * scale ^ 2 = Rsum (map (fun x => (x - mean l) ^ 2) l) / (INR (length l) - 1) /\
     nvalue (f l) = Ok (Some (Fin d)) /\ supremum (fun x => Rabs (edf l x - G shape (x / scale))) d.
Proof.
  intros G Q A l HL Hn Hm (x & y & Hx & Hy & N). pose proof (two_values l x y Hx Hy N) as V.
  assert (L : 1 < len l) by (unfold len; apply (lt_INR 1); lia). assert (VV : 0 < ssq l / (len l - 1)) by (apply Rdiv_lt_0_compat; lra).
  set (var := ssq l / (len l - 1)) in *. assert (S1 : 0 < mean l ^ 2 / var) by (apply Rdiv_lt_0_compat; nra). assert (S2 : 0 < var / mean l) by (apply Rdiv_lt_0_compat; lra).
  destruct (proj1 (C47_ks_is_sup_distance_holds _ l (gamma_continuous G Q HL _ _ S1 S2) ltac:(destruct l; [simpl in Hn; lia|discriminate]))) as (d & E & S).
  eexists; exists d, (mean l ^ 2 / var), (var / mean l). split; [right; left; reflexivity|]. split; [exact S1|]. split; [exact S2|].
  split; [field; lra|]. split; [|split].
  - fold (len l) (ssq l). fold var. field. lra.
  - cbn [nreads nvalue]. rewrite lillie_eval by trivial. fold var.
    rewrite (proj2 (Rleb_false _ _)) by trivial. rewrite (proj2 (Rleb_false _ _)) by trivial. cbn [orb]. now rewrite E.
  - exact S.
Qed.
(** *** C48, C50, C53, C66, C80 *)
Lemma C48_gamma_holds : forall G Q A name f l v, gamma_law G Q -> 0 < ga_alpha A -> 0 < ga_beta A -> ga_alt A = TWO_TAILED -> l <> [] ->
  In (name, f) (gamma_statistics G Q A) -> nvalue (f l) = Ok (Some (Fin v)) ->
  (name = "KolmogorovSmirnovGammaGofStatistic" -> 1 / (2 * len l) <= v <= 1) /\
  (In name ["CramerVonMisesGammaGofStatistic"; "WatsonGammaGofStatistic"] -> 1 / (12 * len l) <= v <= len l / 3) /\
  (name = "KuiperGammaGofStatistic" -> 1 / len l <= v <= 1).
Proof.
  intros G Q A name f l v HL Hd Hs Ha Hne H Hv. set (F := gamma_cdf G (ga_alpha A) (1 / ga_beta A)) in *.
  destruct (gamma_continuous G Q HL (ga_alpha A) (1 / ga_beta A) Hd ltac:(apply Rdiv_lt_0_compat; lra)) as (M & B & _).
  pose proof (C48_ranges_holds F l M B Hne) as K. cbv zeta in K. fold (len l) in K.
  destruct K as ((d & Kd & Rd) & (w & Kw & Rw) & (k & Kk & Rk) & (u & Ku & Ru) & KW).
  assert (I : forall x, Ok (Some (Fin x)) = Ok (Some (Fin v)) -> x = v) by (intros x Hx; congruence).
  split; [|split]; intros N.
  - subst name. each H; try discriminate H. pickf H. cbn [nreads nvalue] in Hv. fold F in Hv. rewrite Ha, Kd in Hv. apply I in Hv. now subst.
  - cbn [In] in N. destruct N as [N|[N|[]]]; subst name; each H; try discriminate H; pickf H; cbn [nreads nvalue] in Hv; fold F in Hv.
    + rewrite Kw in Hv. apply I in Hv. now subst.
    + rewrite KW, Ku in Hv. apply I in Hv. now subst.
  - subst name. each H; try discriminate H. pickf H. cbn [nreads nvalue] in Hv. fold F in Hv. rewrite Kk in Hv. apply I in Hv. now subst.
Qed.
(** Anderson-Darling and Min-Toshiyuki are infinite exactly when an observation is outside the support *)
Lemma C50_gamma_holds : forall G Q A l f, gamma_law G Q -> 0 < ga_alpha A -> 0 < ga_beta A -> l <> [] ->
  In ("AndersonDarlingGammaGofStatistic", f) (gamma_statistics G Q A) ->
  ((forall x, In x l -> 0 < x) -> exists v, nvalue (f l) = Ok (Some (Fin v)) /\ 0 <= v) /\
  (nvalue (f l) = Ok (Some NonFinite) <-> exists x, In x l /\ x <= 0).
Proof.
  intros G Q A l f HL Ha Hb Hne H. assert (Hs : 0 < 1 / ga_beta A) by (apply Rdiv_lt_0_compat; lra).
  each H; try discriminate H. injection H as <-. cbn [nreads nvalue]. set (F := gamma_cdf G (ga_alpha A) (1 / ga_beta A)). split.
  - intros P. destruct (C50_ad_nonnegative_holds F l Hne) as (v & E & V); [intros x Hx; apply (gamma_positive G Q HL); auto|].
    exists v. now rewrite E.
  - split.
    + intros E. assert (E' : ad_stat F l = NonFinite) by congruence. apply C50_finite_iff_inside_holds in E' as (x & Hx & Hc). exists x. split; trivial.
      destruct (Rlt_le_dec 0 x) as [P|]; trivial. apply (gamma_positive G Q HL (ga_alpha A) (1 / ga_beta A) Ha Hs) in P. fold F in P. lra.
    + intros (x & Hx & L). do 2 f_equal. apply C50_finite_iff_inside_holds. exists x. split; trivial. left. unfold F. rewrite (gamma_nonpos G Q HL); trivial. lra.
Qed.
Lemma C80_gamma_holds : forall G Q A l f g v d, gamma_law G Q -> 0 < ga_alpha A -> 0 < ga_beta A -> ga_alt A = TWO_TAILED ->
  In ("MinToshiyukiGammaGofStatistic", f) (gamma_statistics G Q A) -> In ("KolmogorovSmirnovGammaGofStatistic", g) (gamma_statistics G Q A) ->
  (nvalue (f l) = Ok (Some NonFinite) <-> l = [] \/ exists x, In x l /\ x <= 0) /\
  (nvalue (f l) = Ok (Some (Fin v)) -> nvalue (g l) = Ok (Some (Fin d)) -> / sqrt (len l) <= v /\
     forall w, (forall x, In x l -> sqrt (1 / (G (ga_alpha A) (ga_beta A * x) * (1 - G (ga_alpha A) (ga_beta A * x)))) <= w) -> v <= sqrt (len l) * d * w).
Proof.
  intros G Q A l f g v d HL Ha Hb Ht H H'. assert (Hs : 0 < 1 / ga_beta A) by (apply Rdiv_lt_0_compat; lra).
  each H; try discriminate H. injection H as <-. each H'; try discriminate H'. injection H' as <-. cbn [nreads nvalue]. rewrite Ht.
  set (F := gamma_cdf G (ga_alpha A) (1 / ga_beta A)).
  assert (K : forall x, F x = G (ga_alpha A) (ga_beta A * x)) by (intros x; unfold F, gamma_cdf; f_equal; field; lra).
  pose proof (C80_finite_exactly_inside_holds F l) as X. split.
  - split.
    + intros E. destruct l as [|x0 l0]; [now left|]. set (l := x0 :: l0) in *. right. destruct (existsb (fun x => Rleb x 0) l) eqn:B.
      * apply existsb_exists in B as (x & Hx & L). exists x. split; trivial. now apply Rleb_true.
      * exfalso. assert (mt_stat F l <> NonFinite); [|congruence]. apply X. split; [discriminate|]. intros x Hx. apply (gamma_positive G Q HL); trivial.
        destruct (Rlt_le_dec 0 x) as [|L]; trivial. apply Rleb_true in L. assert (existsb (fun x => Rleb x 0) l = true); [|congruence]. apply existsb_exists. now exists x.
    + intros C. do 2 f_equal. destruct (mt_stat F l) as [z|] eqn:E; trivial. exfalso. destruct (proj1 X) as [N P]; [discriminate|].
      destruct C as [C|(x & Hx & L)]; [tauto|]. specialize (P x Hx). unfold F in P. rewrite (gamma_nonpos G Q HL) in P by trivial. lra.
  - intros E1 E2. assert (E1' : mt_stat F l = Fin v) by congruence. assert (E2' : ks_stat F TWO_TAILED l = Ok d).
    { destruct (ks_stat F TWO_TAILED l); cbn in E2; congruence. }
    assert (W : exists w, forall x, In x l -> sqrt (1 / (F x * (1 - F x))) <= w).
    { clear. induction l as [|x l (w & IH)]; [now exists 0|]. exists (Rmax w (sqrt (1 / (F x * (1 - F x))))). intros y [<-|Hy]; [apply Rmax_r|].
      eapply Rle_trans; [apply IH, Hy|apply Rmax_l]. }
    destruct W as (w0 & W). split; [apply (proj1 (C80_range_holds F l v d w0 E1' E2' W))|].
    intros w Hw. apply (C80_range_holds F l v d w E1' E2'). intros x Hx. rewrite K. now apply Hw.
Qed.
Lemma C53_gamma_holds : forall G Q A name f l v, (2 <= ga_bins A)%nat -> In (name, f) (gamma_statistics G Q A) ->
  In name ["Chi2PearsonGammaGofStatistic"; "LikelihoodRatioGammaGofStatistic"; "CressieReadGammaGofStatistic"] ->
  nvalue (f l) = Ok (Some (Fin v)) -> 0 <= v.
Proof.
  intros G Q A name f l v Hb H N Hv. cbn [In] in N. 
  assert (K : forall lambda, (let! v := binned_stat (gamma_ppf Q (ga_alpha A) (1 / ga_beta A)) lambda (ga_bins A) l in Ok (Some v)) = Ok (Some (Fin v)) -> 0 <= v).
  { intros lambda E. destruct (binned_stat _ _ _ _) as [w|] eqn:B; [|discriminate]. cbn in E. injection E as ->.
    exact (C53_binned_statistics_nonnegative_holds _ _ _ _ _ Hb B). }
  destruct N as [N|[N|[N|[]]]]; subst name; each H; try discriminate H; pickf H; eapply K; exact Hv.
Qed.
(** Greenwood lies in [1/(n+1), 1]; Moran is positive *)
Lemma C66_gamma_holds : forall G Q A name f l v, gamma_law G Q -> 0 < ga_alpha A -> 0 < ga_beta A ->
  In (name, f) (gamma_statistics G Q A) -> nvalue (f l) = Ok (Some (Fin v)) ->
  (name = "GreenwoodGammaGofStatistic" -> 1 / (len l + 1) <= v <= 1) /\
  (name = "MoranGammaGofStatistic" -> 0 < (len l + 1) * ln ((len l + 1) / len l) <= v).
Proof.
  intros G Q A name f l v HL Ha Hb H Hv. destruct (gamma_continuous G Q HL (ga_alpha A) (1 / ga_beta A) Ha ltac:(apply Rdiv_lt_0_compat; lra)) as (M & B & _).
  split; intros ->; each H; try discriminate H; pickf H; cbn [nreads nvalue] in Hv.
  - destruct (greenwood_stat _ _) as [w|] eqn:E; [|discriminate]. cbn in Hv. injection Hv as ->. exact (C66_greenwood_range_holds _ _ _ M B E).
  - destruct (moran_stat _ _) as [w|] eqn:E; [|discriminate]. cbn in Hv. injection Hv as ->. exact (C66_moran_lower_bound_holds _ _ _ E).
Qed.
(** *** C54, C64 *)
Lemma gamma_perm G Q A name f l l' : In (name, f) (gamma_statistics G Q A) -> Permutation l l' -> nvalue (f l) = nvalue (f l').
Proof.
  intros H P. assert (E : rsort l = rsort l') by now apply rsort_perm_eq. assert (L : len l = len l') by (unfold len; now rewrite (Permutation_length P)).
  assert (M : mean l = mean l') by (unfold mean; rewrite L; f_equal; now apply Rsum_perm). assert (V : ssq l = ssq l') by (now apply ssq_perm).
  each H; pickf H; cbn [nreads nvalue]; unfold ks_stat, ad_stat, cvm_stat, kuiper_stat, watson_gamma_stat, greenwood_stat, moran_stat, mt_stat, cdf_vals;
    rewrite ?E; try reflexivity; try (now rewrite (C54_order_irrelevant_binned_holds _ _ _ _ _ P)); try (now rewrite (C54_gamma_graph_permutation_holds _ _ _ _ _ P)).
  - destruct (Nat.lt_ge_cases (length l) 2) as [S|S].
    + destruct l as [|x [|y l]]; [apply Permutation_nil in P; now subst| |simpl in S; lia]. apply Permutation_length_1_inv in P. now subst.
    + rewrite (lillie_eval G l), (lillie_eval G l') by (rewrite <- ?(Permutation_length P); trivial). rewrite M, V, L. unfold ks_stat, cdf_vals. now rewrite E.
  - unfold ppcc_gamma. now rewrite E, (Permutation_length P).
Qed.
Lemma C54_gamma_holds : forall G Q A name f l l', In (name, f) (gamma_statistics G Q A) -> Permutation l l' -> nvalue (f l) = nvalue (f l').
Proof. exact gamma_perm. Qed.
Lemma C64_gamma_holds : forall G Q A name f l, In (name, f) (gamma_statistics G Q A) -> nsample_after (f l) = l.
Proof. intros G Q A name f l H. each H; pickf H; reflexivity. Qed.
(** *** C61 *)
Lemma graph_rescale {X} G a beta c (st : list R -> result X) l : 0 < c -> beta <> 0 ->
  gamma_graph (gamma_cdf G a (1 / (beta / c))) st (rescale c l) = gamma_graph (gamma_cdf G a (1 / beta)) st l.
Proof.
  intros Hc Hb. pose proof (rescale_vals G a beta c l Hc Hb) as V. unfold cdf_vals in V. unfold gamma_graph. destruct l as [|x l]; trivial.
  change (rescale c (x :: l)) with (c * x :: rescale c l). cbv iota. change (c * x :: rescale c l) with (rescale c (x :: l)). now rewrite V.
Qed.
Lemma lillie_rescale G c l : 0 < c -> lillie_gamma G (rescale c l) = lillie_gamma G l.
Proof.
  intros Hc. destruct (Nat.lt_ge_cases (length l) 2) as [S|S].
  - destruct l as [|x [|y l]]; [reflexivity| |simpl in S; lia]. cbn [rescale map lillie_gamma].
    destruct (Rleb_spec x 0), (Rleb_spec (c * x) 0); trivial; nra.
  - assert (LL : length (rescale c l) = length l) by (unfold rescale; now rewrite map_length). assert (LR : len (rescale c l) = len l) by (unfold len; now rewrite LL).
    rewrite !lillie_eval by (rewrite ?LL; trivial). rewrite mean_rescale, ssq_rescale, LR.
    assert (L : 1 < len l) by (unfold len; apply (lt_INR 1); lia). set (v := ssq l / (len l - 1)).
    replace (c ^ 2 * ssq l / (len l - 1)) with (c ^ 2 * v) by (unfold v; field; lra).
    assert (C2 : 0 < c ^ 2) by nra.
    replace (Rleb (c * mean l) 0) with (Rleb (mean l) 0) by (destruct (Rleb_spec (mean l) 0), (Rleb_spec (c * mean l) 0); trivial; nra).
    replace (Rleb (c ^ 2 * v) 0) with (Rleb v 0) by (destruct (Rleb_spec v 0), (Rleb_spec (c ^ 2 * v) 0); trivial; nra).
    destruct (Rleb_spec (mean l) 0); trivial. destruct (Rleb_spec v 0); trivial. cbn [orb]. f_equal. unfold ks_stat, cdf_vals, rescale.
    rewrite rsort_map_mono by (intros a b Hab; nra). rewrite map_map. f_equal. apply map_ext. intros x. unfold gamma_cdf. f_equal; field; lra.
Qed.
Lemma ppcc_affine G Q alpha beta beta' a b l : gamma_law G Q -> 0 < alpha -> 0 < beta -> 0 < beta' -> 0 < b ->
  ppcc_gamma Q alpha beta' (map (fun x => a + b * x) l) = ppcc_gamma Q alpha beta l.
Proof.
  intros HL Ha Hb Hb' Hp. rewrite !(ppcc_pearson G Q) by trivial. rewrite map_length. destruct (Nat.ltb_spec (length l) 2) as [|Hn]; trivial. cbn [orb].
  fold (aff a b l). assert (NE : l <> []) by (destruct l; [simpl in Hn; lia|discriminate]).
  unfold varying. rewrite ssq_aff. assert (B2 : 0 < b ^ 2) by nra.
  replace (Reqb (b ^ 2 * ssq l) 0) with (Reqb (ssq l) 0) by (destruct (Reqb_spec (ssq l) 0), (Reqb_spec (b ^ 2 * ssq l) 0); trivial; nra).
  destruct (Reqb_spec (ssq l) 0) as [Z|Z]; trivial. cbn [negb]. unfold num. do 4 f_equal.
  rewrite !scores_blom by trivial. set (q := blom_quantiles (Q alpha) (length l)).
  assert (Lq : length q = length l) by (unfold q, blom_quantiles; now rewrite map_length, seq_length).
  assert (NQ : q <> []) by (destruct q; [simpl in Lq; lia|discriminate]).
  assert (DE : forall u t (w : list R), w <> [] -> dev (map (fun x => u + t * x) w) = map (fun v => t * v) (dev w)).
  { intros u t w Hw. fold (aff u t w). unfold dev. rewrite aff_mean by trivial. unfold aff. rewrite !map_map. apply map_ext. intros; ring. }
  unfold aff at 1 2. rewrite rsort_map_mono by (intros x y Hxy; nra). rewrite !DE by (trivial; now rewrite rsort_nil_iff).
  fold (aff a b (rsort l)) (aff 0 (/ beta') q) (aff 0 (/ beta) q). rewrite !ssq_aff, !sqrt_sq_scale by (try (left; now apply Rinv_0_lt_compat); lra).
  assert (DS : forall t t' (w w' : list R), dot (map (fun v => t * v) w) (map (fun v => t' * v) w') = t * t' * dot w w').
  { clear. intros t t' w. induction w as [|x w IH]; intros [|y w']; unfold dot in *; cbn [map combine Rsum fold_right fst snd]; try ring.
    change (fold_right Rplus 0 ?z) with (Rsum z) in *. rewrite IH. ring. }
  replace (dev (rsort l)) with (map (fun v => 1 * v) (dev (rsort l))) at 2 by (rewrite (map_ext _ (fun v => v)); [apply map_id|intros; ring]).
  rewrite !DS. assert (Px : 0 < ssq (rsort l)). { pose proof (ssq_nonneg l). rewrite ssq_rsort. lra. }
  assert (Pq : 0 < ssq q). { pose proof (ppcc_scores_ssq G Q alpha 1 (length l) HL Ha Rlt_0_1 Hn) as S. rewrite scores_blom in S by lra. fold q in S.
    fold (aff 0 (/ 1) q) in S. rewrite ssq_aff in S. nra. }
  destruct (sqrt_ssq _ Px) as [P1 _], (sqrt_ssq _ Pq) as [P2 _]. field. repeat split; lra.
Qed.
(** the rate is used: a sample in another unit tested against the hypothesis in that unit *)
Lemma C61_gamma_holds : forall G Q alpha beta alt bins power c name f l, gamma_law G Q -> 0 < alpha -> 0 < beta -> 0 < c ->
  In (name, f) (gamma_statistics G Q (GammaArgs alpha beta alt bins power)) ->
  exists g, In (name, g) (gamma_statistics G Q (GammaArgs alpha (beta / c) alt bins power)) /\ nvalue (g (rescale c l)) = nvalue (f l).
Proof.
  intros G Q alpha beta alt bins power c name f l HL Ha Hb Hc H. assert (N : beta <> 0) by lra.
  each H; pickf H; (eexists; split; [inlist|]); cbn [nreads nvalue ga_alpha ga_beta ga_alt ga_bins ga_power];
    unfold ks_stat, ad_stat, cvm_stat, kuiper_stat, watson_gamma_stat, greenwood_stat, moran_stat, mt_stat;
    rewrite ?rescale_vals, ?binned_rescale, ?graph_rescale, ?lillie_rescale by assumption; try reflexivity.
  unfold rescale. rewrite (map_ext _ (fun x => 0 + c * x)) by (intros; ring). apply (ppcc_affine G); trivial. now apply Rdiv_lt_0_compat.
Qed.
(** the Lilliefors class estimates both parameters: the parameters of the object and the unit of the data do not matter *)
Lemma C61_gamma_lilliefors_holds : forall G Q A A' c l f g, 0 < c ->
  In ("LillieforsGammaGofStatistic", f) (gamma_statistics G Q A) -> In ("LillieforsGammaGofStatistic", g) (gamma_statistics G Q A') ->
  nvalue (g (rescale c l)) = nvalue (f l).
Proof.
  intros G Q A A' c l f g Hc H H'. each H; try discriminate H. injection H as <-. each H'; try discriminate H'. injection H' as <-. cbn [nreads nvalue].
  now apply lillie_rescale.
Qed.
(** the probability plot correlation depends on the shape only *)
Lemma C61_gamma_ppcc_holds : forall G Q A A' a b l f g, gamma_law G Q -> 0 < ga_alpha A -> 0 < ga_beta A -> 0 < ga_beta A' ->
  ga_alpha A' = ga_alpha A -> 0 < b -> In ("ProbabilityPlotCorrelationGammaGofStatistic", f) (gamma_statistics G Q A) ->
  In ("ProbabilityPlotCorrelationGammaGofStatistic", g) (gamma_statistics G Q A') -> nvalue (g (map (fun x => a + b * x) l)) = nvalue (f l).
Proof.
  intros G Q A A' a b l f g HL H1 H2 H3 E Hb H H'. each H; try discriminate H. injection H as <-. each H'; try discriminate H'. injection H' as <-. cbn [nreads nvalue].
  rewrite E. now apply (ppcc_affine G).
Qed.
(** *** C62, C65: the probability plot correlation *)
(** the statistic lies in [0,1]; it is 0 exactly for a sample that is an increasing affine image of the quantiles *)
Lemma C62_gamma_ppcc_holds : forall G Q A l f v, gamma_law G Q -> 0 < ga_alpha A -> 0 < ga_beta A ->
  In ("ProbabilityPlotCorrelationGammaGofStatistic", f) (gamma_statistics G Q A) -> nvalue (f l) = Ok (Some (Fin v)) ->
  0 <= v <= 1 /\ (v = 0 <-> exists a b, 0 < b /\ Permutation l (map (fun q => a + b * q) (blom_quantiles (Q (ga_alpha A)) (length l)))).
Proof.
  intros G Q A l f v HL Ha Hb H Hv. each H; try discriminate H. injection H as <-. cbn [nreads nvalue] in Hv.
  pose proof (ppcc_as_pearsonr G Q _ _ l v HL Ha Hb Hv) as E.
  assert (LE : length (rsort l) = length (ppcc_scores Q (ga_alpha A) (ga_beta A) (length l))) by (now rewrite rsort_length, ppcc_scores_length).
  pose proof (pearsonr_sorted _ _ _ (rsort_sorted l) (ppcc_scores_sorted G Q _ _ _ HL Ha Hb) LE E) as Rg. split; [lra|].
  pose proof (pearsonr_one _ _ _ LE E) as O. rewrite scores_blom in O by trivial. set (q := blom_quantiles (Q (ga_alpha A)) (length l)) in *.
  assert (SQ : sortedR q).
  { pose proof (ppcc_scores_sorted G Q (ga_alpha A) 1 (length l) HL Ha Rlt_0_1) as S. rewrite scores_blom in S by lra. fold q in S.
    rewrite (map_ext _ (fun x => x)), map_id in S by (intros; field). exact S. }
  assert (I : 0 < / ga_beta A) by (now apply Rinv_0_lt_compat). split.
  - intros ->. destruct (proj1 O ltac:(lra)) as (a & b & P & X). exists a, (b * / ga_beta A). split; [nra|].
    rewrite <- (rsort_perm l), X, map_map. erewrite map_ext; [reflexivity|]. intros; cbv beta. ring.
  - intros (a & b & P & X). assert (1 - v = 1); [|lra]. apply O. exists a, (b * ga_beta A). split; [nra|].
    rewrite (rsort_perm_eq _ _ X), map_map. rewrite (map_ext (fun q => a + b * ga_beta A * (0 + / ga_beta A * q)) (fun q => a + b * q)) by (intros; field; lra).
    rewrite rsort_map_mono by (intros x y Hxy; nra). f_equal. apply rsort_unique; [reflexivity|exact SQ].
Qed.
(** the best fit has the smallest value, but the class declares that small values are evidence against the hypothesis *)
Lemma C65_gamma_ppcc_refuted_holds : declares "ProbabilityPlotCorrelationGammaGofStatistic" LEFT /\
  forall G Q A n f, gamma_law G Q -> 0 < ga_alpha A -> 0 < ga_beta A -> (2 <= n)%nat ->
  In ("ProbabilityPlotCorrelationGammaGofStatistic", f) (gamma_statistics G Q A) ->
  nvalue (f (blom_quantiles (Q (ga_alpha A)) n)) = Ok (Some (Fin 0)) /\
  forall l v, nvalue (f l) = Ok (Some (Fin v)) -> 0 <= v.
Proof.
  split; [apply declared; vm_compute; reflexivity|]. intros G Q A n f HL Ha Hb Hn H. split.
  - pose proof H as H0. each H; try discriminate H. injection H as Hf. 
    set (q := blom_quantiles (Q (ga_alpha A)) n). assert (Lq : length q = n) by (unfold q, blom_quantiles; now rewrite map_length, seq_length).
    assert (V : varying q = true).
    { apply varying_iff. pose proof (ppcc_scores_ssq G Q (ga_alpha A) 1 n HL Ha Rlt_0_1 Hn) as S. rewrite scores_blom in S by lra. fold q in S.
      rewrite (map_ext _ (fun x => x)), map_id in S by (intros; field). exact S. }
    assert (E : exists v, nvalue (f q) = Ok (Some (Fin v))).
    { rewrite <- Hf. cbn [nreads nvalue]. rewrite (ppcc_pearson G Q) by trivial. rewrite Lq, V.
      replace (n <? 2)%nat with false by (symmetry; apply Nat.ltb_ge; lia). cbn [orb negb]. eexists. reflexivity. }
    destruct E as (v & E). rewrite E. do 3 f_equal. apply (proj2 (C62_gamma_ppcc_holds G Q A q f v HL Ha Hb H0 E)). exists 0, 1. split; [lra|].
    rewrite Lq. fold q. rewrite (map_ext _ (fun x => x)), map_id by (intros; ring). reflexivity.
  - intros l v E. apply (C62_gamma_ppcc_holds G Q A l f v HL Ha Hb H E).
Qed.
(** *** C63 *)
Lemma bind_fin {X} (r : result X) (k : X -> npval) : (exists x v, r = Ok x /\ k x = Fin v) -> fin (let! x := r in Ok (Some (k x))).
Proof. intros (x & v & -> & E). exists v. cbn. now rewrite E. Qed.
(** every class returns a finite number on two or more different positive observations *)
Lemma C63_gamma_holds : forall G Q A name f l, gamma_law G Q -> 0 < ga_alpha A -> 0 < ga_beta A -> (2 <= ga_bins A)%nat -> 0 <= ga_power A ->
  In (name, f) (gamma_statistics G Q A) -> NoDup l -> (2 <= length l)%nat -> (forall x, In x l -> 0 < x) ->
  exists v, nvalue (f l) = Ok (Some (Fin v)).
Proof.
  intros G Q A name f l HL Ha Hb Hbins Hp H Hd Hn Hx. assert (Hs : 0 < 1 / ga_beta A) by (apply Rdiv_lt_0_compat; lra).
  assert (NE : l <> []) by (destruct l; [simpl in Hn; lia|discriminate]).
  set (F := gamma_cdf G (ga_alpha A) (1 / ga_beta A)).
  assert (IN : forall x, In x l -> 0 < F x < 1) by (intros x Hl; apply (gamma_positive G Q HL); auto).
  assert (CN : cdf_vals F l <> []) by (unfold cdf_vals; apply map_ne; now apply rsort_ne).
  assert (CI : forall p, In p (cdf_vals F l) -> 0 < p < 1).
  { intros p Hp'. unfold cdf_vals in Hp'. apply in_map_iff in Hp' as (x & <- & Hx'). apply IN. now apply rsort_in. }
  destruct (gamma_continuous G Q HL (ga_alpha A) (1 / ga_beta A) Ha Hs) as (M & B & _). fold F in M, B.
  assert (BI : forall lambda, 0 <= lambda -> fin (let! v := binned_stat (gamma_ppf Q (ga_alpha A) (1 / ga_beta A)) lambda (ga_bins A) l in Ok (Some v))).
  { intros lambda Hl. apply (bind_fin _ (fun v => v)). unfold binned_stat. rewrite match_ne by trivial.
    destruct (pd_defined lambda (map INR (histogram (map (fun i => gamma_ppf Q (ga_alpha A) (1 / ga_beta A) (INR (S i) / INR (ga_bins A))) (seq 0 (ga_bins A - 1))) l))
      (repeat (len l / INR (ga_bins A)) (ga_bins A))) as (s & E); [|now left|exists (Fin s), s; now rewrite E].
    intros e He. apply repeat_spec in He. subst e. apply Rdiv_lt_0_compat; [now apply len_pos|apply lt_0_INR; lia]. }
  assert (GG : forall X (st : list R -> result X), gamma_graph F st l = st (cdf_vals F l)) by (intros X st; unfold gamma_graph; now rewrite match_ne).
  destruct (proj1 (C55_defined_holds dist_base (or_introl eq_refl)) _ CN) as (dd & DD).
  each H; pickf H; cbn [nreads nvalue]; fold F; rewrite ?GG; try (apply BI; lra); try (apply BI; exact Hp).
  - apply ks_fin, CN.
  - rewrite lillie_eval by trivial. assert (L : 1 < len l) by (unfold len; apply (lt_INR 1); lia).
    pose proof (nodup_ssq l Hd Hn) as V. assert (VV : 0 < ssq l / (len l - 1)) by (apply Rdiv_lt_0_compat; lra).
    assert (MM : 0 < mean l). { unfold mean. apply Rdiv_lt_0_compat; [|now apply len_pos]. destruct l as [|x l']; [congruence|]. cbn [Rsum fold_right].
      change (fold_right Rplus 0 l') with (Rsum l'). assert (0 <= Rsum l') by (apply Rsum_nonneg; intros y Hy; left; apply Hx; now right). pose proof (Hx x (or_introl eq_refl)). lra. }
    rewrite (proj2 (Rleb_false _ _)) by trivial. rewrite (proj2 (Rleb_false _ _)) by trivial. cbn [orb]. apply ks_fin. unfold cdf_vals. apply map_ne; now apply rsort_ne.
  - destruct (C50_ad_nonnegative_holds F l NE IN) as (v & E & _). exists v. now rewrite E.
  - apply cvm_fin, CN.
  - destruct (C48_ranges_holds F l M B NE) as (_ & _ & _ & (u & E & _) & W). exists u. now rewrite W, E.
  - destruct (C48_ranges_holds F l M B NE) as (_ & _ & (u & E & _) & _). exists u. now rewrite E.
  - destruct (C66_greenwood_never_raises_holds F l M B) as (v & E). exists v. now rewrite E.
  - assert (E : exists v, moran_of (cdf_vals F l) = Ok v).
    { apply moran_ok. rewrite moran_raises_iff. intros [|N]; [tauto|]. apply N. split; [|exact CI]. apply strict_sorted_iff. split.
      - unfold cdf_vals. rewrite <- (rsort_map_mono F l) by trivial. apply rsort_sorted.
      - unfold cdf_vals. apply nodup_map_on; [|now apply rsort_nodup]. intros x y Hx' Hy' E. apply (proj1 (rsort_in _ _)) in Hx'; apply (proj1 (rsort_in _ _)) in Hy'.
        destruct (Rtotal_order x y) as [L|[L|L]]; trivial; exfalso.
        + pose proof (gamma_strict G Q HL (ga_alpha A) (1 / ga_beta A) Ha Hs x y ltac:(left; auto) L) as Z. fold F in Z. lra.
        + pose proof (gamma_strict G Q HL (ga_alpha A) (1 / ga_beta A) Ha Hs y x ltac:(left; auto) L) as Z. fold F in Z. lra. }
    destruct E as (v & E). exists v. unfold moran_stat. now rewrite E.
  - destruct (mt_stat F l) as [v|] eqn:E; [now exists v|]. exfalso. apply (proj2 (C80_finite_exactly_inside_holds F l)); auto.
  - rewrite (ppcc_pearson G Q) by trivial. rewrite (nodup_varying l Hd Hn). replace (length l <? 2)%nat with false by (symmetry; apply Nat.ltb_ge; lia).
    eexists. reflexivity.
  - unfold edges_stat, graph_execute. rewrite DD. eexists. reflexivity.
  - destruct (C55_max_degree_holds dist_base _ dd DD CN) as (k & E & _). rewrite E. eexists. reflexivity.
  - destruct (C55_average_degree_holds dist_base _ dd DD CN) as (k & _ & E). rewrite E. eexists. reflexivity.
  - unfold components_stat, graph_execute. rewrite DD. cbn. destruct (connected_components_correct (cdf_vals F l) dd) as (k & E & _). rewrite E. eexists. reflexivity.
  - unfold clique_stat. rewrite DD. eexists. reflexivity.
  - unfold independence_stat. replace (py_not PyList (cdf_vals F l)) with (@Ok bool false) by (destruct (cdf_vals F l); [tauto|reflexivity]). cbn. rewrite DD. eexists. reflexivity.
Qed.
(** *** C67 *)
Lemma C67_gamma_constructor_holds : forall alpha beta bins,
  ((exists p, gamma_ctor alpha beta = Ok p) <-> 0 < alpha /\ 0 < beta) /\
  (gamma_ctor alpha beta = Raise ValueError <-> alpha <= 0 \/ beta <= 0) /\
  (gamma_binned_ctor bins alpha beta = Raise ValueError <-> (bins < 2)%nat \/ alpha <= 0 \/ beta <= 0) /\
  (forall p, gamma_binned_ctor bins alpha beta = Ok p \/ gamma_ctor alpha beta = Ok p -> p = (alpha, beta)).
Proof.
  intros alpha beta bins. unfold gamma_binned_ctor, gamma_ctor. destruct (Nat.ltb_spec bins 2), (Rleb_spec alpha 0), (Rleb_spec beta 0);
    (split; [split; [intros [p E]; try discriminate; lra|intros [? ?]; try lra; eauto]|]);
    (split; [split; [intros; try discriminate; lra|intros; try lra; trivial]|]);
    (split; [split; [intros E; try discriminate E; first [now left|right; lra]|intros; try (intuition (try lra; try lia)); trivial]|]);
    intros p [E|E]; congruence.
Qed.
(** which samples are refused *)
Lemma C67_gamma_refusals_holds : forall G Q A name f l, gamma_law G Q -> 0 < ga_alpha A -> 0 < ga_beta A ->
  In (name, f) (gamma_statistics G Q A) ->
  (name = "MoranGammaGofStatistic" -> (nvalue (f l) = Raise ValueError <-> l = [] \/ (exists x, In x l /\ x <= 0) \/ ~ NoDup l)) /\
  (name = "LillieforsGammaGofStatistic" -> (nvalue (f l) = Raise ValueError <->
     l = [] \/ mean l <= 0 \/ ((2 <= length l)%nat /\ forall x y, In x l -> In y l -> x = y))) /\
  (name = "ProbabilityPlotCorrelationGammaGofStatistic" -> (nvalue (f l) = Raise ValueError <-> forall x y, In x l -> In y l -> x = y)) /\
  (In name ["Chi2PearsonGammaGofStatistic"; "LikelihoodRatioGammaGofStatistic"; "CressieReadGammaGofStatistic"; "KolmogorovSmirnovGammaGofStatistic";
     "KuiperGammaGofStatistic"; "WatsonGammaGofStatistic"] -> (nvalue (f l) = Raise ValueError <-> l = [])).
Proof.
  intros G Q A name f l HL Ha Hb H. assert (Hs : 0 < 1 / ga_beta A) by (apply Rdiv_lt_0_compat; lra).
  set (F := gamma_cdf G (ga_alpha A) (1 / ga_beta A)).
  assert (VC : forall w : list R, ssq w = 0 <-> forall x y, In x w -> In y w -> x = y).
  { intros w. split.
    - intros Z x y Hx Hy. destruct (Req_dec x y) as [|N]; trivial. pose proof (two_values w x y Hx Hy N). lra.
    - intros C. destruct w as [|x w]; [reflexivity|]. set (w' := x :: w) in *. assert (E : forall y, In y w' -> y = x) by (intros y Hy; apply C; [exact Hy|now left]).
      assert (W : w' = repeat x (length w')). { clear -E. revert E. generalize w'. induction w'0 as [|a l IH]; intros E; trivial. cbn [length repeat]. rewrite (E a (or_introl eq_refl)) at 1. f_equal. apply IH. intros y Hy. apply E. now right. }
      assert (M : mean w' = x). { unfold mean. rewrite W at 1. rewrite Rsum_repeat. fold (len w'). pose proof (len_pos w' ltac:(discriminate)). unfold len in *. field. lra. }
      unfold ssq. rewrite M. rewrite (map_ext_in _ (fun _ => 0)); [|intros y Hy; rewrite (E y Hy); ring].
      clear. induction w' as [|a l IH]; cbn [map Rsum fold_right]; [lra|]. change (fold_right Rplus 0 ?z) with (Rsum z) in *. lra. }
  split; [|split; [|split]].
  - intros ->. each H; try discriminate H. injection H as <-. cbn [nreads nvalue]. fold F.
    assert (X : lift (moran_stat F l) = Raise ValueError <-> moran_of (cdf_vals F l) = Raise ValueError).
    { unfold moran_stat. destruct (moran_of _); cbn; split; intros E; try discriminate; congruence. }
    rewrite X, moran_raises_iff. unfold cdf_vals. split.
    + intros [E|N]; [left; destruct l as [|x l]; trivial; exfalso; revert E; apply map_ne, rsort_ne; discriminate|].
      destruct (existsb (fun x => Rleb x 0) l) eqn:EX.
      * apply existsb_exists in EX as (x & Hx & L). right; left. exists x. split; trivial. now apply Rleb_true.
      * assert (P : forall x, In x l -> 0 < x). { intros x Hx. destruct (Rlt_le_dec 0 x) as [|L]; trivial. apply Rleb_true in L. assert (existsb (fun x => Rleb x 0) l = true); [|congruence]. apply existsb_exists. now exists x. }
        right; right. intros ND. apply N. split.
        -- apply strict_sorted_iff. split.
           ++ rewrite <- rsort_map_mono; [apply rsort_sorted|]. intros x y Hxy. apply (gamma_continuous G Q HL _ _ Ha Hs); trivial.
           ++ apply nodup_map_on; [|now apply rsort_nodup]. intros x y Hx Hy E. apply (proj1 (rsort_in _ _)) in Hx; apply (proj1 (rsort_in _ _)) in Hy. destruct (Rtotal_order x y) as [L|[L|L]]; trivial; exfalso.
              ** pose proof (gamma_strict G Q HL (ga_alpha A) (1 / ga_beta A) Ha Hs x y ltac:(left; auto) L) as Z. fold F in Z. lra.
              ** pose proof (gamma_strict G Q HL (ga_alpha A) (1 / ga_beta A) Ha Hs y x ltac:(left; auto) L) as Z. fold F in Z. lra.
        -- intros p Hp. apply in_map_iff in Hp as (x & <- & Hx). apply (gamma_positive G Q HL); trivial. apply P. now apply rsort_in.
    + intros [->|[(x & Hx & L)|N]].
      * now left.
      * right. intros [_ B]. specialize (B (F x) (in_map F _ _ (proj2 (rsort_in l x) Hx))). unfold F in B. rewrite (gamma_nonpos G Q HL) in B by trivial. lra.
      * right. intros [S _]. apply N. apply strict_sorted_iff in S as [_ S]. apply NoDup_map_inv in S. eapply Permutation_NoDup; [apply rsort_perm|exact S].
  - intros ->. each H; try discriminate H. injection H as <-. cbn [nreads nvalue]. destruct (Nat.lt_ge_cases (length l) 2) as [S|S].
    + destruct l as [|x [|y l]]; [split; auto| |simpl in S; lia]. unfold lillie_gamma. assert (M : mean [x] = x) by (unfold mean; cbn; field). rewrite M.
      destruct (Rleb_spec x 0); split; intros E; auto; try discriminate E. destruct E as [E|[E|[E _]]]; [discriminate|lra|simpl in E; lia].
    + rewrite lillie_eval by trivial. assert (L : 1 < len l) by (unfold len; apply (lt_INR 1); lia). rewrite <- VC.
      assert (NE : l <> []) by (destruct l; [simpl in S; lia|discriminate]). pose proof (ssq_nonneg l) as NN. destruct (Rleb_spec (mean l) 0) as [M|M].
      * split; auto.
      * destruct (Rleb_spec (ssq l / (len l - 1)) 0) as [V|V]; cbn [orb].
        -- split; trivial. intros _. right; right. split; trivial. destruct (Req_dec (ssq l) 0); trivial. exfalso. assert (0 < ssq l / (len l - 1)) by (apply Rdiv_lt_0_compat; lra). lra.
        -- split; [intros E; exfalso|].
           ++ match type of E with lift (ks_stat ?FF _ _) = _ => destruct (ks_fin TWO_TAILED (cdf_vals FF l)) as (z & K) end; [unfold cdf_vals; apply map_ne; now apply rsort_ne|]. unfold ks_stat in E. rewrite K in E. discriminate.
           ++ intros [E|[E|[_ E]]]; [tauto|lra|]. rewrite E in V. unfold Rdiv in V. rewrite Rmult_0_l in V. lra.
  - intros ->. each H; try discriminate H. injection H as <-. cbn [nreads nvalue]. rewrite (ppcc_pearson G Q) by trivial. rewrite <- VC. unfold varying. rewrite negb_involutive.
    destruct (Nat.ltb_spec (length l) 2) as [S|S]; cbn [orb].
    + split; trivial. intros _. apply VC. destruct l as [|x [|y l]]; [easy| |simpl in S; lia]. intros a b [<-|[]] [<-|[]]. reflexivity.
    + destruct (Reqb_spec (ssq l) 0); split; trivial; intros; try discriminate; tauto.
  - intros N. cbn [In] in N.
    assert (CE : cdf_vals F l = [] <-> l = []). { unfold cdf_vals. split; intros E; [|now subst]. destruct l as [|x l]; trivial. exfalso. revert E. apply map_ne, rsort_ne. discriminate. }
    destruct N as [N|[N|[N|[N|[N|[N|[]]]]]]]; subst name; each H; try discriminate H; pickf H; cbn [nreads nvalue]; fold F.
    1-3: destruct l as [|x l]; [split; trivial|]; split; [|discriminate]; intros E; unfold binned_stat in E; discriminate E.
    + split; [|intros ->; cbn; destruct (ga_alt A); reflexivity]. intros E. apply CE. destruct (cdf_vals F l) as [|x u] eqn:V; trivial. exfalso.
      destruct (ks_fin (ga_alt A) (x :: u)) as (z & K); [discriminate|]. unfold ks_stat in E. rewrite V, K in E. discriminate.
    + split; [|intros ->; reflexivity]. intros E. apply CE. unfold kuiper_stat in E. destruct (cdf_vals F l) as [|x u] eqn:V; trivial. exfalso. rewrite kuiper_eval in E by discriminate. discriminate E.
    + split; [|intros ->; reflexivity]. intros E. apply CE. unfold watson_gamma_stat in E. destruct (cdf_vals F l) as [|x u] eqn:V; trivial. discriminate E.
Qed.
(** not vacuous: the exponential distribution, that is shape 1 *)
Lemma C61_nonvacuous_gamma_holds : gamma_law (fun _ => exponential_cdf) (fun _ => exponential_ppf) /\ exponential_cdf (ln 2) = 1 / 2.
Proof.
  split; [exact exponential_law|]. unfold exponential_cdf. assert (0 < ln 2) by (rewrite <- ln_1; apply ln_increasing; lra).
  rewrite Rmax_right by lra. rewrite exp_Ropp, exp_ln by lra. lra.
Qed.
