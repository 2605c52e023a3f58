(** Properties C108 and C109: statistics of transformed samples equal their published definitions. *)
From Coq Require Import String.
From Coquelicot Require Import Coquelicot.
From Verif Require Import Base DecModel EdfModel EdfSpec GraphModel NormalLaw ExpModel ExpSpec NormModel GammaModel GammaSpec BetaModel BetaSpec StudentModel StudentSpec UniformModel UniformSpec WeibullModel WeibullSpec LognormModel NormMoreSpec WeibullFormSpec EdfProofs EdfRotProofs EdfIntProofs EdfPowerProofs NormReflProofs NormFiniteProofs NormRangeProofs NormBoundProofs EdfClaims GammaProofs BetaProofs StudentProofs UniformProofs GammaClaims BetaClaims StudentClaims UniformClaims WeibullProofs LognormProofs WeibullFormProofs EdfFormSpec EdfFormProofs.
From Coq Require Import Lra Lia.
Local Open Scope string_scope.
Local Open Scope R_scope.

Ltac which H := repeat destruct H as [H|H]; try contradiction; try discriminate H.
Ltac lifted E := match type of E with lift ?r = _ => let w := fresh "w" in let H := fresh "H" in destruct r as [w|] eqn:H; [|discriminate E]; cbn in E; injection E as ->; rename H into E end.
Lemma some_fin (x y : npval) : (Ok (Some x) : outcome) = Ok (Some y) -> x = y.
Proof. intros E. now injection E. Qed.
Lemma ok_nat (x y : nat) : (Ok x : result nat) = Ok y -> x = y.
Proof. intros E. now injection E. Qed.
Lemma vals_ext (F H : R -> R) l : (forall x, F x = H x) -> cdf_vals F l = cdf_vals H l.
Proof. intros E. unfold cdf_vals. apply map_ext. exact E. Qed.
Lemma cdf_sorted F l : continuous_cdf F -> cdf_vals F l = rsort (map F l).
Proof. intros (M & _). unfold cdf_vals. symmetry. now apply rsort_map_mono. Qed.
Lemma quantile_gamma G Q a b x p : gamma_law G Q -> 0 < a -> 0 < b -> 0 < p < 1 -> (x < Q a p / b <-> G a (b * x) < p).
Proof.
  intros HG Ha Hb Hp. pose proof (gl_inverse _ _ HG a p Ha Hp) as I. destruct (gl_cdf _ _ HG a Ha) as (M & _).
  assert (PQ : 0 < Q a p). { destruct (Rle_lt_dec (Q a p) 0) as [Z|Z]; trivial. rewrite (gl_zero _ _ HG) in I by trivial. lra. }
  assert (S : x < Q a p / b <-> b * x < Q a p).
  { split; intros H; [apply (Rmult_lt_compat_l b) in H; trivial; replace (b * (Q a p / b)) with (Q a p) in H by (field; lra); trivial|]. apply (Rmult_lt_reg_l b); trivial. replace (b * (Q a p / b)) with (Q a p) by (field; lra). trivial. }
  rewrite S. rewrite <- I at 2. split; intros H.
  - destruct (Rle_lt_dec (b * x) 0) as [Z|Z]; [rewrite (gl_zero _ _ HG a (b * x)), I by trivial; lra|]. apply (gl_increasing _ _ HG); trivial. lra.
  - destruct (Rlt_le_dec (b * x) (Q a p)) as [Z|Z]; trivial. apply M in Z. lra.
Qed.
Lemma binned_unit F Q lambda k l v : (0 < k)%nat -> l <> [] -> continuous_cdf F -> (forall x p, 0 < p < 1 -> (x < Q p <-> F x < p)) ->
  power_divergence lambda (map INR (histogram (map (fun i => Q (INR (S i) / INR k)) (seq 0 (k - 1))) l)) (repeat (len l / INR k) k) = Fin v ->
  v = equal_cells_divergence lambda k (map F l).
Proof. intros Hk Hne (M & H01 & _) HQ E. apply (binned_form F Q) in E; auto. rewrite E. unfold equal_cells_divergence, len. now rewrite map_length. Qed.
Lemma C108_gamma_holds : forall G Q A l name P f v, gamma_law G Q -> 0 < ga_alpha A -> 0 < ga_beta A -> (0 < ga_bins A)%nat -> l <> [] ->
  In (name, P) (gamma_published (fun x => G (ga_alpha A) (ga_beta A * x)) (fun p => Q (ga_alpha A) p / ga_beta A) (ga_bins A) (ga_power A) l) ->
  In (name, f) (gamma_statistics G Q A) -> nvalue (f l) = Ok (Some (Fin v)) -> P v.
Proof.
  intros G Q A l name P f v HG Ha Hb Hk Hne HP H E. set (F := fun x => G (ga_alpha A) (ga_beta A * x)) in *.
  assert (CF : continuous_cdf F).
  { destruct (gl_cdf _ _ HG _ Ha) as (M & B & C). split; [|split]; unfold F.
    - intros x y L. apply M. apply Rmult_le_compat_l; lra.
    - intros x. apply B.
    - intros x. apply (continuity_pt_comp (fun x => ga_beta A * x)); [reg|apply C]. }
  assert (FE : forall x, gamma_cdf G (ga_alpha A) (1 / ga_beta A) x = F x) by (intros x; unfold gamma_cdf, F; f_equal; field; lra).
  pose proof (vals_ext _ _ l FE) as VE. pose proof CF as (M & B & _).
  assert (BN : forall lambda w, (let! v0 := binned_stat (gamma_ppf Q (ga_alpha A) (1 / ga_beta A)) lambda (ga_bins A) l in Ok (Some v0)) = Ok (Some (Fin w)) -> w = equal_cells_divergence lambda (ga_bins A) (map F l)).
  { intros lambda w Ew. unfold binned_stat in Ew. rewrite match_ne in Ew by trivial. cbn [bind] in Ew. injection Ew as Ew. apply (binned_unit F (gamma_ppf Q (ga_alpha A) (1 / ga_beta A))); trivial.
    intros x p Hp. unfold gamma_ppf, F. rewrite <- (quantile_gamma G Q) by trivial. replace (Q (ga_alpha A) p * (1 / ga_beta A)) with (Q (ga_alpha A) p / ga_beta A) by (field; lra). tauto. }
  cbn [gamma_published In] in HP. which HP; injection HP as <- <-;
    cbn [gamma_statistics In] in H; which H; injection H as <-; cbn [nreads nvalue] in E; unfold is; try (now apply BN); try (lifted E).
  - injection E as E. unfold ad_stat in E. rewrite VE in E. apply (ad_form F l v Hne M) in E. apply E.
  - unfold cvm_stat in E. rewrite VE in E. apply (cvm_form F l v); auto.
  - unfold watson_gamma_stat in E. rewrite VE in E. apply (watson_form F l v); auto.
  - unfold kuiper_stat in E. rewrite VE in E. now apply kuiper_form.
  - unfold greenwood_stat in E. rewrite VE, cdf_sorted in E by trivial. destruct (existsb _ _); [discriminate|]. injection E as <-. apply greenwood_gap.
  - unfold moran_stat in E. rewrite VE, cdf_sorted in E by trivial. now apply moran_gap.
  - injection E as E. unfold mt_stat in E. rewrite VE, cdf_sorted in E by trivial. now apply mt_order.
  - unfold ppcc_gamma in E. destruct (_ <? _)%nat; [discriminate|]. cbv zeta in E. destruct (Reqb _ _); [discriminate|]. cbn [num] in E. injection E as <-. unfold correlation.
    assert (SC : ppcc_scores Q (ga_alpha A) (ga_beta A) (List.length l) = blom_quantiles (fun p => Q (ga_alpha A) p / ga_beta A) (List.length l)).
    { unfold ppcc_scores, blom_quantiles. rewrite (NormMoreProofs.map_seq_shift _ (List.length l)). apply map_ext. intros i. unfold gamma_ppf. replace 0.375 with (3 / 8) by lra. replace 0.25 with (1 / 4) by lra. field. lra. }
    rewrite SC. reflexivity.
Qed.

Lemma C108_student_holds : forall T Q A l name P f v, student_law T Q -> 0 < st_df A -> 0 < st_scale A -> (0 < st_bins A)%nat -> l <> [] ->
  In (name, P) (student_published (fun x => T (st_df A) ((x - st_loc A) / st_scale A)) (st_bins A) l) ->
  In (name, f) (student_statistics T Q A) -> nvalue (f l) = Ok (Some (Fin v)) -> P v.
Proof.
  intros T Q A l name P f v HT Hd Hs Hk Hne HP H E. set (F := fun x => T (st_df A) ((x - st_loc A) / st_scale A)) in *. set (z := fun x => (x - st_loc A) / st_scale A).
  assert (CF : continuous_cdf F).
  { destruct (sl_cdf _ _ HT _ Hd) as (M & B & C). split; [|split]; unfold F.
    - intros x y L. apply M. unfold Rdiv. apply Rmult_le_compat_r; [left; now apply Rinv_0_lt_compat|lra].
    - intros x. apply B.
    - intros x. apply (continuity_pt_comp z); [unfold z; reg; lra|apply C]. }
  pose proof CF as (M & B & _).
  cbn [student_published In] in HP. which HP; injection HP as <- <-;
    cbn [student_statistics In] in H; which H; injection H as <-; cbn [nreads nvalue] in E; unfold is; try (lifted E).
  - injection E as E. apply (ad_form F l v Hne M) in E. apply E.
  - apply (cvm_form F l v); auto.
  - apply (watson_form F l v); auto.
  - now apply kuiper_form.
  - unfold zhang_za_student in E. injection E as <-. unfold clipped_cdf. change (student_cdf T (st_df A) (st_loc A) (st_scale A)) with F. rewrite cdf_sorted by trivial.
    rewrite <- (rsort_map_mono np_clip). { apply zhang_order. } intros x y L. unfold np_clip, Rmin, Rmax. repeat destruct (Rle_dec _ _); lra.
  - unfold chi2_student in E. injection E as E. fold z in E. replace (map F l) with (map (T (st_df A)) (map z l)) by (rewrite map_map; reflexivity).
    replace (len l) with (len (map z l)) in E by (unfold len; now rewrite map_length).
    apply (binned_unit (T (st_df A)) (Q (st_df A))) in E; trivial; [now apply map_ne|now apply (sl_cdf _ _ HT)|].
    intros x p Hp. rewrite <- (sl_inverse _ _ HT (st_df A) p Hd Hp) at 2. split; intros L; [now apply (sl_increasing _ _ HT)|].
    destruct (Rlt_le_dec x (Q (st_df A) p)) as [Z|Z]; trivial. destruct (sl_cdf _ _ HT _ Hd) as (M' & _). apply M' in Z. lra.
Qed.
Lemma C108_beta_holds : forall B psi betaln A l name P f v, beta_law B betaln -> 0 < ba_alpha A -> 0 < ba_beta A -> l <> [] ->
  In (name, P) (beta_published (B (ba_alpha A) (ba_beta A)) (ba_lambda A) l) ->
  In (name, f) (beta_statistics B psi betaln A) -> nvalue (f l) = Ok (Some (Fin v)) -> P v.
Proof.
  intros B psi betaln A l name P f v HL Ha Hb Hne HP H E. set (F := B (ba_alpha A) (ba_beta A)) in *.
  pose proof (bl_cdf _ _ HL _ _ Ha Hb) as CF. fold F in CF. pose proof CF as (M & B01 & _).
  assert (V : forall g, beta_validated g l = Ok (Some (Fin v)) -> in_unit l /\ g l = Ok (Some (Fin v))).
  { intros g Eg. unfold beta_validated in Eg. destruct (existsb _ l) eqn:X; [discriminate|]. split; trivial. intros x Hx.
    assert (K : (Rltb x 0 || Rltb 1 x) = false) by (destruct (Rltb x 0 || Rltb 1 x) eqn:Y; trivial; rewrite <- X; symmetry; apply existsb_exists; eauto). apply orb_false_iff in K as [K1 K2]. apply Rltb_false in K1. apply Rltb_false in K2. lra. }
  cbn [beta_published In] in HP. which HP; injection HP as <- <-;
    cbn [beta_statistics In] in H; which H; injection H as <-; cbn [nreads nvalue] in E; apply V in E as [U E]; unfold is; try (lifted E).
  - injection E as E. apply (ad_form F l v Hne M) in E. apply E.
  - apply (cvm_form F l v); auto.
  - apply (watson_form F l v); auto.
  - now apply kuiper_form.
  - unfold chi2_beta in E. rewrite match_ne in E by trivial. cbv zeta in E. apply some_fin in E. fold F in E. set (k := Nat.sqrt_up (List.length l)) in *.
    assert (Hk : (0 < k)%nat) by (apply Nat.sqrt_up_pos; destruct l; [congruence|simpl; lia]). pose proof (len_pos l Hne) as Hl. assert (PK : 0 < INR k) by now apply lt_0_INR.
    set (e := fun i => len l * (F (INR (S i) / INR k) - F (INR i / INR k))).
    assert (EX : map (fun d => d * len l) (diff (map F (beta_edges k))) = map e (seq 0 k)).
    { unfold beta_edges. rewrite map_map. apply (nth_ext _ _ 0 0); [now rewrite !map_length, diff_length, map_length, !seq_length; lia|]. intros i Hi. rewrite map_length, diff_length, map_length, seq_length in Hi.
      rewrite (nth_indep _ _ (0 * len l)) by (rewrite map_length, diff_length, map_length, seq_length; lia). rewrite (map_nth (fun d => d * len l)). rewrite GraphLineProofs.diff_nth_gap by (rewrite map_length, seq_length; lia).
      rewrite !GraphProofs.nth_map_seq by lia. unfold e. ring. }
    pose proof (expected_total B betaln _ _ k (len l) HL Ha Hb Hk) as TW. fold F in TW. rewrite EX in TW. rewrite EX in E.
    rewrite (EdfClaims.histogram_perm _ _ _ (rsort_perm l)) in E.
    replace (map (fun i => INR (S i) / INR k) (seq 0 (k - 1))) with (map (fun i => cell_edge 0 1 k (S i)) (seq 0 (k - 1))) in E by (apply map_ext; intros i; unfold cell_edge; field; lra).
    rewrite (cells_histogram 0 1 k l Rlt_0_1 Hk U) in E. fold (cell_count 0 1 k l) in E. apply pd_cressie_read in E; trivial.
    + intros i Hi. split; [apply pos_INR|]. apply (expected_pos B betaln (ba_alpha A) (ba_beta A) k (len l)); trivial. fold F. rewrite EX. apply in_map, in_seq. lia.
    + rewrite TW. apply cell_counts_total; trivial. lra.
Qed.
Lemma interval_is_cdf a b x : a < b -> uniform_cdf a b x = interval_cdf a b x.
Proof.
  intros H. unfold uniform_cdf, interval_cdf. assert (P : 0 < b - a) by lra. set (u := (x - a) / (b - a)). assert (U : u * (b - a) = x - a) by (unfold u; field; lra).
  destruct (Rltb_spec x a) as [L|L]; [assert (u < 0) by nra; unfold Rmin, Rmax; repeat destruct (Rle_dec _ _); lra|].
  assert (0 <= u) by nra. destruct (Rltb_spec b x) as [L'|L']; [assert (1 < u) by nra; unfold Rmin, Rmax; repeat destruct (Rle_dec _ _); lra|].
  assert (u <= 1) by nra. unfold Rmin, Rmax. repeat destruct (Rle_dec _ _); lra.
Qed.
Lemma C108_uniform_holds : forall A l k name P f v, ua_a A < ua_b A -> l <> [] -> uniform_bins (ua_a A) (ua_b A) (ua_bins A) l = Ok k ->
  In (name, P) (uniform_published (ua_a A) (ua_b A) k (ua_lambda A) l) ->
  In (name, f) (uniform_statistics A) -> nvalue (f l) = Ok (Some (Fin v)) -> P v.
Proof.
  intros A l k name P f v Hab Hne HK HP H E. set (a := ua_a A) in *. set (b := ua_b A) in *. pose proof (uniform_cdf_continuous_cdf a b Hab) as CF0.
  assert (FE : forall x, uniform_cdf a b x = interval_cdf a b x) by (intros x; now apply interval_is_cdf).
  assert (CF : continuous_cdf (interval_cdf a b)).
  { destruct CF0 as (M & B & C). split; [|split]; [intros x y L; rewrite <- !FE; now apply M|intros x; rewrite <- FE; apply B|]. intros x. apply (continuity_pt_ext (uniform_cdf a b)); [exact FE|apply C]. }
  pose proof (vals_ext _ _ l FE) as VE. pose proof CF as (M & B & _).
  destruct (uniform_validate a b l) as [r|] eqn:W.
  2:{ exfalso. cbn [uniform_statistics In] in H. which H; injection H as _ <-; fold a b in E; cbn [nreads nvalue] in E; revert E;
      unfold ks_uniform, ad_uniform, cvm_uniform, chi2_uniform_rule, watson_uniform, kuiper_uniform, greenwood_uniform, br_uniform, zhang_uniform, stein_uniform, censored_stein, stein_uniform, neyman_uniform, sherman_uniform, qm_uniform; rewrite W; cbn; discriminate. }
  assert (r = l) by (unfold uniform_validate in W; destruct (existsb _ l); [discriminate|now injection W]). subst r. rename W into W0; pose proof (proj2 (proj2 (C67_uniform_refuses_exactly_outside_holds a b l)) W0) as W; clear W0.
  pose proof (vok a b l W) as OK. pose proof (std_cdf a b l Hab W) as SD. rewrite VE in SD.
  cbn [uniform_published In] in HP. which HP; injection HP as <- <-;
    cbn [uniform_statistics In] in H; which H; injection H as <-; fold a b in E; cbn [nreads nvalue] in E; unfold is; try (lifted E).
  - unfold ad_uniform in E. rewrite OK in E. cbn [bind] in E. apply some_fin in E. change (map (uniform_cdf a b) (rsort l)) with (cdf_vals (uniform_cdf a b) l) in E. rewrite VE in E. apply (ad_form (interval_cdf a b) l v Hne M) in E. apply E.
  - unfold cvm_uniform in E. rewrite OK in E. cbn [bind] in E. change (map (uniform_cdf a b) (rsort l)) with (cdf_vals (uniform_cdf a b) l) in E. rewrite VE in E. apply (cvm_form (interval_cdf a b) l v); auto.
  - rewrite kuiper_cdf in E by trivial. unfold kuiper_stat in E. rewrite VE in E. now apply kuiper_form.
  - unfold greenwood_uniform in E. rewrite OK in E. cbn [bind] in E. rewrite SD, cdf_sorted in E by trivial. injection E as <-. apply greenwood_gap.
  - unfold sherman_uniform in E. rewrite OK in E. cbn [bind] in E. injection E as <-. apply sherman_gap.
  - unfold qm_uniform in E. rewrite OK in E. cbn [bind] in E. injection E as <-. apply qm_gap.
  - unfold chi2_uniform_rule in E. rewrite OK in E. cbn [bind] in E. rewrite HK in E. cbn [bind] in E. unfold chi2_uniform in E. rewrite OK in E. cbn [bind] in E. apply some_fin in E.
    assert (Hk : (0 < k)%nat). { unfold uniform_bins in HK. destruct (match ua_bins A with Sturges => _ | _ => _ end) as [m|]; [|discriminate]. cbn [bind] in HK. apply ok_nat in HK. lia. }
    assert (PK : 0 < INR k) by now apply lt_0_INR.
    rewrite (map_ext (fun i => a + (b - a) * INR (S i) / INR k) (fun i => a + (b - a) * (INR (S i) / INR k))) in E by (intros; field; lra).
    apply (binned_form (interval_cdf a b) (fun p => a + (b - a) * p)) in E; auto.
    + rewrite E. unfold equal_cells_divergence, len. now rewrite map_length.
    + intros x p Hx Hp. rewrite <- FE. rewrite uniform_cdf_inside by (apply W; trivial). assert (Q : 0 < b - a) by lra. set (u := (x - a) / (b - a)). assert (U : u * (b - a) = x - a) by (unfold u; field; lra). split; intros; nra.
Qed.
(** Watson's statistic of the uniform class is the published one divided by n and increased by 1/4 *)
Lemma C109_watson_uniform_holds : forall A l f v, ua_a A < ua_b A -> l <> [] -> In ("WatsonUniformGofStatistic", f) (uniform_statistics A) ->
  nvalue (f l) = Ok (Some (Fin v)) -> v = watson (map (interval_cdf (ua_a A) (ua_b A)) l) / len l + 1 / 4.
Proof.
  intros A l f v Hab Hne H E. set (a := ua_a A) in *. set (b := ua_b A) in *. cbn [uniform_statistics In] in H. which H. injection H as <-. fold a b in E. cbn [nreads nvalue] in E. lifted E.
  unfold watson_uniform in E. destruct (uniform_validate a b l) as [r|] eqn:W; [|discriminate].
  assert (r = l) by (unfold uniform_validate in W; destruct (existsb _ l); [discriminate|now injection W]). subst r. rename W into W0; pose proof (proj2 (proj2 (C67_uniform_refuses_exactly_outside_holds a b l)) W0) as W; clear W0.
  cbn [bind] in E. rewrite std_cdf in E by trivial. rewrite (vals_ext _ (interval_cdf a b) l) in E by (intros; now apply interval_is_cdf).
  destruct (uniform_cdf_continuous_cdf a b Hab) as (M & B & _).
  unfold cdf_vals in E. rewrite <- (rsort_map_mono (interval_cdf a b)) in E by (intros x y L; rewrite <- !interval_is_cdf by trivial; now apply M).
  set (u := map (interval_cdf a b) l) in *. assert (Hu : u <> []) by now apply map_ne. rewrite watson_uniform_eval in E by now apply rsort_ne. injection E as <-.
  rewrite watson_integral; trivial.
  - rewrite len_sorted. unfold u, len. now rewrite map_length.
  - intros x Hx. apply in_map_iff in Hx as (y & <- & _). rewrite <- interval_is_cdf by trivial. apply B.
Qed.
Lemma C109_watson_uniform_refuted_holds : forall A, ua_a A < ua_b A -> exists l f v, In ("WatsonUniformGofStatistic", f) (uniform_statistics A) /\
  nvalue (f l) = Ok (Some (Fin v)) /\ v <> watson (map (interval_cdf (ua_a A) (ua_b A)) l).
Proof.
  intros A Hab. exists [ua_a A]. assert (I : exists f, In ("WatsonUniformGofStatistic", f) (uniform_statistics A) /\ exists v, nvalue (f [ua_a A]) = Ok (Some (Fin v))).
  { eexists. split; [cbn [uniform_statistics In]; repeat (first [left; reflexivity|right])|]. cbn [nreads nvalue]. unfold watson_uniform. rewrite vok by (intros x [<-|[]]; lra). cbn [bind]. rewrite watson_uniform_eval by (simpl; discriminate). eexists. reflexivity. }
  destruct I as (f & I & v & E). exists f, v. split; [exact I|]. split; [exact E|]. rewrite (C109_watson_uniform_holds A [ua_a A] f v Hab ltac:(discriminate) I E).
  replace (len [ua_a A]) with 1 by (unfold len; simpl; ring). lra.
Qed.
(** Zhang's Z_A *)
Lemma C108_zhang_uniform_holds : forall A l f v, ua_a A < ua_b A -> ua_zhang A = ZhangA -> In ("ZhangTestsUniformGofStatistic", f) (uniform_statistics A) ->
  nvalue (f l) = Ok (Some (Fin v)) -> v = EdfFormSpec.zhang_a (map (interval_cdf (ua_a A) (ua_b A)) l).
Proof.
  intros A l f v Hab HZ H E. set (a := ua_a A) in *. set (b := ua_b A) in *. cbn [uniform_statistics In] in H. which H. injection H as <-. fold a b in E. cbn [nreads nvalue] in E.
  unfold zhang_uniform in E. destruct (uniform_validate a b l) as [r|] eqn:W; [|discriminate].
  assert (r = l) by (unfold uniform_validate in W; destruct (existsb _ l); [discriminate|now injection W]). subst r. rename W into W0; pose proof (proj2 (proj2 (C67_uniform_refuses_exactly_outside_holds a b l)) W0) as W; clear W0.
  cbn [bind] in E. rewrite HZ, std_cdf in E by trivial. rewrite (vals_ext _ (interval_cdf a b) l) in E by (intros; now apply interval_is_cdf).
  destruct (uniform_cdf_continuous_cdf a b Hab) as (M & B & _).
  unfold cdf_vals in E. rewrite <- (rsort_map_mono (interval_cdf a b)) in E by (intros x y L; rewrite <- !interval_is_cdf by trivial; now apply M).
  destruct (forallb _ _); [|discriminate]. injection E as <-. apply zhang_order.
Qed.
Lemma C108_weibull_holds : forall minimise Gam gumbel_fit A l name P f v, valid_args A -> l <> [] ->
  In (name, P) (weibull_published (SamplerModel.generate_weibull_cdf (wa_a A) (wa_k A)) l) ->
  In (name, f) (weibull_statistics minimise Gam gumbel_fit A) -> nvalue (f l) = Ok (Some (Fin v)) -> P v.
Proof.
  intros minimise Gam gumbel_fit A l name P f v [Ha Hk] Hne HP H E. pose proof (weibull_is_cdf _ _ Ha Hk) as CF. set (F := SamplerModel.generate_weibull_cdf (wa_a A) (wa_k A)) in *.
  change (continuous_cdf F) in CF. pose proof CF as (M & B & _).
  cbn [weibull_published In] in HP. which HP; injection HP as <- <-; cbn [weibull_statistics In] in H; which H; injection H as <-; cbn [nreads nvalue] in E; unfold is; try (lifted E).
  - apply (cvm_form F l v); auto.
  - apply (watson_form F l v); auto.
  - injection E as E. unfold mt_stat in E. fold F in E. rewrite cdf_sorted in E by trivial. now apply mt_order.
Qed.
(** log-normal and exponential classes *)
Lemma C108_lognormal_holds : forall s scale alt l f v, 0 < s -> 0 < scale -> l <> [] ->
  nvalue (f l) = Ok (Some (Fin v)) -> let u := map (fun x => if Rle_dec x 0 then 0 else norm_cdf (ln (x / scale) / s)) l in
  (In ("CramerVonMiseLogNormalGofStatistic", f) (firstn 5 (lognormal_statistics s scale alt)) -> v = cramer_von_mises u) /\
  (In ("QuesenberryMillerLogNormalGofStatistic", f) (firstn 5 (lognormal_statistics s scale alt)) -> v = quesenberry_miller 0 1 u).
Proof.
  intros s scale alt l f v Hs Hc Hne E u. destruct (lognorm_cdf_cdf s scale Hs Hc) as (M & B & _).
  assert (U : u = map (lognorm_cdf s scale) l). { unfold u. apply map_ext. intros x. unfold lognorm_cdf. destruct (Rle_dec x 0) as [L|L]; [now rewrite (proj2 (Rleb_true x 0) L)|]. now rewrite (proj2 (Rleb_false x 0)) by lra. }
  split; intros H; cbn [lognormal_statistics firstn app In] in H; which H; injection H as <-; cbn [nreads nvalue] in E.
  - unfold cvm_lognorm in E. lifted E. rewrite U. apply (cvm_form (lognorm_cdf s scale) l v); auto.
  - unfold qm_lognorm, num in E. injection E as <-. rewrite U. apply qm_gap.
Qed.
Lemma C108_normal_holds : forall A l name P f v, (2 <= List.length l)%nat -> In (name, P) (normal_published l) ->
  In (name, f) (normality_statistics A) -> nvalue (f l) = Ok (Some (Fin v)) -> P v.
Proof.
  intros A l name P f v Hn HP H E. assert (Hne : l <> []) by (intros ->; simpl in Hn; lia).
  assert (NF : 0 < ssq l -> cdf_vals (fitted_normal_cdf l) l = map norm_cdf (zscores (sd1 l) (rsort l)) /\ (forall x y, x <= y -> fitted_normal_cdf l x <= fitted_normal_cdf l y)).
  { intros Sq. pose proof (sd1_pos l Hn Sq) as SP. split.
    - unfold cdf_vals, zscores. rewrite map_map. apply map_ext. intros x. unfold fitted_normal_cdf. rewrite (GraphInvProofs.mean_perm (rsort l) l) by apply rsort_perm. reflexivity.
    - intros x y L. unfold fitted_normal_cdf. apply norm_cdf_le. change (sqrt (square_sum l / (len l - 1))) with (sd1 l). unfold Rdiv. apply Rmult_le_compat_r; [left; now apply Rinv_0_lt_compat|lra]. }
  cbn [normal_published In] in HP. which HP; injection HP as <- <-; cbn [normality_statistics In] in H; which H; injection H as <-; cbn [nreads nvalue] in E; unfold is.
  - unfold ad_norm in E. rewrite match_ne in E by trivial. destruct (varying l) eqn:V; [|discriminate]. apply some_fin in E. destruct (NF (NormAffProofs.varying_true l V)) as [NF1 M]. rewrite <- NF1 in E.
    apply (ad_form (fitted_normal_cdf l) l v Hne M) in E. apply E.
  - unfold cvm_norm in E. lifted E. apply (cvm_form norm_cdf l v); trivial; [apply norm_cdf_le|intros x _; pose proof (norm_cdf_bounds x); lra].
  - unfold zwa, gt3 in E. destruct (_ <? _)%nat; [|discriminate]. cbv zeta in E. destruct (varying l) eqn:V; [|discriminate]. cbn [num] in E. injection E as <-.
    assert (PZ : phiz l = rsort (map (fitted_normal_cdf l) l)) by (unfold phiz, zscores; rewrite map_map; reflexivity). rewrite PZ, <- zhang_order. unfold zhang_za_of.
    assert (LL : len (rsort (map (fitted_normal_cdf l) l)) = len l) by (unfold len; now rewrite rsort_length, map_length). rewrite LL.
    rewrite (Rsum_imap_plus (fun i x => ln x / (len l - INR (S i) + 0.5)) (fun i x => ln (1 - x) / (INR (S i) - 0.5))). ring.
Qed.
(** *** every class named above returns a number *)
Lemma two_positive : NoDup [1; 2] /\ (2 <= List.length [1; 2])%nat /\ (forall x, In x [1; 2] -> 0 < x).
Proof. split; [|split]; [|simpl; lia|intros x [<-|[<-|[]]]; lra]. constructor; [intros [H|[]]; lra|]. constructor; [intros []|constructor]. Qed.
Lemma C108_nonvacuous_gamma_holds : forall name P, In (name, P) (gamma_published exponential_cdf exponential_ppf 2 (2 / 3) [1; 2]) ->
  exists f v, In (name, f) (gamma_statistics (fun _ => exponential_cdf) (fun _ => exponential_ppf) (GammaArgs 1 1 TWO_TAILED 2 (2 / 3))) /\ nvalue (f [1; 2]) = Ok (Some (Fin v)).
Proof.
  intros name P HP. destruct two_positive as (D & L & X).
  assert (K : forall f, In (name, f) (gamma_statistics (fun _ => exponential_cdf) (fun _ => exponential_ppf) (GammaArgs 1 1 TWO_TAILED 2 (2 / 3))) -> exists f v, In (name, f) (gamma_statistics (fun _ => exponential_cdf) (fun _ => exponential_ppf) (GammaArgs 1 1 TWO_TAILED 2 (2 / 3))) /\ nvalue (f [1; 2]) = Ok (Some (Fin v))).
  { intros f I. destruct (GammaClaims.C63_gamma_holds _ _ (GammaArgs 1 1 TWO_TAILED 2 (2 / 3)) name f [1; 2] exponential_law) as (v & E); cbn; trivial; try lra. now exists f, v. }
  cbn [gamma_published In] in HP. which HP; injection HP as <- <-; (eapply K; cbn [gamma_statistics In]; repeat (first [left; reflexivity|right])).
Qed.
Lemma C108_nonvacuous_student_holds : forall name P, In (name, P) (student_published cauchy_cdf 2 [1; 2]) ->
  exists f v, In (name, f) (student_statistics (fun _ => cauchy_cdf) (fun _ => cauchy_ppf) (StudentArgs 1 0 1 TWO_TAILED 2)) /\ nvalue (f [1; 2]) = Ok (Some (Fin v)).
Proof.
  intros name P HP.
  assert (K : forall f, In (name, f) (student_statistics (fun _ => cauchy_cdf) (fun _ => cauchy_ppf) (StudentArgs 1 0 1 TWO_TAILED 2)) -> exists f v, In (name, f) (student_statistics (fun _ => cauchy_cdf) (fun _ => cauchy_ppf) (StudentArgs 1 0 1 TWO_TAILED 2)) /\ nvalue (f [1; 2]) = Ok (Some (Fin v))).
  { intros f I. destruct (StudentClaims.C63_student_holds _ _ (StudentArgs 1 0 1 TWO_TAILED 2) name f [1; 2] cauchy_law) as (v & E); cbn; trivial; try lra; try lia; try discriminate. now exists f, v. }
  cbn [student_published In] in HP. which HP; injection HP as <- <-; (eapply K; cbn [student_statistics In]; repeat (first [left; reflexivity|right])).
Qed.
Lemma C108_nonvacuous_uniform_holds : forall name P, In (name, P) (uniform_published 0 3 2 1 [1; 2]) ->
  exists f v, In (name, f) (uniform_statistics (UniformArgs 0 3 TWO_TAILED 1 (GivenBins 2) AutoBandwidth ZhangA 4)) /\ nvalue (f [1; 2]) = Ok (Some (Fin v)).
Proof.
  intros name P HP. destruct two_positive as (D & L & X).
  assert (K : forall f, In (name, f) (uniform_statistics (UniformArgs 0 3 TWO_TAILED 1 (GivenBins 2) AutoBandwidth ZhangA 4)) -> exists f v, In (name, f) (uniform_statistics (UniformArgs 0 3 TWO_TAILED 1 (GivenBins 2) AutoBandwidth ZhangA 4)) /\ nvalue (f [1; 2]) = Ok (Some (Fin v))).
  { intros f I. destruct (UniformClaims.C63_uniform_holds (UniformArgs 0 3 TWO_TAILED 1 (GivenBins 2) AutoBandwidth ZhangA 4) name f [1; 2]) as (v & E); cbn; trivial; try lra; try discriminate. { intros x [<-|[<-|[]]]; lra. } now exists f, v. }
  cbn [uniform_published In] in HP. which HP; injection HP as <- <-; (eapply K; cbn [uniform_statistics In]; repeat (first [left; reflexivity|right])).
Qed.
Lemma C108_nonvacuous_beta_holds : forall name P, In (name, P) (beta_published unit_cdf 1 [1 / 4; 1 / 2]) ->
  exists f v, In (name, f) (beta_statistics (fun _ _ => unit_cdf) (fun x => x) (fun _ _ => 0) (BetaArgs 1 1 TWO_TAILED 1)) /\ nvalue (f [1 / 4; 1 / 2]) = Ok (Some (Fin v)).
Proof.
  intros name P HP.
  assert (K : forall f, In (name, f) (beta_statistics (fun _ _ => unit_cdf) (fun x => x) (fun _ _ => 0) (BetaArgs 1 1 TWO_TAILED 1)) -> exists f v, In (name, f) (beta_statistics (fun _ _ => unit_cdf) (fun x => x) (fun _ _ => 0) (BetaArgs 1 1 TWO_TAILED 1)) /\ nvalue (f [1 / 4; 1 / 2]) = Ok (Some (Fin v))).
  { intros f I. destruct (BetaClaims.C63_beta_holds (fun _ _ => unit_cdf) (fun x => x) (fun _ _ => 0) (BetaArgs 1 1 TWO_TAILED 1) name f [1 / 4; 1 / 2] unit_law) as (v & E); cbn; trivial; try lra; try lia.
    - constructor; [intros [H|[]]; lra|]. constructor; [intros []|constructor].
    - intros x [<-|[<-|[]]]; lra.
    - now exists f, v. }
  cbn [beta_published In] in HP. which HP; injection HP as <- <-; (eapply K; cbn [beta_statistics In]; repeat (first [left; reflexivity|right])).
Qed.
