(** Properties C47, C48, C50, C53, C54, C61, C63-C65, C67, C87 and C94-C96 for the uniform statistics. *)
From Coq Require Import String.
From Coquelicot Require Import Coquelicot.
From Verif Require Import Base DecModel EdfModel EdfSpec GraphModel RegistryModel NormalLaw ExpModel ExpSpec NormModel NormSpec BetaSpec UniformModel UniformSpec EdfProofs EdfRotProofs EdfPowerProofs ExpProofs ExpRangeProofs NormProofs NormAffProofs NormSymProofs NormReflProofs NormRangeProofs NormFiniteProofs EdfClaims ExpClaims StudentProofs BetaProofs LegendreProofs UniformProofs UniformStatProofs UniformKmProofs UniformMomentProofs.
From Coq Require Import Lra Lia.
Local Open Scope string_scope.
Local Open Scope R_scope.

Ltac each H := cbn [uniform_statistics In] in H; repeat destruct H as [H|H]; [..|contradiction].
Ltac pickf H := first [injection H as <- <- | injection H as <-].
Ltac inlist := cbn [uniform_statistics In]; repeat (first [left; reflexivity|right]).
(** the table contains every uniform class of the registry *)
Lemma C54_uniform_complete_holds : forall A c, In c stat_classes -> sc_dist c = UNIFORM ->
  In (sc_name c) (map fst (uniform_statistics A)).
Proof.
  intros A c Hc Hd. assert (K : forallb (fun c => match sc_dist c with UNIFORM => existsb (String.eqb (sc_name c))
    (map fst (uniform_statistics (UniformArgs 0 1 LEFT 0 Sturges AutoBandwidth ZhangA 0))) | _ => true end) stat_classes = true) by (vm_compute; reflexivity).
  rewrite forallb_forall in K. specialize (K c Hc). rewrite Hd in K. apply existsb_exists in K. destruct K as (x & Hx & E).
  apply String.eqb_eq in E. rewrite E. exact Hx.
Qed.
(** *** C67 *)
(** every class refuses observations outside [a, b], whatever the rest of the sample *)
Lemma C67_uniform_table_refuses_outside_holds : forall A name f l, In (name, f) (uniform_statistics A) ->
  (exists x, In x l /\ (x < ua_a A \/ ua_b A < x)) -> nvalue (f l) = Raise ValueError.
Proof.
  intros A name f l H (x & Hx & Ho). assert (N : ~ within (ua_a A) (ua_b A) l) by (intros U; specialize (U x Hx); lra). pose proof (vraise _ _ _ N) as V.
  each H; pickf H; cbn [nreads nvalue]; unfold ks_uniform, ad_uniform, cvm_uniform, chi2_uniform_rule, watson_uniform, kuiper_uniform, greenwood_uniform, br_uniform, zhang_uniform, stein_uniform, censored_stein, neyman_uniform, sherman_uniform, qm_uniform; now rewrite V.
Qed.
(** the Zhang class accepts exactly the letters A, C and K *)
Lemma C67_uniform_zhang_constructor_holds : forall t,
  (zhang_ctor t = Ok ZhangA <-> t = "A" \/ t = "a") /\ (zhang_ctor t = Ok ZhangC <-> t = "C" \/ t = "c") /\
  (zhang_ctor t = Ok ZhangK <-> t = "K" \/ t = "k") /\
  (zhang_ctor t = Raise ValueError <-> ~ In t ["A"; "a"; "C"; "c"; "K"; "k"]).
Proof.
  intros t. unfold zhang_ctor. cbn [existsb]. rewrite !orb_false_r.
  destruct (String.eqb_spec t "A") as [->|NA]; [cbn; intuition congruence|]. destruct (String.eqb_spec t "a") as [->|Na]; [cbn; intuition congruence|].
  destruct (String.eqb_spec t "C") as [->|NC]; [cbn; intuition congruence|]. destruct (String.eqb_spec t "c") as [->|Nc]; [cbn; intuition congruence|].
  destruct (String.eqb_spec t "K") as [->|NK]; [cbn; intuition congruence|]. destruct (String.eqb_spec t "k") as [->|Nk]; [cbn; intuition congruence|].
  cbn. intuition congruence.
Qed.
(** *** C47, C48, C50, C53 *)
Lemma C47_uniform_holds : forall A l, ua_a A < ua_b A -> ua_alt A = TWO_TAILED -> l <> [] -> within (ua_a A) (ua_b A) l ->
  exists f g d, In ("KolmogorovSmirnovUniformGofStatistic", f) (uniform_statistics A) /\
     In ("LillieforsTestUniformGofStatistic", g) (uniform_statistics A) /\
     nvalue (f l) = Ok (Some (Fin d)) /\ nvalue (g l) = Ok (Some (Fin d)) /\
     supremum (fun x => Rabs (edf l x - uniform_cdf (ua_a A) (ua_b A) x)) d.
Proof.
  intros A l Hab Ht Hne W. destruct (proj1 (C47_ks_is_sup_distance_holds _ l (uniform_cdf_continuous_cdf _ _ Hab) Hne)) as (d & E & S).
  eexists; eexists; exists d. split; [left; reflexivity|]. split; [inlist|]. cbn [nreads nvalue]. unfold ks_uniform. rewrite vok by trivial. cbn [bind].
  unfold ks_stat, cdf_vals in E. rewrite Ht, E. auto.
Qed.
Lemma std_cdf a b l : a < b -> within a b l -> uniform_std a b (rsort l) = cdf_vals (uniform_cdf a b) l.
Proof. intros H W. unfold cdf_vals. symmetry. apply map_ext_in. intros x Hx. apply uniform_cdf_inside, W, rsort_in, Hx. Qed.
Lemma kuiper_cdf a b l : a < b -> within a b l -> kuiper_uniform a b l = kuiper_stat (uniform_cdf a b) l.
Proof.
  intros H W. unfold kuiper_uniform, kuiper_stat. rewrite vok by trivial. cbn [bind]. rewrite <- std_cdf by trivial.
  destruct (negb (Reqb a 0) || negb (Reqb b 1)) eqn:E; trivial. apply not_unit in E as [-> ->]. now rewrite uniform_std_01.
Qed.
(** Watson's statistic of this class is U^2/n + 1/4, see C52 *)
Lemma C48_uniform_holds : forall A name f l v, ua_a A < ua_b A -> ua_alt A = TWO_TAILED -> l <> [] ->
  In (name, f) (uniform_statistics A) -> nvalue (f l) = Ok (Some (Fin v)) ->
  (In name ["KolmogorovSmirnovUniformGofStatistic"; "LillieforsTestUniformGofStatistic"] -> 1 / (2 * len l) <= v <= 1) /\
  (name = "CrammerVonMisesUniformGofStatistic" -> 1 / (12 * len l) <= v <= len l / 3) /\
  (name = "WatsonUniformGofStatistic" -> 1 / (12 * len l ^ 2) + 1 / 4 <= v <= 1 / 3 + 1 / 4) /\
  (name = "KuiperUniformGofStatistic" -> 1 / len l <= v <= 1).
Proof.
  intros A name f l v Hab Ha Hne H Hv. set (a := ua_a A) in *. set (b := ua_b A) in *. set (F := uniform_cdf a b).
  destruct (within_dec a b l) as [W|W].
  2:{ exfalso. assert (X : nvalue (f l) = Raise ValueError); [|congruence]. pose proof (vraise _ _ _ W) as V.
      each H; pickf H; cbn [nreads nvalue]; unfold ks_uniform, ad_uniform, cvm_uniform, chi2_uniform_rule, watson_uniform, kuiper_uniform, greenwood_uniform, br_uniform, zhang_uniform, stein_uniform, censored_stein, neyman_uniform, sherman_uniform, qm_uniform; fold a b; now rewrite V. }
  destruct (uniform_cdf_continuous_cdf a b Hab) as (M & Bd & _). fold F in M, Bd.
  pose proof (C48_ranges_holds F l M Bd Hne) as K. cbv zeta in K. fold (len l) in K.
  destruct K as ((d & Kd & Rd) & (w & Kw & Rw) & (k & Kk & Rk) & (u & Ku & Ru) & _).
  destruct (C52_uniform_watson_value_holds a b l Hab Hne W) as (u' & Eu & Ew). fold F in Eu. assert (u' = u) by congruence. subst u'. fold (len l) in Ew.
  pose proof (len_pos l Hne) as Hl. assert (I : forall x, Ok (Some (Fin x)) = Ok (Some (Fin v)) -> x = v) by (intros x Hx; congruence).
  assert (Uks : ks_uniform a b TWO_TAILED l = Ok d) by (unfold ks_uniform; rewrite vok by trivial; exact Kd).
  assert (Ucvm : cvm_uniform a b l = Ok w) by (unfold cvm_uniform; rewrite vok by trivial; exact Kw).
  assert (Ukp : kuiper_uniform a b l = Ok k) by (rewrite kuiper_cdf by trivial; exact Kk).
  split; [|split; [|split]]; intros N; cbn [In] in N; try (destruct N as [N|[N|[]]]); subst name; each H; try discriminate H; pickf H; cbn [nreads nvalue] in Hv; fold a b in Hv;
    rewrite ?Ha, ?Uks, ?Ucvm, ?Ukp, ?Ew in Hv; apply I in Hv; subst v; trivial.
  destruct Ru as [R1 R2]. split.
  - assert (1 / (12 * len l ^ 2) <= u / len l); [|lra]. replace (1 / (12 * len l ^ 2)) with (1 / (12 * len l) / len l) by (field; lra). apply Rmult_le_compat_r; [left; now apply Rinv_0_lt_compat|trivial].
  - assert (u / len l <= 1 / 3); [|lra]. replace (1 / 3) with (len l / 3 / len l) by (field; lra). apply Rmult_le_compat_r; [left; now apply Rinv_0_lt_compat|trivial].
Qed.
(** Anderson-Darling is infinite exactly when an observation is at an end of the interval *)
Lemma C50_uniform_holds : forall A l f, ua_a A < ua_b A -> l <> [] -> within (ua_a A) (ua_b A) l ->
  In ("AndersonDarlingUniformGofStatistic", f) (uniform_statistics A) ->
  (strictly_within (ua_a A) (ua_b A) l -> exists v, nvalue (f l) = Ok (Some (Fin v)) /\ 0 <= v) /\
  (nvalue (f l) = Ok (Some NonFinite) <-> exists x, In x l /\ (x = ua_a A \/ x = ua_b A)).
Proof.
  intros A l f Hab Hne W H. set (a := ua_a A) in *. set (b := ua_b A) in *. each H; try discriminate H. injection H as <-. cbn [nreads nvalue]. fold a b.
  assert (E0 : ad_uniform a b l = Ok (ad_stat (uniform_cdf a b) l)) by (unfold ad_uniform; now rewrite vok). rewrite E0. cbn [bind]. set (F := uniform_cdf a b).
  assert (IN : forall x, a < x < b -> 0 < F x < 1).
  { intros x Hx. unfold F. rewrite uniform_cdf_inside by lra. split; [apply Rdiv_lt_0_compat; lra|apply Rlt_div_l; lra]. }
  split.
  - intros P. destruct (C50_ad_nonnegative_holds F l Hne) as (v & E & V); [intros x Hx; auto|]. exists v. now rewrite E.
  - split.
    + intros E. assert (E' : ad_stat F l = NonFinite) by congruence. apply C50_finite_iff_inside_holds in E' as (x & Hx & Hc). exists x. split; trivial.
      specialize (W x Hx). destruct (Req_dec x a) as [|N0]; [now left|]. destruct (Req_dec x b) as [|N1]; [now right|]. pose proof (IN x ltac:(lra)) as P. lra.
    + intros (x & Hx & L). do 2 f_equal. apply C50_finite_iff_inside_holds. exists x. split; trivial.
      unfold F. rewrite uniform_cdf_inside by auto. destruct L as [->| ->]; [left|right]; right; field; lra.
Qed.
Lemma C53_uniform_holds : forall A l f v, ua_a A < ua_b A ->
  In ("Chi2PearsonUniformGofStatistic", f) (uniform_statistics A) -> l <> [] -> nvalue (f l) = Ok (Some (Fin v)) -> 0 <= v.
Proof.
  intros A l f v Hab H Hne Hv. each H; try discriminate H. injection H as <-. cbn [nreads nvalue] in Hv. unfold chi2_uniform_rule in Hv.
  destruct (within_dec (ua_a A) (ua_b A) l) as [W|W]; [rewrite vok in Hv by trivial|rewrite vraise in Hv by trivial; discriminate]. cbn [bind] in Hv.
  destruct (uniform_bins _ _ _ _) as [k|] eqn:E; [|discriminate]. cbn [bind] in Hv. apply bins_two in E.
  destruct (chi2_uniform _ _ _ k l) as [w|] eqn:X; [|discriminate]. cbn [bind] in Hv. assert (w = Fin v) by congruence. subst w.
  exact (C53_uniform_chi2_nonnegative_holds _ _ _ _ _ _ E Hne X).
Qed.
(** the number of bins: Sturges' rule, the square root rule, 10 for other names, the given number, but never less than 2 *)
Lemma C53_uniform_bins_holds : forall a b l, l <> [] ->
  uniform_bins a b Sturges l = Ok (Nat.max 2 (Nat.log2_up (length l) + 1)) /\
  uniform_bins a b SqrtRule l = Ok (Nat.max 2 (Nat.sqrt_up (length l))) /\
  uniform_bins a b OtherRule l = Ok 10%nat /\ (forall n, uniform_bins a b (GivenBins n) l = Ok (Nat.max 2 n)).
Proof.
  intros a b l Hl. unfold uniform_bins. cbn [bind]. split; [|repeat split]. rewrite match_ne by trivial. unfold len. rewrite sturges_value by (destruct l; [easy|simpl; lia]).
  rewrite Znat.Nat2Z.id. reflexivity.
Qed.
(** the "auto" rule: the smallest number of bins that are not wider than 3.5 s / n^(1/3) *)
Lemma C53_uniform_auto_bins_holds : forall a b l, a < b -> NoDup l -> (2 <= length l)%nat -> let w := 3.5 * sqrt (np_var l) / Rpower (len l) (1 / 3) in
  exists k, (1 <= k)%nat /\ uniform_bins a b AutoRule l = Ok (Nat.max 2 k) /\ (b - a) / INR k <= w /\ (forall j, (1 <= j < k)%nat -> w < (b - a) / INR j).
Proof.
  intros a b l Hab Hd Hn w. pose proof (nodup_varying l Hd Hn) as V. assert (NE : l <> []) by (destruct l; [simpl in Hn; lia|discriminate]).
  assert (Hw : 0 < w). { unfold w. apply Rdiv_lt_0_compat; [|apply exp_pos]. apply Rmult_lt_0_compat; [lra|]. apply sqrt_lt_R0. unfold np_var. apply Rdiv_lt_0_compat; [now apply varying_true|rewrite len_map; now apply len_pos]. }
  set (q := (b - a) / w). assert (Hq : 0 < q) by (apply Rdiv_lt_0_compat; lra). set (z := ceil q).
  assert (Z : IZR z - 1 < q <= IZR z). { unfold z, ceil. rewrite opp_IZR. pose proof (base_Int_part (- q)). lra. }
  assert (Zp : (0 < z)%Z) by (apply lt_IZR; simpl; lra). exists (Z.to_nat z). assert (KN : INR (Z.to_nat z) = IZR z) by (rewrite INR_IZR_INZ, Znat.Z2Nat.id by lia; reflexivity).
  split; [lia|]. split; [|split].
  - unfold uniform_bins. rewrite match_ne, V by trivial. reflexivity.
  - rewrite KN. assert (0 < IZR z) by now apply IZR_lt. apply Rle_div_l; [lra|]. destruct Z as [_ Z]. unfold q in Z. apply Rle_div_l in Z; [|lra]. lra.
  - intros j Hj. assert (J : INR j <= IZR z - 1). { rewrite <- KN. replace (INR (Z.to_nat z) - 1) with (INR (Z.to_nat z - 1)) by (rewrite minus_INR by lia; reflexivity). apply le_INR. lia. }
    assert (0 < INR j) by (apply lt_0_INR; lia). apply (proj1 (Rlt_div_r w (b - a) (INR j) H)). assert (Q : INR j < q) by lra. unfold q in Q. clearbody w. clear - Q Hw. apply (proj2 (Rlt_div_r _ _ _ Hw)) in Q. rewrite Rmult_comm. exact Q.
Qed.
(** *** C54, C64 *)
Lemma C54_uniform_holds : forall A name f l l', In (name, f) (uniform_statistics A) -> Permutation l l' ->
  nvalue (f l) = nvalue (f l').
Proof.
  intros A name f l l' H P. pose proof (C54_order_irrelevant_uniform_holds (ua_a A) (ua_b A) (ua_alt A) (ua_lambda A)) as K.
  destruct (C54_order_irrelevant_uniform_holds (ua_a A) (ua_b A) TWO_TAILED 0 0 l l' P) as (K1 & K2 & K3 & _ & K5 & K6 & K7 & K8 & K9).
  destruct (K 0%nat l l' P) as (K0 & _). assert (E : rsort l = rsort l') by now apply rsort_perm_eq. assert (L : len l = len l') by now apply len_perm.
  pose proof (within_perm_iff (ua_a A) (ua_b A) l l' P) as WI.
  assert (ST : stein_uniform (ua_a A) (ua_b A) l = stein_uniform (ua_a A) (ua_b A) l').
  { unfold stein_uniform. apply validated_ext; trivial. intros _. now rewrite (stein_of_perm _ _ (stein_std_perm _ _ _ _ P)). }
  each H; pickf H; cbn [nreads nvalue]; rewrite ?K0, ?K1, ?K2, ?K3, ?K5, ?K6, ?K7, ?K8, ?K9; try reflexivity; trivial.
  - unfold chi2_uniform_rule. destruct (within_dec (ua_a A) (ua_b A) l) as [W|W].
    + rewrite (vok _ _ l), (vok _ _ l') by (trivial; now apply WI). cbn [bind]. rewrite (bins_perm _ _ _ _ _ P). destruct (uniform_bins _ _ _ l') as [k|]; trivial. cbn [bind].
      destruct (K k l l' P) as (_ & _ & _ & Kc & _). now rewrite Kc.
    + rewrite (vraise _ _ l), (vraise _ _ l'); trivial. now rewrite <- WI.
  - unfold br_uniform. destruct (within_dec (ua_a A) (ua_b A) l) as [W|W].
    + rewrite (vok _ _ l), (vok _ _ l') by (trivial; now apply WI). cbn [bind]. cbv zeta. pose proof (std_perm (ua_a A) (ua_b A) _ _ P) as Q.
      rewrite (br_auto_perm _ _ Q), (br_value_perm _ _ _ Q). pose proof (Permutation_length P). destruct l, l'; try discriminate; destruct (ua_bandwidth A); trivial. now rewrite (br_value_perm _ _ _ Q).
    + rewrite (vraise _ _ l), (vraise _ _ l'); trivial. now rewrite <- WI.
  - unfold zhang_uniform. apply validated_ext; trivial. intros _. now rewrite E.
  - unfold censored_stein. destruct (within_dec (ua_a A) (ua_b A) l) as [W|W].
    + rewrite (vok _ _ l), (vok _ _ l') by (trivial; now apply WI). cbn [bind]. exact ST.
    + rewrite (vraise _ _ l), (vraise _ _ l'); trivial. now rewrite <- WI.
  - unfold neyman_uniform. apply validated_ext; trivial. intros _. rewrite (neyman_of_perm _ _ _ (std_perm _ _ _ _ P)). unfold nonempty. now rewrite (Permutation_length P).
Qed.
Lemma C64_uniform_holds : forall A name f l, In (name, f) (uniform_statistics A) -> nsample_after (f l) = l.
Proof. intros A name f l H. each H; pickf H; reflexivity. Qed.
(** *** C61 *)
(** testing the stretched sample against [a, b] is testing the sample against [0, 1] *)
Lemma C61_uniform_table_holds : forall a b alt lambda bins bandwidth zhang k name f l, a < b ->
  In (name, f) (uniform_statistics (UniformArgs a b alt lambda bins bandwidth zhang k)) ->
  ~ In name ["ShermanUniformGofStatistic"; "QuesenberryMillerUniformGofStatistic"] ->
  exists g, In (name, g) (uniform_statistics (UniformArgs 0 1 alt lambda bins bandwidth zhang k)) /\ nvalue (f (stretched a b l)) = nvalue (g l).
Proof.
  intros a b alt lambda bins bandwidth zhang k name f l Hab H Hn.
  destruct (C61_uniform_statistics_use_parameters_holds a b alt l Hab) as (K1 & K2 & K3). destruct (C61_uniform_statistics_use_parameters_holds a b TWO_TAILED l Hab) as (K4 & _).
  destruct (C61_uniform_watson_kuiper_greenwood_use_parameters_holds a b l Hab) as (K5 & K6 & K7).
  each H; pickf H; try (exfalso; apply Hn; cbn [In]; tauto); (eexists; split; [inlist|]); cbn [nreads nvalue ua_a ua_b ua_alt ua_lambda ua_bins ua_bandwidth ua_zhang ua_k];
    unfold stretched at 1; rewrite ?K1, ?K2, ?K3, ?K4, ?K5, ?K6, ?K7; try reflexivity; fold (stretched a b l).
  - now apply chi2_rule_stretched.
  - now apply br_stretched.
  - now apply zhang_stretched.
  - now apply stein_stretched.
  - now apply censored_stretched.
  - now apply neyman_stretched.
Qed.
(** the Lilliefors class estimates nothing: it is the two-sided Kolmogorov-Smirnov test of the given interval *)
Lemma C61_uniform_lilliefors_holds : forall a b alt lambda bins bandwidth zhang k l, exists f g,
  In ("LillieforsTestUniformGofStatistic", f) (uniform_statistics (UniformArgs a b alt lambda bins bandwidth zhang k)) /\
  In ("KolmogorovSmirnovUniformGofStatistic", g) (uniform_statistics (UniformArgs a b TWO_TAILED lambda bins bandwidth zhang k)) /\
  nvalue (f l) = nvalue (g l).
Proof. intros. eexists; eexists. split; [inlist|]. split; [left; reflexivity|]. reflexivity. Qed.
(** *** C63 *)
Lemma nodup_std a b l : a < b -> NoDup l -> NoDup (uniform_std a b l).
Proof.
  intros H N. unfold uniform_std. apply FinFun.Injective_map_NoDup; trivial. intros x y E. assert (F : (x - a) / (b - a) * (b - a) = (y - a) / (b - a) * (b - a)) by now rewrite E. field_simplify in F; lra.
Qed.
(** every class returns a finite number on two or more different observations inside the interval *)
Lemma C63_uniform_holds : forall A name f l, ua_a A < ua_b A -> 0 <= ua_lambda A -> ua_bandwidth A <> GivenBandwidth 0 ->
  In (name, f) (uniform_statistics A) -> NoDup l -> (2 <= length l)%nat -> strictly_within (ua_a A) (ua_b A) l ->
  exists v, nvalue (f l) = Ok (Some (Fin v)).
Proof.
  intros A name f l Hab Hp Hw H Hd Hn Hx. assert (NE : l <> []) by (destruct l; [simpl in Hn; lia|discriminate]). set (a := ua_a A) in *. set (b := ua_b A) in *.
  assert (W : within a b l) by (intros x Hl; specialize (Hx x Hl); lra). pose proof (vok a b l W) as V. pose proof (len_pos l NE) as Hl.
  assert (CN : cdf_vals (uniform_cdf a b) l <> []) by (unfold cdf_vals; apply map_ne; now apply rsort_ne).
  assert (IN : forall x, In x l -> 0 < (x - a) / (b - a) < 1) by (intros x Hxl; specialize (Hx x Hxl); split; [apply Rdiv_lt_0_compat; lra|apply Rlt_div_l; lra]).
  destruct (uniform_cdf_continuous_cdf a b Hab) as (M & Bd & _). pose proof (nodup_varying l Hd Hn) as Vy.
  each H; pickf H; cbn [nreads nvalue]; fold a b.
  - unfold ks_uniform. rewrite V. cbn [bind]. apply ks_fin, CN.
  - unfold ad_uniform. rewrite V. cbn [bind]. destruct (C50_ad_nonnegative_holds (uniform_cdf a b) l NE) as (v & E & _); [|exists v; unfold ad_stat, cdf_vals in E; now rewrite E].
    intros x Hx'. rewrite uniform_cdf_inside by auto. auto.
  - unfold cvm_uniform. rewrite V. cbn [bind]. apply cvm_fin, CN.
  - unfold ks_uniform. rewrite V. cbn [bind]. apply ks_fin, CN.
  - unfold chi2_uniform_rule. rewrite V. cbn [bind]. assert (B : exists k, uniform_bins a b (ua_bins A) l = Ok k).
    { unfold uniform_bins. destruct (ua_bins A); cbn [bind]; rewrite ?match_ne by trivial; try (eexists; reflexivity). rewrite Vy. eexists. reflexivity. }
    destruct B as (k & E). rewrite E. cbn [bind]. apply bins_two in E. rewrite chi2_unit by trivial. cbn [bind].
    destruct (pd_defined (ua_lambda A) (map INR (histogram (inner_edges k) (uniform_std a b l))) (repeat (len l / INR k) k)) as (s & Es); [|now left|exists s; now rewrite Es].
    intros e He. apply repeat_spec in He. subst e. apply Rdiv_lt_0_compat; trivial. apply lt_0_INR. lia.
  - destruct (C52_uniform_watson_value_holds a b l Hab NE W) as (u & _ & E). rewrite E. eexists. reflexivity.
  - rewrite kuiper_cdf by trivial. destruct (C48_ranges_holds (uniform_cdf a b) l M Bd NE) as (_ & _ & (u & E & _) & _). exists u. now rewrite E.
  - unfold greenwood_uniform. rewrite V. eexists. reflexivity.
  - unfold br_uniform. rewrite V. cbn [bind]. cbv zeta. assert (NV : varying (uniform_std a b l) = true).
    { apply nodup_varying; [now apply nodup_std|]. unfold uniform_std. now rewrite map_length. }
    destruct l as [|x0 l0]; [easy|]. destruct (ua_bandwidth A) as [|h].
    + apply num_fin. rewrite negb_true_iff. apply Reqb_false. unfold br_auto.
      assert (0 < sqrt (np_var (uniform_std a b (x0 :: l0)))). { apply sqrt_lt_R0. unfold np_var. apply Rdiv_lt_0_compat; [now apply varying_true|rewrite len_map; now apply len_pos]. }
      assert (0 < Rpower (len (uniform_std a b (x0 :: l0))) (- (1 / 5))) by apply exp_pos. apply Rgt_not_eq. apply Rmult_lt_0_compat; trivial. apply Rmult_lt_0_compat; lra.
    + apply num_fin. rewrite negb_true_iff. apply Reqb_false. intros ->. now apply Hw.
  - unfold zhang_uniform. rewrite V. cbn [bind]. apply num_fin. apply forallb_forall. intros x Hx'. apply in_map_iff in Hx' as (y & <- & Hy). apply (proj1 (rsort_in _ _)) in Hy.
    rewrite andb_true_iff, !Rltb_true. auto.
  - unfold stein_uniform. rewrite V. cbn [bind]. now apply num_fin.
  - unfold censored_stein. rewrite V. cbn [bind]. cbv zeta. unfold stein_uniform. rewrite V. cbn [bind]. now apply num_fin.
  - unfold neyman_uniform. rewrite V. cbn [bind]. apply num_fin. destruct l; [easy|reflexivity].
  - unfold sherman_uniform. rewrite V. eexists. reflexivity.
  - unfold qm_uniform. rewrite V. eexists. reflexivity.
Qed.
(** equal observations inside the interval: the "auto" rules of the chi-square and Bickel-Rosenblatt classes fail *)
Lemma C63_uniform_auto_refuted_holds : forall A x n, ua_a A < x < ua_b A ->
  (forall f, ua_bins A = AutoRule -> In ("Chi2PearsonUniformGofStatistic", f) (uniform_statistics A) -> nvalue (f (repeat x (S n))) = Raise OverflowError) /\
  (forall f, ua_bandwidth A = AutoBandwidth -> In ("BickelRosenblattUniformGofStatistic", f) (uniform_statistics A) -> nvalue (f (repeat x (S n))) = Ok (Some NonFinite)).
Proof.
  intros A x n Hx. set (l := repeat x (S n)). assert (W : within (ua_a A) (ua_b A) l) by (intros y Hy; apply repeat_spec in Hy; subst y; lra).
  assert (Q : forall y m, ssq (repeat y (S m)) = 0).
  { intros y m. unfold ssq. assert (E : mean (repeat y (S m)) = y). { unfold mean, len. rewrite repeat_length. assert (R : Rsum (repeat y (S m)) = INR (S m) * y). { induction m as [|m IH]; [cbn; ring|]. rewrite S_INR. change (repeat y (S (S m))) with (y :: repeat y (S m)). cbn [Rsum]. rewrite IH. ring. } rewrite R. field. apply not_0_INR. lia. }
    rewrite E. rewrite (Rsum_map_ext _ (fun _ => 0)); [rewrite Rsum_map_const; ring|]. intros z Hz. apply repeat_spec in Hz. subst z. ring. }
  split; intros f Hf H; each H; try discriminate H; pickf H; cbn [nreads nvalue].
  - unfold chi2_uniform_rule. rewrite vok by trivial. cbn [bind]. unfold uniform_bins. rewrite Hf. unfold l at 1. cbn [repeat]. unfold varying. unfold l. rewrite Q, (proj2 (Reqb_true 0 0)) by reflexivity. reflexivity.
  - unfold br_uniform. rewrite vok by trivial. cbn [bind]. rewrite Hf. unfold l at 1. cbn [repeat]. cbv zeta.
    assert (Z : br_auto (uniform_std (ua_a A) (ua_b A) l) = 0).
    { unfold br_auto. assert (E : uniform_std (ua_a A) (ua_b A) l = repeat ((x - ua_a A) / (ua_b A - ua_a A)) (S n)).
      { unfold l, uniform_std. clear. generalize (S n) as m. induction m as [|m IH]; trivial. cbn [repeat map]. now rewrite IH. }
      assert (N : np_var (uniform_std (ua_a A) (ua_b A) l) = 0). { rewrite E. unfold np_var, mean at 1. fold (ssq (repeat ((x - ua_a A) / (ua_b A - ua_a A)) (S n))). rewrite Q. unfold Rdiv. ring. }
      rewrite N, sqrt_0. ring. }
    rewrite Z, (proj2 (Reqb_true 0 0)) by reflexivity. reflexivity.
Qed.
(** *** C87 *)
(** the sample reflected at the middle of the interval has the same value; one-sided alternatives are exchanged.  The bins
    of the chi-square class are half open, so no observation may be one of their edges *)
Lemma C87_uniform_mirror_holds : forall a b alt lambda bins bandwidth zhang k name f l, a < b ->
  (forall m x i, uniform_bins a b bins l = Ok m -> In x l -> (1 <= i < m)%nat -> x <> a + (b - a) * (INR i / INR m)) ->
  In (name, f) (uniform_statistics (UniformArgs a b alt lambda bins bandwidth zhang k)) ->
  exists g, In (name, g) (uniform_statistics (UniformArgs a b (opposite alt) lambda bins bandwidth zhang k)) /\ nvalue (g (reflected a b l)) = nvalue (f l).
Proof.
  intros a b alt lambda bins bandwidth zhang k name f l Hab Ho H. assert (Hop : swap (opposite alt) = alt) by now destruct alt.
  rewrite <- (stretched_std a b l Hab) in Ho. rewrite <- (stretched_std a b l Hab). set (z := uniform_std a b l) in *. clearbody z. clear l. rewrite reflected_stretched.
  assert (S1 : forall alt' n0 g1, In (n0, g1) (uniform_statistics (UniformArgs a b alt' lambda bins bandwidth zhang k)) -> ~ In n0 ["ShermanUniformGofStatistic"; "QuesenberryMillerUniformGofStatistic"] ->
    forall w, exists g0, In (n0, g0) (uniform_statistics (UniformArgs 0 1 alt' lambda bins bandwidth zhang k)) /\ nvalue (g1 (stretched a b w)) = nvalue (g0 w)) by (intros; eapply C61_uniform_table_holds; eauto).
  pose proof (mirror_within z) as MW. pose proof (rsort_mirror z) as RM.
  assert (KS : forall al, ks_uniform 0 1 al (mirror z) = ks_uniform 0 1 (swap al) z).
  { intros al. unfold ks_uniform. destruct (within_dec 0 1 z) as [W|W].
    - rewrite (vok 0 1 z W), (vok 0 1 (mirror z)) by now apply MW. cbn [bind]. rewrite !cdf_unit by (trivial; now apply MW). now rewrite RM, ks_flip.
    - rewrite (vraise 0 1 z W), (vraise 0 1 (mirror z)) by now rewrite MW. reflexivity. }
  assert (VV : forall (X : Type) (g h : list R -> result X), (within 0 1 z -> g (mirror z) = h z) -> (let! l := uniform_validate 0 1 (mirror z) in g l) = (let! l := uniform_validate 0 1 z in h l)).
  { intros X g h Hg. destruct (within_dec 0 1 z) as [W|W].
    - rewrite (vok 0 1 z W), (vok 0 1 (mirror z)) by now apply MW. cbn [bind]. now apply Hg.
    - rewrite (vraise 0 1 z W), (vraise 0 1 (mirror z)) by now rewrite MW. reflexivity. }
  assert (E01 : negb (Reqb 0 0) || negb (Reqb 1 1) = false) by (rewrite !(proj2 (Reqb_true _ _)) by reflexivity; reflexivity).
  destruct (C61_uniform_statistics_use_parameters_holds a b alt z Hab) as (P1 & P2 & P3). destruct (C61_uniform_statistics_use_parameters_holds a b TWO_TAILED z Hab) as (P4 & _).
  destruct (C61_uniform_watson_kuiper_greenwood_use_parameters_holds a b z Hab) as (P5 & P6 & P7).
  destruct (C61_uniform_statistics_use_parameters_holds a b (opposite alt) (mirror z) Hab) as (Q1 & Q2 & Q3). destruct (C61_uniform_statistics_use_parameters_holds a b TWO_TAILED (mirror z) Hab) as (Q4 & _).
  destruct (C61_uniform_watson_kuiper_greenwood_use_parameters_holds a b (mirror z) Hab) as (Q5 & Q6 & Q7).
  each H; pickf H; (eexists; split; [inlist|]); cbn [nreads nvalue ua_a ua_b ua_alt ua_lambda ua_bins ua_bandwidth ua_zhang ua_k].
  - unfold stretched. now rewrite P1, Q1, KS, Hop.
  - unfold stretched. rewrite P2, Q2. unfold ad_uniform. rewrite (VV _ (fun l => Ok (ad_of_cdf (map (uniform_cdf 0 1) (rsort l)))) (fun l => Ok (ad_of_cdf (map (uniform_cdf 0 1) (rsort l))))); trivial.
    intros W. rewrite !cdf_unit by (trivial; now apply MW). now rewrite RM, ad_flip.
  - unfold stretched. rewrite P3, Q3. unfold cvm_uniform. rewrite (VV _ (fun l => cvm_do_execute (map (uniform_cdf 0 1) (rsort l))) (fun l => cvm_do_execute (map (uniform_cdf 0 1) (rsort l)))); trivial.
    intros W. rewrite !cdf_unit by (trivial; now apply MW). now rewrite RM, cvm_flip.
  - unfold stretched. now rewrite P4, Q4, KS.
  - rewrite !chi2_rule_stretched by trivial. unfold chi2_uniform_rule. apply VV. intros W. rewrite bins_mirror. destruct (uniform_bins 0 1 bins z) as [m|] eqn:E; trivial. cbn [bind].
    pose proof (bins_two _ _ _ _ _ E) as Hm. rewrite !chi2_unit by (trivial; try lra; now apply MW). rewrite !uniform_std_01, mirror_len. cbn [bind].
    rewrite histogram_unit_mirror.
    + rewrite map_rev. replace (repeat (len z / INR m) m) with (rev (repeat (len z / INR m) m)) at 1.
      * rewrite pd_rev; trivial. rewrite map_length, histogram_length, repeat_length. unfold inner_edges. rewrite map_length, seq_length. lia.
      * clear. generalize (len z / INR m) as q. intros q. induction m as [|m IH]; trivial. cbn [repeat rev]. rewrite IH. symmetry. apply repeat_cons.
    + intros x i Hx Hi C. apply (Ho m (a + (b - a) * x) i); [now rewrite bins_stretched|apply in_map_iff; now exists x|trivial|]. now rewrite C.
  - unfold stretched. rewrite P5, Q5. unfold watson_uniform. rewrite (VV _ (fun l => watson_uniform_of (uniform_std 0 1 (rsort l))) (fun l => watson_uniform_of (uniform_std 0 1 (rsort l)))); trivial.
    intros W. now rewrite !uniform_std_01, RM, watson_uniform_flip.
  - unfold stretched. rewrite P6, Q6. unfold kuiper_uniform. rewrite E01. rewrite (VV _ (fun l => kuiper_of (rsort l)) (fun l => kuiper_of (rsort l))); trivial. intros W. now rewrite RM, kuiper_flip.
  - unfold stretched. rewrite P7, Q7. unfold greenwood_uniform. rewrite (VV _ (fun l => Ok (greenwood_of (uniform_std 0 1 (rsort l)))) (fun l => Ok (greenwood_of (uniform_std 0 1 (rsort l))))); trivial.
    intros W. now rewrite !uniform_std_01, RM, greenwood_flip.
  - rewrite !br_stretched by trivial. unfold br_uniform. apply (VV _ (fun rvs => let z := uniform_std 0 1 rvs in match rvs, bandwidth with [], AutoBandwidth => _ | [], GivenBandwidth _ => _ | _, _ => _ end)
      (fun rvs => let z := uniform_std 0 1 rvs in match rvs, bandwidth with [], AutoBandwidth => _ | [], GivenBandwidth _ => _ | _, _ => _ end)).
    intros W. cbv zeta. rewrite !uniform_std_01, br_auto_mirror, br_value_mirror. destruct z as [|z0 z']; [reflexivity|]. destruct bandwidth; trivial. change (1 - z0 :: mirror z') with (mirror (z0 :: z')). cbn [mirror map]. change (1 - z0 :: map (fun x => 1 - x) z') with (mirror (z0 :: z')). now rewrite br_value_mirror.
  - rewrite !zhang_stretched by trivial. unfold zhang_uniform. apply VV. intros W. cbv zeta. now rewrite !uniform_std_01, RM, zhang_flip, zhang_ok_flip.
  - rewrite !stein_stretched by trivial. unfold stein_uniform. apply VV. intros W. now rewrite !stein_std_unit, stein_of_mirror.
  - rewrite !censored_stretched by trivial. unfold censored_stein. apply (VV _ (fun rvs => stein_uniform 0 1 rvs) (fun rvs => stein_uniform 0 1 rvs)). intros W.
    unfold stein_uniform. apply VV. intros _. now rewrite !stein_std_unit, stein_of_mirror.
  - rewrite !neyman_stretched by trivial. unfold neyman_uniform. apply VV. intros W. rewrite !uniform_std_01, neyman_of_mirror. unfold nonempty. now rewrite mirror_length.
  - destruct (within_dec 0 1 z) as [W|W].
    + assert (A1 : sherman_uniform 0 1 z = Ok (sherman_of 0 1 (rsort z))) by (unfold sherman_uniform; now rewrite vok). assert (A2 : qm_uniform 0 1 z = Ok (quesenberry_miller_of 0 1 (rsort z))) by (unfold qm_uniform; now rewrite vok).
      assert (B1 : sherman_uniform 0 1 (mirror z) = Ok (sherman_of 0 1 (rsort z))) by (unfold sherman_uniform; rewrite (vok 0 1 (mirror z)) by (now apply MW); cbn [bind]; now rewrite RM, sherman_flip).
      assert (B2 : qm_uniform 0 1 (mirror z) = Ok (quesenberry_miller_of 0 1 (rsort z))) by (unfold qm_uniform; rewrite (vok 0 1 (mirror z)) by (now apply MW); cbn [bind]; now rewrite RM, qm_flip).
      destruct (C61_uniform_sherman_qm_scale_holds a b z _ _ Hab A1 A2) as [C1 _]. destruct (C61_uniform_sherman_qm_scale_holds a b (mirror z) _ _ Hab B1 B2) as [D1 _]. unfold stretched. now rewrite C1, D1.
    + unfold sherman_uniform. rewrite !vraise; [reflexivity| |]; rewrite stretched_within by trivial; trivial. now rewrite MW.
  - destruct (within_dec 0 1 z) as [W|W].
    + assert (A1 : sherman_uniform 0 1 z = Ok (sherman_of 0 1 (rsort z))) by (unfold sherman_uniform; now rewrite vok). assert (A2 : qm_uniform 0 1 z = Ok (quesenberry_miller_of 0 1 (rsort z))) by (unfold qm_uniform; now rewrite vok).
      assert (B1 : sherman_uniform 0 1 (mirror z) = Ok (sherman_of 0 1 (rsort z))) by (unfold sherman_uniform; rewrite (vok 0 1 (mirror z)) by (now apply MW); cbn [bind]; now rewrite RM, sherman_flip).
      assert (B2 : qm_uniform 0 1 (mirror z) = Ok (quesenberry_miller_of 0 1 (rsort z))) by (unfold qm_uniform; rewrite (vok 0 1 (mirror z)) by (now apply MW); cbn [bind]; now rewrite RM, qm_flip).
      destruct (C61_uniform_sherman_qm_scale_holds a b z _ _ Hab A1 A2) as [_ C1]. destruct (C61_uniform_sherman_qm_scale_holds a b (mirror z) _ _ Hab B1 B2) as [_ D1]. unfold stretched. now rewrite C1, D1.
    + unfold qm_uniform. rewrite !vraise; [reflexivity| |]; rewrite stretched_within by trivial; trivial. now rewrite MW.
Qed.
(** *** C65 *)
Lemma C65_uniform_lilliefors_refuted_holds : declares "LillieforsTestUniformGofStatistic" TWO_TAILED /\
  forall A f l, ua_a A < ua_b A -> l <> [] -> within (ua_a A) (ua_b A) l -> In ("LillieforsTestUniformGofStatistic", f) (uniform_statistics A) ->
  exists d, nvalue (f l) = Ok (Some (Fin d)) /\ supremum (fun x => Rabs (edf l x - uniform_cdf (ua_a A) (ua_b A) x)) d.
Proof.
  split; [apply declared; vm_compute; reflexivity|]. intros A f l Hab NE W H. each H; try discriminate H. injection H as <-. cbn [nreads nvalue].
  destruct (proj1 (C47_ks_is_sup_distance_holds _ l (uniform_cdf_continuous_cdf _ _ Hab) NE)) as (d & E & S). exists d. unfold ks_uniform. rewrite vok by trivial. cbn [bind]. unfold ks_stat, cdf_vals in E. now rewrite E.
Qed.
Lemma std_repeat a b x n : uniform_std a b (repeat x n) = repeat ((x - a) / (b - a)) n.
Proof. unfold uniform_std. induction n as [|n IH]; trivial. cbn [repeat map]. now rewrite IH. Qed.
Lemma stein_std_eq a b l : a < b -> stein_std a b l = uniform_std a b l.
Proof. intros H. rewrite <- (stretched_std a b l H) at 1. now rewrite stein_std_stretched. Qed.
Lemma std_within a b l : a < b -> within a b l -> within 0 1 (uniform_std a b l).
Proof. intros H W. rewrite <- (stretched_within a b) by trivial. now rewrite stretched_std. Qed.
Lemma std_length a b l : length (uniform_std a b l) = length l. Proof. apply map_length. Qed.
(** a sample concentrated at the middle of the interval has the least possible value of Stein's statistic *)
Lemma C65_uniform_stein_refuted_holds : declares "SteinUniformGofStatistic" RIGHT /\
  forall A f n, ua_a A < ua_b A -> (2 <= n)%nat -> In ("SteinUniformGofStatistic", f) (uniform_statistics A) ->
  nvalue (f (repeat ((ua_a A + ua_b A) / 2) n)) = Ok (Some (Fin (- (1 / 4)))) /\
  forall l v, (2 <= length l)%nat -> nvalue (f l) = Ok (Some (Fin v)) -> - (1 / 4) <= v <= 1 / 2.
Proof.
  split; [apply declared; vm_compute; reflexivity|]. intros A f n Hab Hn H. each H; try discriminate H. injection H as <-. cbn [nreads nvalue]. split.
  - unfold stein_uniform. rewrite vok by (intros x Hx; apply repeat_spec in Hx; subst x; lra). cbn [bind]. rewrite stein_std_eq, std_repeat, stein_const by trivial. unfold num. do 3 f_equal. field. lra.
  - intros l v Hl Hv. unfold stein_uniform in Hv. destruct (within_dec (ua_a A) (ua_b A) l) as [W|W]; [rewrite vok in Hv by trivial|rewrite vraise in Hv by trivial; discriminate].
    cbn [bind] in Hv. rewrite stein_std_eq in Hv by trivial. unfold num in Hv. assert (E : stein_of (uniform_std (ua_a A) (ua_b A) l) = v) by congruence. rewrite <- E. apply stein_range; [now rewrite std_length|now apply std_within].
Qed.
(** *** C94 *)
(** the value is the sum of the squared scores of k orthonormal polynomials of the uniform distribution *)
Lemma C94_components_holds : exists phi, orthonormal phi (fun j => (1 <= j)%nat) /\
  (forall j, (1 <= j)%nat -> polynomial_of_degree j (phi j) /\ is_RInt (phi j) 0 1 0) /\
  forall A f l, ua_a A < ua_b A -> l <> [] -> within (ua_a A) (ua_b A) l -> In ("NeymanSmoothTestUniformGofStatistic", f) (uniform_statistics A) ->
  nvalue (f l) = Ok (Some (Fin (Rsum (map (fun j => (Rsum (map (fun x => phi j ((x - ua_a A) / (ua_b A - ua_a A))) l)) ^ 2 / len l) (seq 1 (ua_k A)))))).
Proof.
  exists neyman_phi. split; [exact phi_orthonormal|]. split; [intros j Hj; split; [now apply phi_degree|now apply phi_mean]|].
  intros A f l Hab NE W H. each H; try discriminate H. injection H as <-. cbn [nreads nvalue]. unfold neyman_uniform. rewrite vok by trivial. cbn [bind].
  assert (E : nonempty l || Nat.eqb (ua_k A) 0 = true) by (destruct l; [easy|reflexivity]). rewrite E. unfold num. do 3 f_equal. unfold neyman_of. apply Rsum_map_ext. intros j _.
  unfold uniform_std. rewrite map_map. unfold Rdiv at 1. rewrite Rpow_mult_distr, len_map. unfold Rdiv at 2. f_equal. rewrite pow_inv. f_equal. pose proof (len_pos l NE). rewrite <- Rsqr_pow2. apply Rsqr_sqrt. lra.
Qed.
(** never negative; zero exactly when the first k moments of the standardised sample are those of the uniform distribution *)
Lemma C94_moments_holds : forall A f l v, ua_a A < ua_b A -> l <> [] -> In ("NeymanSmoothTestUniformGofStatistic", f) (uniform_statistics A) ->
  nvalue (f l) = Ok (Some (Fin v)) ->
  0 <= v /\ (v = 0 <-> forall j, (1 <= j <= ua_k A)%nat -> mean (map (fun x => ((x - ua_a A) / (ua_b A - ua_a A)) ^ j) l) = 1 / (INR j + 1)).
Proof.
  intros A f l v Hab NE H Hv. each H; try discriminate H. injection H as <-. cbn [nreads nvalue] in Hv. unfold neyman_uniform in Hv.
  destruct (within_dec (ua_a A) (ua_b A) l) as [W|W]; [rewrite vok in Hv by trivial|rewrite vraise in Hv by trivial; discriminate]. cbn [bind] in Hv.
  assert (E : nonempty l || Nat.eqb (ua_k A) 0 = true) by (destruct l; [easy|reflexivity]). rewrite E in Hv. unfold num in Hv. assert (Ev : neyman_of (ua_k A) (uniform_std (ua_a A) (ua_b A) l) = v) by congruence. rewrite <- Ev.
  split; [apply neyman_nonneg|]. rewrite neyman_moments by (unfold uniform_std; now apply map_ne). unfold uniform_std. split; intros Q j Hj; specialize (Q j Hj); rewrite map_map in *; trivial.
Qed.
(** *** C95 *)
(** the statistic is the average over pairs of a kernel with mean zero under the hypothesis *)
Lemma Rsum_cons x l : Rsum (x :: l) = x + Rsum l. Proof. reflexivity. Qed.
Lemma sum_pairs_double h u : (forall x y, h x y = h y x) -> 2 * sum_pairs h u = Rsum (map (fun x => Rsum (map (h x) u)) u) - Rsum (map (fun x => h x x) u).
Proof.
  intros Hs. induction u as [|a u IH]; [cbn; ring|]. cbn [map sum_pairs]. rewrite !Rsum_cons. rewrite Rmult_plus_distr_l, IH.
  rewrite (Rsum_map_ext (fun x => Rsum (h x a :: map (h x) u)) (fun x => h a x + Rsum (map (h x) u))) by (intros x _; rewrite Rsum_cons, (Hs a x); reflexivity).
  rewrite Rsum_map_plus. change (map (fun x => h a x) u) with (map (h a) u). ring.
Qed.
Lemma C95_stein_value_holds : forall A f l, ua_a A < ua_b A -> (2 <= length l)%nat -> within (ua_a A) (ua_b A) l -> In ("SteinUniformGofStatistic", f) (uniform_statistics A) ->
  let u := map (fun x => (x - ua_a A) / (ua_b A - ua_a A)) l in let h := fun x y => (x ^ 2 + y ^ 2) / 2 - Rmin x y in
  nvalue (f l) = Ok (Some (Fin ((Rsum (map (fun x => Rsum (map (h x) u)) u) - Rsum (map (fun x => h x x) u)) / (len l * (len l - 1))))).
Proof.
  intros A f l Hab Hn W H u h. each H; try discriminate H. injection H as <-. cbn [nreads nvalue]. unfold stein_uniform. rewrite vok by trivial. cbn [bind]. rewrite stein_std_eq by trivial.
  change (uniform_std (ua_a A) (ua_b A) l) with u. unfold num. do 3 f_equal. unfold stein_of. assert (L : length u = length l) by apply map_length.
  rewrite (proj2 (Nat.ltb_lt _ _)) by lia. rewrite (sum_pairs_ext stein_h h) by (intros; apply stein_h_min). rewrite sum_pairs_double by (intros x y; unfold h; rewrite Rmin_comm; field). unfold len. now rewrite L.
Qed.
Lemma C95_stein_kernel_mean_holds : let h := fun x y : R => (x ^ 2 + y ^ 2) / 2 - Rmin x y in
  (forall x, 0 <= x <= 1 -> is_RInt (h x) 0 1 (x ^ 2 - x + 1 / 6)) /\ is_RInt (fun x => RInt (h x) 0 1) 0 1 0.
Proof.
  split.
  - intros x Hx. apply (is_RInt_ext (stein_h x)); [intros; apply stein_h_min|now apply stein_inner].
  - apply (is_RInt_ext (fun x => RInt (stein_h x) 0 1)); [|exact stein_outer]. intros x _. apply RInt_ext. intros y _. apply stein_h_min.
Qed.
(** not a discrepancy: samples concentrated at one end of the interval get exactly the mean value *)
Lemma C95_stein_discrepancy_refuted_holds : forall A f n, ua_a A < ua_b A -> (2 <= n)%nat -> In ("SteinUniformGofStatistic", f) (uniform_statistics A) ->
  nvalue (f (repeat (ua_a A) n)) = Ok (Some (Fin 0)) /\ nvalue (f (repeat (ua_b A) n)) = Ok (Some (Fin 0)).
Proof.
  intros A f n Hab Hn H. each H; try discriminate H. injection H as <-. cbn [nreads nvalue].
  split; unfold stein_uniform; rewrite vok by (intros x Hx; apply repeat_spec in Hx; subst x; lra); cbn [bind]; rewrite stein_std_eq, std_repeat, stein_const by trivial; unfold num; do 3 f_equal; field; lra.
Qed.
(** nothing censored: the statistic without censoring *)
Lemma C95_nothing_censored_holds : forall A f a b l n, a = ua_a A -> b = ua_b A -> In ("SteinUniformGofStatistic", f) (uniform_statistics A) ->
  censored_stein a b NoIndices l = nvalue (f l) /\ censored_stein a b (IndexArray (repeat false n)) l = nvalue (f l).
Proof.
  intros A f a b l n -> -> H. each H; try discriminate H. injection H as <-. cbn [nreads nvalue]. unfold censored_stein.
  assert (E : forallb negb (repeat false n) = true) by (induction n; trivial). rewrite E. unfold stein_uniform. destruct (within_dec (ua_a A) (ua_b A) l) as [W|W]; [rewrite vok by trivial|rewrite vraise by trivial; now split].
  cbn [bind]. rewrite vok by trivial. now split.
Qed.
(** but a Python list of zeros gives twice that value *)
Lemma C95_list_of_zeros_refuted_holds : forall A f l v, ua_a A < ua_b A -> In ("SteinUniformGofStatistic", f) (uniform_statistics A) ->
  nvalue (f l) = Ok (Some (Fin v)) -> censored_stein (ua_a A) (ua_b A) (IndexList (repeat false (length l))) l = Ok (Some (Fin (2 * v))).
Proof.
  intros A f l v Hab H Hv. each H; try discriminate H. injection H as <-. cbn [nreads nvalue] in Hv. unfold stein_uniform in Hv. unfold censored_stein.
  destruct (within_dec (ua_a A) (ua_b A) l) as [W|W]; [rewrite vok in Hv by trivial|rewrite vraise in Hv by trivial; discriminate]. rewrite vok by trivial. cbn [bind] in *.
  unfold num in Hv. assert (Ev : stein_of (stein_std (ua_a A) (ua_b A) l) = v) by congruence. rewrite repeat_length, Nat.ltb_irrefl. cbv zeta.
  assert (L : length (stein_std (ua_a A) (ua_b A) l) = length l) by (rewrite stein_std_eq by trivial; apply std_length).
  rewrite weighted_unweighted; [rewrite uncensored_all by lia; now rewrite Ev|]. intros x _. apply km_none, combine_false.
Qed.
(** the weights are the inverse of the product-limit estimator, not less than 10^-10 *)
Lemma C95_kaplan_meier_holds : forall obs, NoDup (map fst obs) ->
  (forall t, kaplan_meier obs t = product_limit obs t) /\ (forall t, 0 <= kaplan_meier obs t <= 1) /\
  (forall s t, s <= t -> kaplan_meier obs t <= kaplan_meier obs s).
Proof.
  intros obs N. split; [|split]; intros; rewrite ?km_product_limit by trivial; [reflexivity|apply pl_range|now apply pl_mono].
Qed.
(** the order of the observations (with their indicators) is irrelevant *)
Lemma C95_order_holds : forall a b l d l' d', a < b -> length l = length d -> length l' = length d' -> NoDup l -> Permutation (combine l d) (combine l' d') ->
  censored_stein a b (IndexArray d) l = censored_stein a b (IndexArray d') l' /\ censored_stein a b (IndexList d) l = censored_stein a b (IndexList d') l'.
Proof.
  intros a b l d l' d' Hab L L' N P. assert (F : forall (x : list R) (y : list bool), length x = length y -> map fst (combine x y) = x).
  { induction x as [|x0 x IH]; intros [|y0 y] Hl; try discriminate; trivial. cbn. now rewrite IH by (simpl in Hl; lia). }
  assert (G : forall (x : list R) (y : list bool), length x = length y -> map snd (combine x y) = y).
  { induction x as [|x0 x IH]; intros [|y0 y] Hl; try discriminate; trivial. cbn. now rewrite IH by (simpl in Hl; lia). }
  assert (Pl : Permutation l l') by (rewrite <- (F l d L), <- (F l' d' L'); now apply Permutation_map). assert (Pd : Permutation d d') by (rewrite <- (G l d L), <- (G l' d' L'); now apply Permutation_map).
  assert (FB : forallb negb d = forallb negb d').
  { clear - Pd. induction Pd as [|x d d' P IH|x y d|d1 d2 d3 P1 IH1 P2 IH2]; trivial; [cbn; now rewrite IH|cbn; now destruct x, y|congruence]. }
  assert (ST : stein_uniform a b l = stein_uniform a b l'). { unfold stein_uniform. apply validated_ext; [now apply within_perm_iff|]. intros _. now rewrite (stein_of_perm _ _ (stein_std_perm _ _ _ _ Pl)). }
  assert (CM : forall (x : list R) (y : list bool), combine (uniform_std a b x) y = map (fun p => ((fst p - a) / (b - a), snd p)) (combine x y)).
  { induction x as [|x0 x IH]; intros [|y0 y]; trivial. cbn. unfold uniform_std in IH. now rewrite IH. }
  assert (WE : weighted_u (kaplan_meier (combine (stein_std a b l) d)) (combine (stein_std a b l) d) = weighted_u (kaplan_meier (combine (stein_std a b l') d')) (combine (stein_std a b l') d')).
  { rewrite !stein_std_eq by trivial. apply weighted_km_perm.
    - rewrite F by (unfold uniform_std; now rewrite map_length). now apply nodup_std.
    - rewrite !CM. now apply Permutation_map. }
  unfold censored_stein. rewrite FB. destruct (within_dec a b l) as [W|W].
  - rewrite !vok by (trivial; now apply (within_perm_iff a b l l' Pl)). cbn [bind]. rewrite <- L, <- L', !Nat.ltb_irrefl. cbv zeta. rewrite WE, ST. now split.
  - rewrite !vraise; [now split| |trivial]. intros W'. apply W. now apply (within_perm_iff a b l l' Pl).
Qed.
(** only the largest observation is censored: twice the statistic of the others *)
Lemma C95_largest_censored_refuted_holds : forall A f l m v, ua_a A < ua_b A -> NoDup l -> (forall x, In x l -> x < m) -> m <= ua_b A ->
  In ("SteinUniformGofStatistic", f) (uniform_statistics A) -> l <> [] -> nvalue (f l) = Ok (Some (Fin v)) ->
  censored_stein (ua_a A) (ua_b A) (IndexArray (repeat false (length l) ++ [true])) (l ++ [m]) = Ok (Some (Fin (2 * v))).
Proof.
  intros A f l m v Hab N Hm Hb H NE Hv. set (a := ua_a A) in *. set (b := ua_b A) in *. each H; try discriminate H. injection H as <-. cbn [nreads nvalue] in Hv. fold a b in Hv. unfold stein_uniform in Hv.
  destruct (within_dec a b l) as [W|W]; [rewrite vok in Hv by trivial|rewrite vraise in Hv by trivial; discriminate]. cbn [bind] in Hv. unfold num in Hv. assert (Ev : stein_of (stein_std a b l) = v) by congruence.
  assert (W' : within a b (l ++ [m])). { intros x Hx. apply in_app_iff in Hx as [Hx|[<-|[]]]; auto. destruct l as [|y l]; [easy|]. pose proof (W y (or_introl eq_refl)). pose proof (Hm y (or_introl eq_refl)). lra. }
  unfold censored_stein. rewrite vok by trivial. cbn [bind]. assert (FB : forallb negb (repeat false (length l) ++ [true]) = false) by (clear; induction (length l); trivial). rewrite FB.
  rewrite !app_length, repeat_length, Nat.ltb_irrefl. cbv zeta. rewrite !stein_std_eq in * by trivial.
  set (q := fun x => (x - a) / (b - a)). assert (Q : forall x y, x < y -> q x < q y) by (intros x y Hxy; unfold q; apply Rmult_lt_compat_r; [apply Rinv_0_lt_compat; lra|lra]).
  assert (C : combine (uniform_std a b (l ++ [m])) (repeat false (length l) ++ [true]) = (combine (map q l) (repeat false (length l)) ++ [(q m, true)])%list).
  { change (uniform_std a b (l ++ [m])) with (map q (l ++ [m])). rewrite map_app. cbn [map]. clear. generalize (q m) as qm. intros qm. induction l as [|x l IH]; trivial. cbn. f_equal. exact IH. }
  rewrite C. set (obs := (combine (map q l) (repeat false (length l)) ++ [(q m, true)])%list).
  assert (U : uncensored obs = map q l). { unfold obs, uncensored. rewrite filter_app, map_app. cbn. rewrite app_nil_r. apply uncensored_all. rewrite map_length. lia. }
  rewrite weighted_unweighted; [rewrite U; change (map q l) with (uniform_std a b l); now rewrite Ev|]. intros x Hx. rewrite U in Hx. apply in_map_iff in Hx as (y & <- & Hy). apply km_before.
  - intros p Hp Hs. apply in_app_iff in Hp as [Hp|[<-|[]]]; [apply combine_false in Hp; congruence|]. cbn [fst]. auto.
  - unfold obs. rewrite map_app. cbn [map]. assert (F : map fst (combine (map q l) (repeat false (length l))) = map q l).
    { clear. induction l as [|x l IH]; trivial. cbn. f_equal. exact IH. }
    rewrite F. apply (Permutation_NoDup (Permutation_cons_append (map q l) (q m))). constructor.
    + intros Hq. apply in_map_iff in Hq as (z & Ez & Hz). specialize (Q z m (Hm z Hz)). cbn [fst] in Ez. lra.
    + apply (nodup_std a b l); trivial.
Qed.
(** *** C96 *)
(** Zhang's statistic A is smallest at the evenly spaced sample, and only there *)
Lemma C96_zhang_a_holds : forall A f l, ua_a A < ua_b A -> ua_zhang A = ZhangA -> l <> [] -> strictly_within (ua_a A) (ua_b A) l -> In ("ZhangTestsUniformGofStatistic", f) (uniform_statistics A) ->
  exists v0 v, nvalue (f (ideal_sample (ua_a A) (ua_b A) (length l))) = Ok (Some (Fin v0)) /\ nvalue (f l) = Ok (Some (Fin v)) /\ v0 <= v /\
    (v = v0 <-> Permutation l (ideal_sample (ua_a A) (ua_b A) (length l))).
Proof.
  intros A f l Hab Hz NE W H. set (a := ua_a A) in *. set (b := ua_b A) in *. each H; try discriminate H. injection H as <-. cbn [nreads nvalue]. fold a b. rewrite Hz.
  set (u := uniform_std a b (rsort l)). set (n := length l).
  assert (V : forall s, strictly_within a b s -> zhang_uniform a b ZhangA s = Ok (Some (Fin (zhang_a (uniform_std a b (rsort s)))))).
  { intros s Hs. unfold zhang_uniform. rewrite vok by (intros x Hx; specialize (Hs x Hx); lra). cbn [bind]. cbv zeta. unfold num. rewrite (proj2 (forallb_forall _ _)); trivial.
    intros x Hx. apply in_map_iff in Hx as (y & <- & Hy). apply (proj1 (rsort_in _ _)) in Hy. specialize (Hs y Hy). rewrite andb_true_iff, !Rltb_true. split; [apply Rdiv_lt_0_compat; lra|apply Rlt_div_l; lra]. }
  assert (WI : strictly_within a b (ideal_sample a b n)).
  { intros x Hx. rewrite ideal_stretched in Hx. apply in_map_iff in Hx as (y & <- & Hy). apply ideal_inside in Hy. nra. }
  assert (UI : uniform_std a b (rsort (ideal_sample a b n)) = ideal_unit n).
  { rewrite ideal_stretched, rsort_id; [now apply std_stretched|]. unfold stretched. apply sorted_map_mono; [|apply ideal_unit_sorted]. intros x y Hxy. nra. }
  exists (zhang_a (ideal_unit n)), (zhang_a u). split; [rewrite (V _ WI), UI; reflexivity|]. split; [now apply V|].
  assert (Un : u <> []) by (unfold u, uniform_std; apply map_ne; now apply rsort_ne). assert (Ul : length u = n) by (unfold u; rewrite std_length, rsort_length; reflexivity).
  destruct (zhang_a_min u) as [M E]; trivial.
  { unfold u, uniform_std. apply sorted_map_mono; [|apply rsort_sorted]. intros x y Hxy. apply Rmult_le_compat_r; [left; apply Rinv_0_lt_compat; lra|lra]. }
  { intros x Hx. apply in_map_iff in Hx as (y & <- & Hy). apply (proj1 (rsort_in _ _)) in Hy. specialize (W y Hy). split; [apply Rdiv_lt_0_compat; lra|apply Rlt_div_l; lra]. }
  rewrite Ul in M, E. split; trivial. split.
  - intros Q. specialize (E Q). rewrite ideal_stretched, <- E. unfold u. rewrite stretched_std by trivial. symmetry. apply rsort_perm.
  - intros P. unfold u. rewrite (rsort_perm_eq _ _ P). fold n. now rewrite UI.
Qed.
Lemma zc3 x : 0 < x < 1 / 2 -> zhang_uniform 0 1 ZhangC [x; 1 / 2; 1 - x] = Ok (Some (Fin (2 * ((ln x / (5 / 2)) ^ 2 + (2 * ln (1 - x)) ^ 2 + (ln (1 / 2) / (3 / 2)) ^ 2)))).
Proof.
  intros Hx. unfold zhang_uniform. rewrite vok by (intros y [<-|[<-|[<-|[]]]]; lra). cbn [bind]. cbv zeta. rewrite rsort_id by (repeat constructor; lra). rewrite uniform_std_01.
  unfold num. rewrite (proj2 (forallb_forall _ _)) by (intros y Hy; rewrite andb_true_iff, !Rltb_true; destruct Hy as [<-|[<-|[<-|[]]]]; lra).
  do 3 f_equal. unfold zhang_c, imap, len. cbn [imap_from Rsum fold_right length]. simpl (INR _). replace (1 - (1 - x)) with x by ring.
  replace 0.5 with (1 / 2) by lra. replace (1 + 1 + 1 - 1 + 1 / 2) with (5 / 2) by lra. replace (1 + 1 + 1 - (1 + 1) + 1 / 2) with (3 / 2) by lra. replace (1 + 1 + 1 - (1 + 1 + 1) + 1 / 2) with (1 / 2) by lra.
  replace (1 + 1 - 1 / 2) with (3 / 2) by lra. replace (1 + 1 + 1 - 1 / 2) with (5 / 2) by lra. replace (1 - 1 / 2) with (1 / 2) by lra. generalize (ln x) (ln (1 - x)) (ln (1 / 2)). intros. field.
Qed.
(** statistic C is not: the sample 1/5, 1/2, 4/5 has a smaller value than the evenly spaced one *)
Lemma C96_zhang_c_refuted_holds : exists v0 v, zhang_uniform 0 1 ZhangC (ideal_sample 0 1 3) = Ok (Some (Fin v0)) /\
  zhang_uniform 0 1 ZhangC [1 / 5; 1 / 2; 4 / 5] = Ok (Some (Fin v)) /\ v < v0.
Proof.
  eexists; eexists. split; [|split].
  - replace (ideal_sample 0 1 3) with [1 / 6; 1 / 2; 1 - 1 / 6] by (unfold ideal_sample; cbn [map seq]; simpl (INR _); repeat (apply f_equal2; [field|]); reflexivity). apply zc3. lra.
  - replace (4 / 5) with (1 - 1 / 5) by field. apply zc3. lra.
  - assert (I1 : ln (1 / 6) = - (ln 5 + ln (6 / 5))) by (rewrite <- ln_mult by lra; rewrite <- ln_Rinv by lra; f_equal; field).
    assert (I2 : ln (1 - 1 / 6) = - ln (6 / 5)) by (rewrite <- ln_Rinv by lra; f_equal; field).
    assert (I3 : ln (1 / 5) = - ln 5) by (rewrite <- ln_Rinv by lra; f_equal; field).
    assert (I4 : ln (1 - 1 / 5) = - (ln (6 / 5) + ln (25 / 24))) by (rewrite <- ln_mult by lra; rewrite <- ln_Rinv by lra; f_equal; field).
    rewrite I1, I2, I3, I4. set (p := ln 5). set (q := ln (6 / 5)). set (r := ln (25 / 24)).
    assert (Q1 : 1 / 6 <= q). { unfold q. pose proof (ln_le_minus1 (5 / 6) ltac:(lra)) as K. replace (5 / 6) with (/ (6 / 5)) in K by field. rewrite ln_Rinv in K by lra. lra. }
    assert (Q2 : q <= 1 / 5) by (unfold q; pose proof (ln_le_minus1 (6 / 5) ltac:(lra)); lra).
    assert (R1 : r <= 1 / 24) by (unfold r; pose proof (ln_le_minus1 (25 / 24) ltac:(lra)); lra).
    assert (R0 : 0 < r) by (unfold r; rewrite <- ln_1; apply ln_increasing; lra).
    assert (QR : q + r <= 1 / 4). { unfold q, r. rewrite <- ln_mult by lra. replace (6 / 5 * (25 / 24)) with (5 / 4) by field. pose proof (ln_le_minus1 (5 / 4) ltac:(lra)). lra. }
    assert (P1 : 3 <= 2 * p + q).
    { unfold p, q. replace (2 * ln 5 + ln (6 / 5)) with (ln 5 + (ln 5 + ln (6 / 5))) by ring. rewrite <- !ln_mult by lra. replace (5 * (5 * (6 / 5))) with 30 by field. rewrite <- (ln_exp 3). left. apply ln_increasing; [apply exp_pos|].
      replace 3 with (1 + 1 + 1) by ring. rewrite !exp_plus. pose proof exp_le_3. pose proof (exp_pos 1). assert (exp 1 * exp 1 <= 9) by nra. nra. }
    assert (K : 4 * (r * (2 * q + r)) < q * (2 * p + q) / 6.25).
    { assert (r * (2 * q + r) <= 1 / 24 * 0.45) by nra. assert (1 / 6 * 3 <= q * (2 * p + q)) by nra. lra. }
    clearbody p q r. replace (q * (2 * p + q) / 6.25) with (4 / 25 * (q * (2 * p + q))) in K by lra. apply Rmult_lt_compat_l; [lra|]. apply Rplus_lt_compat_r. apply Rminus_gt_0_lt.
    replace (_ - _) with (4 / 25 * (q * (2 * p + q)) - 4 * (r * (2 * q + r))) by field. lra.
Qed.
Lemma Rsum_imap_zero (g : nat -> R -> R) (l : list R) : (forall i x, In x l -> g i x = 0) -> Rsum (imap g l) = 0.
Proof.
  intros H. unfold imap. generalize 0%nat. induction l as [|x l IH]; intros n; trivial. cbn [imap_from]. rewrite Rsum_cons, H by now left. rewrite IH; [ring|]. intros; apply H; now right.
Qed.
(** nor is statistic K: it vanishes on every sample concentrated at the middle, but not on the evenly spaced one *)
Lemma C96_zhang_k_refuted_holds : declares "ZhangTestsUniformGofStatistic" RIGHT /\
  (forall n, zhang_uniform 0 1 ZhangK (repeat (1 / 2) n) = Ok (Some (Fin 0))) /\
  exists v, zhang_uniform 0 1 ZhangK (ideal_sample 0 1 2) = Ok (Some (Fin v)) /\ 0 < v.
Proof.
  split; [apply declared; vm_compute; reflexivity|]. split.
  - intros n. unfold zhang_uniform. rewrite vok by (intros x Hx; apply repeat_spec in Hx; subst x; lra). cbn [bind]. cbv zeta. rewrite uniform_std_01.
    assert (I : forall x, In x (rsort (repeat (1 / 2) n)) -> x = 1 / 2) by (intros x Hx; apply (proj1 (rsort_in _ _)) in Hx; now apply repeat_spec in Hx). set (u := rsort (repeat (1 / 2) n)) in *.
    unfold num. rewrite (proj2 (forallb_forall _ _)) by (intros y Hy; rewrite andb_true_iff, !Rltb_true; rewrite (I y Hy); lra). do 3 f_equal. unfold zhang_k.
    rewrite !Rsum_imap_zero; [rewrite Rabs_R0; now apply Rmax_left; lra| |]; intros i x Hx; rewrite (I x Hx); [replace ((1 - 1 / 2) / (1 / 2)) with 1 by field|replace (1 / 2 / (1 - 1 / 2)) with 1 by field]; rewrite ln_1; unfold Rdiv; ring.
  - eexists. split.
    + replace (ideal_sample 0 1 2) with [1 / 4; 3 / 4] by (unfold ideal_sample; cbn [map seq]; simpl (INR _); repeat (apply f_equal2; [field|]); reflexivity).
      unfold zhang_uniform. rewrite vok by (intros y [<-|[<-|[]]]; lra). cbn [bind]. cbv zeta. rewrite rsort_id by (repeat constructor; lra). rewrite uniform_std_01.
      unfold num. rewrite (proj2 (forallb_forall _ _)) by (intros y Hy; rewrite andb_true_iff, !Rltb_true; destruct Hy as [<-|[<-|[]]]; lra). reflexivity.
    + unfold zhang_k, imap, len. cbn [imap_from Rsum fold_right length]. simpl (INR _). eapply Rlt_le_trans; [|apply Rmax_l].
      replace (1 / 4 / (1 - 1 / 4)) with (/ 3) by field. replace (3 / 4 / (1 - 3 / 4)) with 3 by field. rewrite ln_Rinv by lra.
      replace (1 + 1 - 1 + 0.5) with (3 / 2) by lra. replace (1 + 1 - (1 + 1) + 0.5) with (1 / 2) by lra. assert (0 < ln 3) by (rewrite <- ln_1; apply ln_increasing; lra).
      replace (- ln 3 / (3 / 2) + (ln 3 / (1 / 2) + 0)) with (4 / 3 * ln 3) by field. rewrite Rabs_pos_eq; lra.
Qed.
(** Bickel-Rosenblatt: a sum of squared differences between the kernel estimate of the density and 1 over a grid of [0, 1] *)
Lemma C96_bickel_rosenblatt_holds : forall A h f l v, ua_a A < ua_b A -> ua_bandwidth A = GivenBandwidth h -> l <> [] -> In ("BickelRosenblattUniformGofStatistic", f) (uniform_statistics A) ->
  nvalue (f l) = Ok (Some (Fin v)) ->
  let estimate t := Rsum (map (fun x => exp (- ((t - (x - ua_a A) / (ua_b A - ua_a A)) / h) ^ 2 / 2) / sqrt (2 * PI)) l) / (len l * h) in
  0 <= v /\ (v = 0 <-> forall i, (i <= 999)%nat -> estimate (INR i / 999) = 1).
Proof.
  intros A h f l v Hab Hh NE H Hv estimate. each H; try discriminate H. injection H as <-. cbn [nreads nvalue] in Hv. unfold br_uniform in Hv. rewrite Hh in Hv.
  destruct (within_dec (ua_a A) (ua_b A) l) as [W|W]; [rewrite vok in Hv by trivial|rewrite vraise in Hv by trivial; discriminate]. cbn [bind] in Hv. cbv zeta in Hv. rewrite match_ne in Hv by trivial.
  unfold num in Hv. destruct (negb (Reqb h 0)) eqn:Z; [|discriminate]. apply negb_true_iff, Reqb_false in Z. assert (E : br_value h (uniform_std (ua_a A) (ua_b A) l) = v) by congruence. rewrite <- E.
  pose proof (len_pos l NE) as L. assert (K : forall t, br_kde h (uniform_std (ua_a A) (ua_b A) l) t = estimate t).
  { intros t. unfold br_kde, estimate, mean. unfold uniform_std. rewrite !len_map, map_map. unfold norm_pdf. replace (_ / _ / _) with (Rsum (map (fun x => gauss ((t - (x - ua_a A) / (ua_b A - ua_a A)) / h) / sqrt (2 * PI)) l) / (len l * h)) by (field; split; lra). f_equal. apply Rsum_map_ext. intros x _. f_equal. unfold gauss. f_equal. unfold Rdiv. ring. }
  unfold br_value. rewrite (map_ext _ (fun t => (estimate t - 1) ^ 2)) by (intros; now rewrite K). assert (N : 0 <= Rsum (map (fun t => (estimate t - 1) ^ 2) br_grid)) by (apply Rsum_nonneg; intros x Hx; apply in_map_iff in Hx as (j & <- & _); apply pow2_ge_0).
  split; [lra|]. split.
  - intros Q i Hi. assert (R0 : Rsum (map (fun t => (estimate t - 1) ^ 2) br_grid) = 0) by lra.
    assert (G : In (INR i / 999) br_grid) by (unfold br_grid; apply in_map_iff; exists i; split; trivial; apply in_seq; lia).
    assert (S0 : (estimate (INR i / 999) - 1) ^ 2 = 0); [|nra]. revert R0 G. generalize br_grid (INR i / 999). clear. intros g t. induction g as [|y g IH]; intros E I; [easy|]. cbn [map] in E. rewrite Rsum_cons in E.
    assert (0 <= Rsum (map (fun t => (estimate t - 1) ^ 2) g)) by (apply Rsum_nonneg; intros x Hx; apply in_map_iff in Hx as (j & <- & _); apply pow2_ge_0). pose proof (pow2_ge_0 (estimate y - 1)).
    destruct I as [<-|I]; [lra|]. apply IH; trivial. lra.
  - intros Q. rewrite (Rsum_map_ext _ (fun _ => 0)); [rewrite Rsum_map_const; ring|]. intros t Ht. unfold br_grid in Ht. apply in_map_iff in Ht as (i & <- & Hi). apply in_seq in Hi. rewrite Q by lia. ring.
Qed.
(** not vacuous *)
Lemma C94_nonvacuous_holds : let l := [1 / 2 - sqrt (1 / 12); 1 / 2 + sqrt (1 / 12)] in
  forall f, In ("NeymanSmoothTestUniformGofStatistic", f) (uniform_statistics (UniformArgs 0 1 LEFT 0 Sturges AutoBandwidth ZhangA 3)) -> nvalue (f l) = Ok (Some (Fin 0)).
Proof.
  intros l f H. each H; try discriminate H. injection H as <-. cbn [nreads nvalue ua_a ua_b ua_k]. unfold l. set (s := sqrt (1 / 12)). assert (S2 : s * s = 1 / 12) by (apply sqrt_sqrt; lra). assert (S0 : 0 <= s) by apply sqrt_pos.
  unfold neyman_uniform. rewrite vok by (intros x [<-|[<-|[]]]; nra). cbn [bind]. rewrite uniform_std_01. change (nonempty _ || _) with true. unfold num. do 3 f_equal. apply neyman_moments; [discriminate|].
  intros j Hj. assert (C : j = 1%nat \/ j = 2%nat \/ j = 3%nat) by lia. unfold mean, len. destruct C as [->|[->| ->]]; cbn [map Rsum fold_right length]; simpl (INR _); nra.
Qed.
Lemma C95_nonvacuous_holds : censored_stein 0 1 (IndexArray [false; false; true]) [1 / 4; 1 / 2; 3 / 4] = Ok (Some (Fin (- (3 / 16)))).
Proof.
  assert (I : In ("SteinUniformGofStatistic", nreads (stein_uniform 0 1)) (uniform_statistics (UniformArgs 0 1 LEFT 0 Sturges AutoBandwidth ZhangA 3))) by inlist.
  assert (V : nvalue (nreads (stein_uniform 0 1) [1 / 4; 1 / 2]) = Ok (Some (Fin (- (3 / 32))))).
  { cbn [nreads nvalue]. unfold stein_uniform. rewrite vok by (intros x [<-|[<-|[]]]; lra). cbn [bind]. rewrite stein_std_unit. unfold num. do 3 f_equal. unfold stein_of, len. cbn [length Nat.ltb Nat.leb sum_pairs map Rsum fold_right]. rewrite stein_h_min, Rmin_left by lra. simpl (INR _). field. }
  pose proof (C95_largest_censored_refuted_holds (UniformArgs 0 1 LEFT 0 Sturges AutoBandwidth ZhangA 3) (nreads (stein_uniform 0 1)) [1 / 4; 1 / 2] (3 / 4) (- (3 / 32)) ltac:(cbn [ua_a ua_b]; lra) ltac:(repeat constructor; cbn [In]; intuition lra) ltac:(intros x [<-|[<-|[]]]; lra) ltac:(cbn [ua_b]; lra) I ltac:(discriminate) V) as K.
  cbn [ua_a ua_b length repeat app] in K. rewrite K. do 3 f_equal. field.
Qed.
Lemma C96_nonvacuous_holds : ideal_sample 0 1 2 = [1 / 4; 3 / 4] /\ strictly_within 0 1 [1 / 4; 3 / 4].
Proof.
  split; [unfold ideal_sample; cbn [map seq]; simpl (INR _); repeat (apply f_equal2; [field|]); reflexivity|]. intros x [<-|[<-|[]]]; lra.
Qed.
Lemma C87_nonvacuous_uniform_holds : forall m x i, uniform_bins 0 1 (GivenBins 2) [1 / 4; 2 / 3] = Ok m -> In x [1 / 4; 2 / 3] -> (1 <= i < m)%nat -> x <> 0 + (1 - 0) * (INR i / INR m).
Proof.
  intros m x i E Hx Hi. assert (m = 2%nat) by (unfold uniform_bins in E; cbn [bind] in E; injection E as <-; reflexivity). subst m. replace i with 1%nat by lia. simpl (INR _). destruct Hx as [<-|[<-|[]]]; lra.
Qed.
