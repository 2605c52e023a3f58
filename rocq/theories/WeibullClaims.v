(** Properties C47, C48, C53, C54, C61-C65, C80 and C89-C92, C97 for the Weibull statistics. *)
From Coq Require Import String.
From Verif Require Import Base DecModel EdfModel EdfSpec GraphModel RegistryModel ExpModel ExpSpec NormModel WeibullModel WeibullSpec SamplerSpec Analysis EdfProofs EdfRotProofs EdfPowerProofs NormProofs NormRangeProofs NormFiniteProofs NormAffProofs NormBoundProofs NormReflProofs EdfClaims EdfMtClaims ExpClaims ExpProofs WeibullProofs WeibullInvProofs WeibullFitProofs WeibullRangeProofs WeibullMoreProofs ExpRangeProofs.
From Coq Require Import Lra Lia Psatz.
Local Open Scope string_scope.
Local Open Scope R_scope.

Ltac each H := cbn [weibull_statistics In] in H; repeat destruct H as [H|H]; [..|contradiction].
Ltac pickf H := first [injection H as <- <- | injection H as <-].
Ltac inlist := cbn [weibull_statistics In]; repeat (first [left; reflexivity|right]).
Ltac named N := cbn [In cdf_based_weibull composite_weibull order_dependent_weibull broken_weibull] in N; repeat destruct N as [N|N]; try contradiction; try discriminate N.
(** the table contains every Weibull class of the registry *)
Lemma C54_weibull_complete_holds : forall minimise Gam gumbel_fit A c, In c stat_classes -> sc_dist c = WEIBULL ->
  In (sc_name c) (map fst (weibull_statistics minimise Gam gumbel_fit A)).
Proof.
  intros minimise Gam gumbel_fit A c Hc Hd. assert (K : forallb (fun c => match sc_dist c with WEIBULL => existsb (String.eqb (sc_name c))
    (map fst (weibull_statistics (fun _ _ _ => 0) (fun _ => 0) (fun _ => Raise ValueError) (WeibullArgs 0 0 LEFT))) | _ => true end) stat_classes = true) by (vm_compute; reflexivity).
  rewrite forallb_forall in K. specialize (K c Hc). rewrite Hd in K. apply existsb_exists in K. destruct K as (x & Hx & E).
  apply String.eqb_eq in E. rewrite E. exact Hx.
Qed.
(** *** C47, C48, C53, C80 *)
Lemma C47_weibull_holds : forall minimise Gam gumbel_fit A l, valid_args A -> wa_alt A = TWO_TAILED -> l <> [] ->
  exists f g d, In ("KolmogorovSmirnovWeibullGofStatistic", f) (weibull_statistics minimise Gam gumbel_fit A) /\
     In ("LillieforsWeibullGofStatistic", g) (weibull_statistics minimise Gam gumbel_fit A) /\
     nvalue (f l) = Ok (Some (Fin d)) /\ nvalue (g l) = Ok (Some (Fin d)) /\
     supremum (fun x => Rabs (edf l x - SamplerModel.generate_weibull_cdf (wa_a A) (wa_k A) x)) d.
Proof.
  intros minimise Gam gumbel_fit A l [Ha Hk] Ht Hne.
  destruct (proj1 (C47_ks_is_sup_distance_holds _ l (weibull_is_cdf _ _ Ha Hk) Hne)) as (d & E & S).
  eexists; eexists; exists d. split; [inlist|]. split; [inlist|]. cbn [nreads nvalue]. rewrite Ht, E. auto.
Qed.
Lemma C48_weibull_holds : forall minimise Gam gumbel_fit A name f l v, valid_args A -> wa_alt A = TWO_TAILED -> l <> [] ->
  In (name, f) (weibull_statistics minimise Gam gumbel_fit A) -> nvalue (f l) = Ok (Some (Fin v)) ->
  (In name ["KolmogorovSmirnovWeibullGofStatistic"; "LillieforsWeibullGofStatistic"] -> 1 / (2 * len l) <= v <= 1) /\
  (In name ["CrammerVonMisesWeibullGofStatistic"; "WatsonWeibullGofStatistic"] -> 1 / (12 * len l) <= v <= len l / 3).
Proof.
  intros minimise Gam gumbel_fit A name f l v [Ha Hk] Ht Hne H Hv. set (F := weibull_cdf (wa_a A) (wa_k A)) in *.
  destruct (weibull_is_cdf _ _ Ha Hk) as (M & Bd & _). fold F in M, Bd.
  pose proof (C48_ranges_holds F l M Bd Hne) as K. cbv zeta in K. fold (len l) in K.
  destruct K as ((d & Kd & Rd) & (w & Kw & Rw) & (k & Kk & Rk) & (u & Ku & Ru) & _).
  assert (I : forall x, Ok (Some (Fin x)) = Ok (Some (Fin v)) :> outcome -> x = v) by (intros x Hx; congruence).
  split; intros N; cbn [In] in N; destruct N as [N|[N|[]]]; subst name; each H; try discriminate H; pickf H; cbn [nreads nvalue] in Hv;
    fold F in Hv; rewrite ?Ht, ?Kd, ?Kw, ?Kk, ?Ku in Hv; apply I in Hv; now subst.
Qed.
(** the chi-squared value is not negative *)
Lemma chi2_low A l : valid_args A -> all_positive l -> l <> [] -> (exists x y, In x l /\ In y l /\ x <> y) -> 0 < fst (chi2_range l) /\ fst (chi2_range l) < snd (chi2_range l).
Proof.
  intros _ P Hne (x & y & Hx & Hy & N). unfold chi2_range. pose proof (Rmaxl_ge 0 l x Hx). pose proof (Rmaxl_ge 0 l y Hy). pose proof (Rminl_le 0 l x Hx). pose proof (Rminl_le 0 l y Hy).
  pose proof (P _ (Rminl_in 0 l Hne)). destruct (Reqb_spec (Rminl 0 l) (Rmaxl 0 l)); cbn [fst snd]; lra.
Qed.
Lemma chi2_fact A l v : valid_args A -> all_positive l -> (exists x y, In x l /\ In y l /\ x <> y) ->
  let F := weibull_cdf (wa_a A) (wa_k A) in let E := F (Rmaxl 0 l) - F (Rminl 0 l) in
  0 < E < 1 /\ (exists v, chi2_weibull F l = Ok (Some (Fin v))) /\ (chi2_weibull F l = Ok (Some (Fin v)) -> (1 - E) ^ 2 <= v * E /\ 0 <= v).
Proof.
  intros [Ha Hk] P D. destruct D as (x & y & Hx & Hy & N). assert (Hne : l <> []) by (intros ->; contradiction).
  destruct (chi2_low A l ltac:(split; trivial) P Hne ltac:(eauto 6)) as [L1 L2]. intros F E.
  assert (RR : chi2_range l = (Rminl 0 l, Rmaxl 0 l)).
  { unfold chi2_range. pose proof (Rmaxl_ge 0 l x Hx). pose proof (Rmaxl_ge 0 l y Hy). pose proof (Rminl_le 0 l x Hx). pose proof (Rminl_le 0 l y Hy).
    destruct (Reqb_spec (Rminl 0 l) (Rmaxl 0 l)); trivial; lra. }
  assert (FS : forall x y, fst (chi2_range l) <= x -> x < y -> F x < F y) by (intros u w Hu Hw; apply weibull_strict; lra).
  destruct (chi2_value F l v Hne FS) as [V1 V2]. rewrite RR in *. cbn [fst snd] in *. fold E in V2. split; [|split; [exact V1|intros Hv; specialize (V2 Hv); tauto]].
  unfold E. pose proof (FS (Rminl 0 l) (Rmaxl 0 l) ltac:(lra) ltac:(lra)). pose proof (weibull_inside (wa_a A) (wa_k A) (Rmaxl 0 l) Ha ltac:(lra)).
  pose proof (weibull_inside (wa_a A) (wa_k A) (Rminl 0 l) Ha ltac:(lra)). unfold F in *. lra.
Qed.
Lemma C53_weibull_holds : forall minimise Gam gumbel_fit A f l, valid_args A -> all_positive l -> (exists x y, In x l /\ In y l /\ x <> y) ->
  In ("Chi2PearsonWeibullGofStatistic", f) (weibull_statistics minimise Gam gumbel_fit A) -> exists v, nvalue (f l) = Ok (Some (Fin v)) /\ 0 <= v.
Proof.
  intros minimise Gam gumbel_fit A f l HA P D H. each H; try discriminate H. injection H as <-. cbn [nreads nvalue].
  destruct (chi2_fact A l 0 HA P D) as (_ & (v & V) & _). exists v. split; [exact V|]. destruct (chi2_fact A l v HA P D) as (_ & _ & K). now apply K.
Qed.
Lemma C80_weibull_holds : forall minimise Gam gumbel_fit A f l, valid_args A -> l <> [] ->
  In ("MinToshiyukiWeibullGofStatistic", f) (weibull_statistics minimise Gam gumbel_fit A) ->
  (all_positive l -> exists v, nvalue (f l) = Ok (Some (Fin v)) /\ / sqrt (len l) <= v) /\
  (nvalue (f l) = Ok (Some NonFinite) <-> exists x, In x l /\ x <= 0).
Proof.
  intros minimise Gam gumbel_fit A f l [Ha Hk] Hne H. each H; try discriminate H. injection H as <-. cbn [nreads nvalue]. set (F := weibull_cdf (wa_a A) (wa_k A)).
  pose proof (C80_finite_exactly_inside_holds F l) as X. split.
  - intros P. destruct (mt_stat F l) as [v|] eqn:E.
    + exists v. split; trivial. destruct (ks_fin TWO_TAILED (cdf_vals F l)) as (d & Ed); [unfold cdf_vals; now apply map_ne, rsort_ne|].
      unfold lift in Ed. destruct (ks_do_execute TWO_TAILED (cdf_vals F l)) as [d'|] eqn:K; [|discriminate].
      refine (proj1 (C80_range_holds F l v d' (Rmaxl 0 (map (fun x => sqrt (1 / (F x * (1 - F x)))) l)) E K _)). intros x Hx. apply Rmaxl_ge. now apply (in_map (fun x => sqrt (1 / (F x * (1 - F x))))).
    + exfalso. apply (proj2 X); [|reflexivity]. split; trivial. intros x Hx. apply weibull_inside; auto.
  - split.
    + intros E. destruct (mt_stat F l) as [v|] eqn:M; [discriminate|]. assert (N : ~ all_positive l).
      { intros P. apply (proj2 X); [|reflexivity]. split; trivial. intros x Hx. apply weibull_inside; auto. }
      destruct (all_pos l) eqn:Q; [exfalso; apply N; now apply all_pos_iff|]. unfold all_pos in Q.
      assert (Q' : existsb (fun x => negb (Rltb 0 x)) l = true).
      { destruct (existsb (fun x => negb (Rltb 0 x)) l) eqn:Z; trivial. exfalso. rewrite <- not_true_iff_false in Q. apply Q. apply forallb_forall. intros x Hx.
        destruct (Rltb 0 x) eqn:T; trivial. assert (existsb (fun x => negb (Rltb 0 x)) l = true); [|congruence]. apply existsb_exists. exists x. now rewrite T. }
      apply existsb_exists in Q' as (x & Hx & T). exists x. split; trivial. apply negb_true_iff in T. destruct (Rltb_spec 0 x); [discriminate|lra].
    + intros (x & Hx & L). do 2 f_equal. destruct (mt_stat F l) as [z|] eqn:E; trivial. exfalso. destruct (proj1 X) as [_ Q]; [discriminate|]. specialize (Q x Hx). unfold F in Q. rewrite weibull_cdf_neg in Q by trivial. lra.
Qed.
(** *** C54, C64 *)
Lemma C54_weibull_holds : forall minimise Gam gumbel_fit A name f l l', In (name, f) (weibull_statistics minimise Gam gumbel_fit A) ->
  ~ In name order_dependent_weibull -> Permutation l l' -> nvalue (f l) = nvalue (f l').
Proof.
  intros minimise Gam gumbel_fit A name f l l' H O P. assert (E : rsort l = rsort l') by now apply rsort_perm_eq. assert (L : len l = len l') by (unfold len; now rewrite (Permutation_length P)).
  assert (LE : length l = length l') by now apply Permutation_length. assert (EL : rsort (map ln l) = rsort (map ln l')) by now apply rsort_perm_eq, Permutation_map.
  assert (NL : l = [] <-> l' = []) by (split; intros ->; [now apply Permutation_nil|now apply Permutation_nil, Permutation_sym]).
  assert (MT : forall X (a b : X), match l with [] => a | _ => b end = match l' with [] => a | _ => b end) by (intros X a b; destruct l, l'; trivial; exfalso; (discriminate (proj1 NL eq_refl) || discriminate (proj2 NL eq_refl))).
  assert (AP : all_pos l = all_pos l') by (unfold all_pos; now apply forallb_perm).
  assert (SM : forall g : R -> R, Rsum (map g l) = Rsum (map g l')) by (intros g; now apply Rsum_perm, Permutation_map).
  assert (MN : forall d, Rminl d l = Rminl d l') by (intros d; now apply Rminl_perm). assert (MX : forall d, Rmaxl d l = Rmaxl d l') by (intros d; now apply Rmaxl_perm).
  assert (NS : ns_ratios l = ns_ratios l') by (unfold ns_ratios; now rewrite EL, LE). assert (NO : ns_ok l = ns_ok l') by (unfold ns_ok; now rewrite AP, LE).
  assert (ML : mlest minimise l = mlest minimise l').
  { unfold mlest. rewrite MT, MN, L. assert (Y : rsort (map (fun x => - ln x) l) = rsort (map (fun x => - ln x) l')) by now apply rsort_perm_eq, Permutation_map. now rewrite Y. }
  each H; pickf H; cbn [nreads nvalue]; unfold mt_stat, ks_stat, ad_stat, cvm_stat, watson_stat, cdf_vals; rewrite ?E; try reflexivity.
  - unfold chi2_weibull. rewrite MT, E, LE, L. unfold chi2_edge, chi2_range. now rewrite MN, MX.
  - unfold ad_weibull. now rewrite AP, EL.
  - unfold sb_weibull. now rewrite AP, EL, L.
  - unfold st2_weibull, neg_logs. now rewrite MT, AP, EL, L.
  - unfold st1_weibull, neg_logs. now rewrite MT, AP, EL, L.
  - exfalso. apply O. now left.
  - unfold ts_weibull. now rewrite NO, NS, LE.
  - unfold los_weibull, los_z. now rewrite NO, NS, LE.
  - unfold msf_weibull. now rewrite NO, NS, LE.
  - unfold ok_weibull. now rewrite AP, EL, L.
  - unfold sb_weibull. now rewrite AP, EL, L.
  - unfold rejg_weibull. now rewrite ML, EL, LE.
  - unfold spp_weibull. now rewrite ML, LE.
  - unfold md_weibull. now rewrite E, LE.
  - unfold ls_weibull. now rewrite E, LE.
  - unfold kl_weibull. now rewrite E, LE, AP.
  - unfold cq_weibull, mean, len. now rewrite !map_length, !SM, LE.
Qed.
Lemma C64_weibull_holds : forall minimise Gam gumbel_fit A name f l, In (name, f) (weibull_statistics minimise Gam gumbel_fit A) -> nsample_after (f l) = l.
Proof. intros minimise Gam gumbel_fit A name f l H. each H; pickf H; reflexivity. Qed.
(** the RSB statistic pairs the observations with the plotting positions in the order in which they arrive *)
Lemma C54_rsb_weibull_refuted_holds : forall minimise Gam gumbel_fit A f, In ("RSBWeibullGofStatistic", f) (weibull_statistics minimise Gam gumbel_fit A) ->
  Permutation [1; exp 1; exp 2] [exp 1; 1; exp 2] /\ nvalue (f [1; exp 1; exp 2]) <> nvalue (f [exp 1; 1; exp 2]).
Proof. intros minimise Gam gumbel_fit A f H. each H; try discriminate H. injection H as <-. split; [constructor|apply rsb_order]. Qed.
(** *** C61 *)
(** x -> x^c with k -> k/c leaves the statistics that use the parameters through the distribution function unchanged *)
Lemma C61_weibull_holds : forall minimise Gam gumbel_fit a k alt c name f f' l, 0 < c -> all_positive l -> In name cdf_based_weibull ->
  In (name, f) (weibull_statistics minimise Gam gumbel_fit (WeibullArgs a k alt)) ->
  In (name, f') (weibull_statistics minimise Gam gumbel_fit (WeibullArgs a (k / c) alt)) ->
  nvalue (f' (map (fun x => Rpower x c) l)) = nvalue (f l).
Proof.
  intros minimise Gam gumbel_fit a k alt c name f f' l Hc P N H H'. pose proof (cdf_vals_powered a k c l Hc P) as E.
  assert (L : length (map (fun x => Rpower x c) l) = length l) by apply map_length.
  named N; subst name; each H; try discriminate H; injection H as <-; each H'; try discriminate H'; injection H' as <-;
    cbn [nreads nvalue wa_a wa_k wa_alt]; unfold mt_stat, ks_stat, cvm_stat, watson_stat, cdf_vals, md_weibull, ls_weibull; rewrite ?E, ?L; reflexivity.
Qed.
(** *** C62 *)
Lemma C62_weibull_holds : forall minimise Gam gumbel_fit A name f l v, in_bounds minimise -> all_positive l ->
  In (name, f) (weibull_statistics minimise Gam gumbel_fit A) -> nvalue (f l) = Ok (Some (Fin v)) ->
  (name = "RSBWeibullGofStatistic" -> 0 <= v <= len l) /\ (name = "TikuSinghWeibullGofStatistic" -> 0 <= v <= 2) /\
  (In name ["MSFWeibullGofStatistic"; "REJGWeibullGofStatistic"] -> 0 <= v <= 1).
Proof.
  intros minimise Gam gumbel_fit A name f l v HB P H Hv. split; [|split]; [intros ->|intros ->|intros [<-|[<-|[]]]]; each H; try discriminate H; injection H as <-; cbn [nreads nvalue] in Hv.
  - now apply rsb_range.
  - now apply (ts_range l).
  - now apply (msf_range l).
  - apply (rejg_free_range l). rewrite <- (rejg_value minimise); trivial. intros ->. discriminate Hv.
Qed.
(** *** C63 *)
(** every class that can work returns a finite number on three or more different positive observations *)
Lemma C63_weibull_holds : forall minimise Gam gumbel_fit A name f l, in_bounds minimise -> valid_args A -> all_positive l -> NoDup l -> (3 <= length l)%nat ->
  In (name, f) (weibull_statistics minimise Gam gumbel_fit A) -> ~ In name broken_weibull -> exists v, nvalue (f l) = Ok (Some (Fin v)).
Proof.
  intros minimise Gam gumbel_fit A name f l HB HA P D Hn H NB. destruct HA as [Ha Hk]. assert (NE : l <> []) by (destruct l; [simpl in Hn; lia|discriminate]).
  set (F := weibull_cdf (wa_a A) (wa_k A)). destruct (weibull_is_cdf _ _ Ha Hk) as (M & Bd & _). change (forall x y, x <= y -> F x <= F y) in M.
  assert (CN : cdf_vals F l <> []) by (unfold cdf_vals; apply map_ne; now apply rsort_ne). pose proof (proj2 (all_pos_iff l) P) as AP.
  pose proof (proj2 (ns_ok_iff l) P) as NO. pose proof (nodup_ln l P D) as DL. assert (V : varying (rsort (map ln l)) = true).
  { unfold varying. rewrite (ssq_perm _ _ (rsort_perm (map ln l))). apply nodup_varying; trivial. rewrite map_length. lia. }
  assert (VN : varying (neg_logs l) = true).
  { unfold neg_logs, varying. rewrite (ssq_perm _ _ (rsort_perm _)). change (map Ropp (rsort (map ln l))) with (NormReflProofs.neg (rsort (map ln l))). rewrite NormReflProofs.neg_ssq. exact V. }
  assert (FP : all_pos (map F (rsort l)) = true).
  { apply all_pos_iff. intros u Hu. apply in_map_iff in Hu as (x & <- & Hx). apply weibull_inside; trivial. now apply (all_positive_rsort l P). }
  assert (NP : 0 < Rsum (ns_ratios l)).
  { apply ExpRangeProofs.Rsum_pos; [intros E; pose proof (ns_ratios_length l) as Z; rewrite E in Z; simpl in Z; lia|]. intros r Hr. exact (ns_ratios_pos l r P D Hr). }
  each H; pickf H; cbn [nreads nvalue]; fold F; try (exfalso; apply NB; cbn; tauto).
  - destruct (C80_weibull_holds minimise Gam gumbel_fit A _ l ltac:(split; trivial) NE ltac:(cbn [weibull_statistics In]; left; reflexivity)) as [K _]. destruct (K P) as (v & E & _). now exists v.
  - destruct (chi2_fact A l 0 ltac:(split; trivial) P) as (_ & K & _); [|exact K]. destruct l as [|x [|y l]]; [simpl in Hn; lia|simpl in Hn; lia|]. exists x, y. split; [now left|]. split; [right; now left|].
    intros ->. inversion D as [|? ? N _]. apply N. now left.
  - apply ks_fin, CN.
  - apply cvm_fin, CN.
  - apply ks_fin, CN.
  - apply num_fin. now rewrite AP, V.
  - unfold st2_weibull. rewrite NormFiniteProofs.match_ne by trivial. apply num_fin. now rewrite AP, VN.
  - unfold st1_weibull. rewrite NormFiniteProofs.match_ne by trivial. apply num_fin. now rewrite AP, VN.
  - unfold rsb_weibull. rewrite NormFiniteProofs.match_ne by trivial. apply num_fin. rewrite AP. cbn [andb]. rewrite nodup_varying by (trivial; rewrite map_length; lia). apply scores_varying.
    + unfold rsb_scores. rewrite map_length, seq_length. lia.
    + intros i j Hij. apply rsb_scores_strict. unfold rsb_scores in Hij. now rewrite map_length, seq_length in Hij.
  - apply num_fin. rewrite NO, (proj2 (Nat.ltb_lt _ _)) by lia. cbn [andb]. apply negb_true_iff, Reqb_false. apply Rgt_not_eq, Rmult_lt_0_compat; trivial. apply (le_INR 3) in Hn. simpl in Hn. lra.
  - destruct (los_value l Hn P D) as (v & E & _). now exists v.
  - apply num_fin. rewrite NO. cbn [andb]. apply negb_true_iff, Reqb_false. lra.
  - apply num_fin. rewrite AP. cbn [andb]. apply negb_true_iff, Reqb_false. apply Rgt_not_eq, ok_sig_pos; trivial. now rewrite map_length.
  - apply num_fin. now rewrite AP, V.
  - rewrite rejg_value by trivial. apply num_fin. rewrite V. apply scores_varying.
    + rewrite rejg_scores_length. lia.
    + intros i j Hij. apply rejg_scores_strict. now rewrite rejg_scores_length in Hij.
  - destruct (spp_value minimise l HB NE P) as (eta & beta & _ & _ & _ & E). rewrite E. eexists; reflexivity.
  - apply num_fin. rewrite FP. apply orb_true_r.
  - destruct (C48_ranges_holds F l M Bd NE) as (_ & _ & _ & (u & E & _) & _). exists u. now rewrite E.
  - apply num_fin. rewrite FP. cbn [andb]. apply negb_true_iff, Nat.eqb_neq. lia.
  - unfold kl_weibull. cbv zeta. rewrite (proj2 (Nat.eqb_neq _ _)) by lia. apply num_fin. rewrite AP, kl_windows, (proj2 (Nat.ltb_lt _ _)) by (trivial; lia). reflexivity.
  - apply num_fin. apply negb_true_iff, Nat.eqb_neq. lia.
Qed.
(** the Anderson-Darling and both Laplace transform classes fail on every sample *)
Lemma C63_weibull_broken_refuted_holds : forall minimise Gam gumbel_fit A name f l, In (name, f) (weibull_statistics minimise Gam gumbel_fit A) -> In name broken_weibull ->
  (exists e, nvalue (f l) = Raise e) /\
  (In name ["LaplaceTransform2WeibullGofStatistic"; "LaplaceTransform3WeibullGofStatistic"] -> nvalue (f l) = Raise ValueError) /\
  (name = "AndersonDarlingWeibullGofStatistic" -> all_positive l -> (exists p, gumbel_fit (rsort (map ln l)) = Ok p) -> nvalue (f l) = Raise TypeError).
Proof.
  intros minimise Gam gumbel_fit A name f l H N. named N; subst name; each H; try discriminate H; injection H as <-; cbn [nreads nvalue].
  - split; [|split].
    + unfold ad_weibull. destruct (all_pos l); [|now exists ValueError]. destruct (gumbel_fit (rsort (map ln l))) as [p|e]; [now exists TypeError|now exists e].
    + intros K. cbn [In] in K. destruct K as [K|[K|[]]]; discriminate K.
    + intros _ P (p & E). unfold ad_weibull. rewrite (proj2 (all_pos_iff l) P), E. reflexivity.
  - split; [now exists ValueError|]. split; [reflexivity|discriminate].
  - split; [now exists ValueError|]. split; [reflexivity|discriminate].
Qed.
(** on two observations LOS divides by zero; on one it returns 1 and on none 2, whatever the data *)
Lemma C63_weibull_los_short_holds : forall minimise Gam gumbel_fit A f x y, In ("LOSWeibullGofStatistic", f) (weibull_statistics minimise Gam gumbel_fit A) ->
  nvalue (f [x; y]) = Raise ZeroDivisionError /\ nvalue (f [x]) = Ok (Some (Fin 1)) /\ nvalue (f []) = Ok (Some (Fin 2)).
Proof.
  intros minimise Gam gumbel_fit A f x y H. each H; try discriminate H. injection H as <-. cbn [nreads nvalue]. split; [reflexivity|].
  unfold los_weibull, num. cbn [length Nat.eqb Nat.ltb Nat.leb INR]. split; do 3 f_equal; lra.
Qed.
(** *** C65 *)
(** the Lilliefors value is the largest distance between the distribution functions, but both tails reject *)
Lemma C65_weibull_lilliefors_refuted_holds : declares "LillieforsWeibullGofStatistic" TWO_TAILED /\
  forall minimise Gam gumbel_fit A f l, valid_args A -> l <> [] -> In ("LillieforsWeibullGofStatistic", f) (weibull_statistics minimise Gam gumbel_fit A) ->
  exists d, nvalue (f l) = Ok (Some (Fin d)) /\ supremum (fun x => Rabs (edf l x - SamplerModel.generate_weibull_cdf (wa_a A) (wa_k A) x)) d.
Proof.
  split; [apply declared; vm_compute; reflexivity|]. intros minimise Gam gumbel_fit A f l [Ha Hk] NE H. each H; try discriminate H. injection H as <-. cbn [nreads nvalue].
  destruct (proj1 (C47_ks_is_sup_distance_holds _ l (weibull_is_cdf _ _ Ha Hk) NE)) as (d & E & S). exists d. now rewrite E.
Qed.
(** the SPP value is a largest distance between arcsine scores, so zero for a perfect fit, but small values reject *)
Lemma C65_weibull_spp_refuted_holds : declares "SPPWeibullGofStatistic" LEFT /\
  forall minimise Gam gumbel_fit A f l v, in_bounds minimise -> all_positive l -> (exists x y, In x l /\ In y l /\ x <> y) ->
  In ("SPPWeibullGofStatistic", f) (weibull_statistics minimise Gam gumbel_fit A) -> nvalue (f l) = Ok (Some (Fin v)) ->
  exists eta beta, 0 < eta /\ 0 < beta /\ forall d, stabilised_distance (weibull_law eta beta) l d -> d < v.
Proof.
  split; [apply declared; vm_compute; reflexivity|]. intros minimise Gam gumbel_fit A f l v HB P D H Hv. each H; try discriminate H. injection H as <-. cbn [nreads nvalue] in Hv.
  assert (NE : l <> []) by (destruct D as (x & _ & Hx & _); intros ->; contradiction).
  destruct (spp_value minimise l HB NE P) as (eta & beta & He & Hb & _ & E). cbv zeta in E. rewrite E in Hv. injection Hv as <-. exists eta, beta. split; trivial. split; trivial.
  intros d Hd. apply spp_larger; trivial; [intros x Hx; now apply law_range|intros x y Hx Hy; now apply law_strict].
Qed.
(** *** C89 *)
(** a change of scale and shape, x -> c x^b, leaves the statistics for the composite hypothesis unchanged *)
Lemma C89_weibull_invariant_holds : forall minimise Gam gumbel_fit A name f c b l, in_bounds minimise -> 0 < c -> 0 < b -> all_positive l -> In name composite_weibull ->
  In (name, f) (weibull_statistics minimise Gam gumbel_fit A) -> nvalue (f (powered c b l)) = nvalue (f l).
Proof.
  intros minimise Gam gumbel_fit A name f c b l HB Hc Hb P N H. named N; subst name; each H; try discriminate H; injection H as <-; cbn [nreads nvalue].
  - now apply st1_powered.
  - now apply st2_powered.
  - now apply rsb_powered.
  - now apply ts_powered.
  - now apply los_powered.
  - now apply msf_powered.
  - destruct l as [|x l]; [reflexivity|]. rewrite !rejg_value; [now apply rejg_free_powered|trivial|discriminate|trivial|trivial|discriminate|now apply powered_positive].
Qed.
(** the four-digit constants of the Shapiro-Brain type weights do not cancel: for every sample some change of scale changes the SB statistic *)
Lemma C89_sb_weibull_refuted_holds : forall minimise Gam gumbel_fit A name f l, all_positive l -> NoDup l -> (2 <= length l)%nat ->
  In name ["SbWeibullGofStatistic"; "SBWeibullGofStatistic"] -> In (name, f) (weibull_statistics minimise Gam gumbel_fit A) ->
  exists c, 1 < c /\ nvalue (f (map (fun x => c * x) l)) <> nvalue (f l).
Proof.
  intros minimise Gam gumbel_fit A name f l P D Hn N H. assert (NE : l <> []) by (destruct l; [simpl in Hn; lia|discriminate]).
  assert (V : varying (rsort (map ln l)) = true).
  { unfold varying. rewrite (ssq_perm _ _ (rsort_perm (map ln l))). apply nodup_varying; [now apply nodup_ln|now rewrite map_length]. }
  cbn [In] in N. destruct N as [N|[N|[]]]; subst name; each H; try discriminate H; injection H as <-; cbn [nreads nvalue]; now apply sb_drift.
Qed.
(** and every change of scale changes the OK statistic *)
Lemma C89_ok_weibull_refuted_holds : forall minimise Gam gumbel_fit A f c l v w, 0 < c -> c <> 1 -> all_positive l -> NoDup l -> (3 <= length l)%nat ->
  In ("OKWeibullGofStatistic", f) (weibull_statistics minimise Gam gumbel_fit A) ->
  nvalue (f l) = Ok (Some (Fin v)) -> nvalue (f (map (fun x => c * x) l)) = Ok (Some (Fin w)) ->
  v <> w /\ (1 < c -> v < w).
Proof.
  intros minimise Gam gumbel_fit A f c l v w Hc H1 P D Hn H Hv Hw. each H; try discriminate H. injection H as <-. cbn [nreads nvalue] in *.
  pose proof (ok_scaled c l v w Hc P Hv Hw) as E. assert (S : 0 < ok_sig (rsort (map ln l))) by (apply ok_sig_pos; [now apply nodup_ln|now rewrite map_length]).
  assert (L : 1 <= len l) by (unfold len; apply (le_INR 1); lia). pose proof (ok_scale_pos _ L) as K.
  assert (Q : 0 < len l * drift / ok_sig (rsort (map ln l)) / (0.49 / sqrt (len l) - 0.36 / len l)).
  { apply Rdiv_lt_0_compat; trivial. apply Rdiv_lt_0_compat; trivial. unfold drift. lra. }
  replace (ln c * len l * drift / ok_sig (rsort (map ln l)) / (0.49 / sqrt (len l) - 0.36 / len l))
    with (ln c * (len l * drift / ok_sig (rsort (map ln l)) / (0.49 / sqrt (len l) - 0.36 / len l))) in E by (unfold Rdiv; ring). set (q := len l * drift / _ / _) in *. split.
  - intros ->. assert (Z : ln c * q = 0) by lra. apply Rmult_integral in Z as [Z|Z]; [|lra]. apply H1. apply ln_inv; [trivial|lra|now rewrite ln_1].
  - intros G. assert (0 < ln c) by (rewrite <- ln_1; apply ln_increasing; lra). nra.
Qed.
(** *** C90 *)
(** for the shape it returns, MLEst returns the scale of largest likelihood *)
Lemma C90_mlest_scale_holds : forall minimise l, in_bounds minimise -> all_positive l -> l <> [] ->
  exists e, mlest minimise l = Ok e /\ 0 < es_eta e /\ 0.0001 <= es_beta e <= 50 /\
  forall eta, 0 < eta -> weibull_loglik eta (es_beta e) l <= weibull_loglik (es_eta e) (es_beta e) l.
Proof.
  intros minimise l HB P NE. eexists. split; [now apply mlest_value|]. cbn [es_eta es_beta]. set (t := minimise _ _ _). assert (T : 0.0001 <= t <= 50) by (apply HB; lra).
  split; [apply exp_pos|]. split; trivial. intros eta He. apply mlest_scale; trivial. lra.
Qed.
(** the sign of the term 1/t is wrong: the function it minimises is 2/t minus the score, at least 1/t, so it is not zero where the score is *)
Lemma C90_mlest_objective_refuted_holds : forall l t, 0 < t -> l <> [] ->
  mlest_f1 (rsort (map (fun x => - ln x) l)) t = 2 / t - shape_score l t /\ 1 / t <= mlest_f1 (rsort (map (fun x => - ln x) l)) t /\
  (shape_score l t = 0 -> mlest_f1 (rsort (map (fun x => - ln x) l)) t = 2 / t).
Proof. intros l t Ht NE. destruct (mlest_objective l t Ht NE) as [E L]. unfold neglog in *. split; [exact E|]. split; [exact L|]. intros Z. rewrite E, Z. ring. Qed.
(** with an exact minimiser the shape of every sample of two observations is the upper bound 50, which is not the maximum likelihood shape of (1, e) *)
Lemma C90_mlest_shape_refuted_holds : forall minimise x y, 0 < x -> 0 < y ->
  (let f := mlest_f1 (rsort (map (fun x => - ln x) [x; y])) in let m := minimise f 0.0001 50 in
   0.0001 <= m <= 50 /\ forall t, 0.0001 <= t <= 50 -> f m <= f t) ->
  (exists eta z, mlest minimise [x; y] = Ok (Estimates eta 50 z)) /\ shape_score [1; exp 1] 50 < 0.
Proof.
  intros minimise x y Hx Hy HM. pose proof (two_shape minimise x y Hx Hy HM) as T. split; [|apply score_witness].
  assert (P : all_positive [x; y]) by (intros u [<-|[<-|[]]]; trivial). pose proof (mlest_value minimise [x; y] ltac:(discriminate) P) as E. cbv zeta in E. rewrite T in E. rewrite E. eauto.
Qed.
(** *** C91 *)
(** the plotting positions ascend and the fitted values descend, so only the extreme observations count *)
Lemma C91_spp_value_holds : forall minimise Gam gumbel_fit A f l, in_bounds minimise -> all_positive l -> l <> [] ->
  In ("SPPWeibullGofStatistic", f) (weibull_statistics minimise Gam gumbel_fit A) ->
  exists e, mlest minimise l = Ok e /\
  (let F := weibull_law (es_eta e) (es_beta e) in
   nvalue (f l) = Ok (Some (Fin (Rmax (arcsine (1 - 1 / (2 * len l)) - arcsine (F (Rminl 0 l))) (arcsine (F (Rmaxl 0 l)) - arcsine (1 / (2 * len l))))))).
Proof.
  intros minimise Gam gumbel_fit A f l HB P NE H. each H; try discriminate H. injection H as <-. cbn [nreads nvalue].
  destruct (spp_value minimise l HB NE P) as (eta & beta & He & Hb & (y & M) & E). exists (Estimates eta beta y). split; trivial. cbn [es_eta es_beta].
  cbv zeta in *. rewrite E, first_min, last_max by trivial. reflexivity.
Qed.
Lemma C91_spp_pairing_refuted_holds : forall minimise Gam gumbel_fit A f l v e d, in_bounds minimise -> all_positive l -> (exists x y, In x l /\ In y l /\ x <> y) ->
  In ("SPPWeibullGofStatistic", f) (weibull_statistics minimise Gam gumbel_fit A) -> nvalue (f l) = Ok (Some (Fin v)) -> mlest minimise l = Ok e ->
  stabilised_distance (weibull_law (es_eta e) (es_beta e)) l d -> d < v.
Proof.
  intros minimise Gam gumbel_fit A f l v e d HB P D H Hv M S. each H; try discriminate H. injection H as <-. cbn [nreads nvalue] in Hv.
  assert (NE : l <> []) by (destruct D as (x & _ & Hx & _); intros ->; contradiction).
  destruct (spp_value minimise l HB NE P) as (eta & beta & He & Hb & (y & M') & E). rewrite M in M'. injection M' as ->. cbn [es_eta es_beta] in S. cbv zeta in E. rewrite E in Hv. injection Hv as <-.
  apply spp_larger; trivial; [intros x Hx; now apply law_range|intros x z Hx Hz; now apply law_strict].
Qed.
(** *** C92 *)
Lemma C92_weibull_nonnegative_holds : forall minimise Gam gumbel_fit A name f l v, in_bounds minimise -> valid_args A -> all_positive l -> (exists x y, In x l /\ In y l /\ x <> y) ->
  In name ["Chi2PearsonWeibullGofStatistic"; "SbWeibullGofStatistic"; "SBWeibullGofStatistic"; "ST1WeibullGofStatistic"; "ST2WeibullGofStatistic"; "SPPWeibullGofStatistic";
           "MahdiDoostparastWeibullGofStatistic"; "LiaoShimokawaWeibullGofStatistic"; "CabanaQuirozWeibullGofStatistic"] ->
  In (name, f) (weibull_statistics minimise Gam gumbel_fit A) -> nvalue (f l) = Ok (Some (Fin v)) ->
  0 <= v /\ (name = "LiaoShimokawaWeibullGofStatistic" -> 0 < v).
Proof.
  intros minimise Gam gumbel_fit A name f l v HB HA P D N H Hv. assert (NE : l <> []) by (destruct D as (x & _ & Hx & _); intros ->; contradiction). pose proof HA as [Ha Hk].
  destruct (weibull_is_cdf _ _ Ha Hk) as (M & Bd & _).
  cbn [In] in N; repeat destruct N as [N|N]; try contradiction; subst name; each H; try discriminate H; injection H as <-; cbn [nreads nvalue] in Hv; (split; [|try discriminate]).
  - destruct (chi2_fact A l v HA P D) as (_ & _ & K). now apply K.
  - now apply (sb_nonneg l).
  - now apply (sb_nonneg l).
  - now apply (st1_nonneg l).
  - now apply (st2_nonneg l).
  - now apply (spp_nonneg minimise l).
  - apply (md_nonneg (weibull_cdf (wa_a A) (wa_k A)) l v NE); trivial. intros x Hx. apply weibull_inside; auto.
  - apply Rlt_le, (ls_pos (weibull_cdf (wa_a A) (wa_k A)) l v NE); trivial. intros x Hx. pose proof (weibull_inside (wa_a A) (wa_k A) x Ha (P x Hx)). lra.
  - intros _. apply (ls_pos (weibull_cdf (wa_a A) (wa_k A)) l v NE); trivial. intros x Hx. pose proof (weibull_inside (wa_a A) (wa_k A) x Ha (P x Hx)). lra.
  - now apply (cq_range Gam l v).
Qed.
(** the Cabana-Quiroz value is zero exactly when the two empirical transforms agree with the gamma function *)
Lemma C92_cabana_quiroz_zero_holds : forall minimise Gam gumbel_fit A f l v, In ("CabanaQuirozWeibullGofStatistic", f) (weibull_statistics minimise Gam gumbel_fit A) ->
  nvalue (f l) = Ok (Some (Fin v)) ->
  (v = 0 <-> mean (map (fun x => exp (x / 10)) l) = Gam (11 / 10) /\ mean (map (fun x => exp (- x / 50)) l) = Gam (49 / 50)).
Proof.
  intros minimise Gam gumbel_fit A f l v H Hv. each H; try discriminate H. injection H as <-. cbn [nreads nvalue] in Hv. destruct (cq_range Gam l v Hv) as [_ K]. rewrite K.
  replace (1 - -0.1) with (11 / 10) by lra. replace (1 - 0.02) with (49 / 50) by lra.
  replace (map (fun x => exp (- x * -0.1)) l) with (map (fun x => exp (x / 10)) l) by (apply map_ext; intros; f_equal; lra).
  replace (map (fun x => exp (- x * 0.02)) l) with (map (fun x => exp (- x / 50)) l) by (apply map_ext; intros; f_equal; lra). tauto.
Qed.
(** the sum in the base class of the Laplace transform statistics is not negative for either type *)
Lemma C92_laplace_nonnegative_holds : forall Gam m a type_ l v, lt_execute Gam m a type_ l = Ok (Some (Fin v)) -> 0 <= v.
Proof. exact lt_nonneg. Qed.
(** the Kullback-Leibler value can be negative *)
Lemma C92_kullback_leibler_refuted_holds : forall minimise Gam gumbel_fit A f, In ("KullbackLeiblerWeibullGofStatistic", f) (weibull_statistics minimise Gam gumbel_fit A) ->
  all_positive (exp (-19) :: repeat 1 38 ++ [exp 2]) /\ exists v, nvalue (f (exp (-19) :: repeat 1 38 ++ [exp 2])) = Ok (Some (Fin v)) /\ v < 0.
Proof.
  intros minimise Gam gumbel_fit A f H. each H; try discriminate H. injection H as <-. split; [|exact kl_negative].
  intros x [<-|H]; [apply exp_pos|]. apply in_app_or in H as [H|[<-|[]]]; [apply repeat_spec in H; lra|apply exp_pos].
Qed.
(** *** C97 *)
(** ST1 and ST2 compare the skewness and kurtosis of -ln x with those of the Gumbel distribution *)
Lemma std_moment_value k rvs : let y := map (fun x => - ln x) rvs in std_moment k (neg_logs rvs) = mean (map (fun v => ((v - mean y) / sqrt (np_var y)) ^ k) y).
Proof.
  intros y. assert (P : Permutation (neg_logs rvs) y).
  { unfold neg_logs, y. rewrite rsort_perm. rewrite (Permutation_map Ropp (rsort_perm (map ln rvs))). rewrite map_map. apply Permutation_refl. }
  assert (M : mean (neg_logs rvs) = mean y) by now apply mean_perm'. assert (L : len (neg_logs rvs) = len y) by (unfold len; now rewrite (Permutation_length P)).
  unfold std_moment. rewrite M, L, (ssq_perm _ _ P). unfold mean at 2. rewrite len_map. f_equal. rewrite (Rsum_perm _ _ (Permutation_map (fun v => ((v - mean y) / sqrt (ssq y / len y)) ^ k) P)).
  apply Rsum_map_ext. intros v _. unfold np_var, ssq. unfold mean at 4. now rewrite len_map.
Qed.
Lemma C97_smooth_values_holds : forall minimise Gam gumbel_fit A l v, all_positive l -> l <> [] ->
  let y := map (fun x => - ln x) l in let skewness := mean (map (fun t => ((t - mean y) / sqrt (np_var y)) ^ 3) y) in
  let kurtosis := mean (map (fun t => ((t - mean y) / sqrt (np_var y)) ^ 4) y) in
  (forall f, In ("ST1WeibullGofStatistic", f) (weibull_statistics minimise Gam gumbel_fit A) -> nvalue (f l) = Ok (Some (Fin v)) ->
     v = len l / 20 * (skewness - 1.139547) ^ 2) /\
  (forall f, In ("ST2WeibullGofStatistic", f) (weibull_statistics minimise Gam gumbel_fit A) -> nvalue (f l) = Ok (Some (Fin v)) ->
     v = len l / 219.72 * (kurtosis - 7.55 * skewness + 3.21) ^ 2).
Proof.
  intros minimise Gam gumbel_fit A l v P NE y skewness kurtosis. pose proof (len_pos l NE) as L.
  assert (Q : forall c x, 0 < c -> (x / sqrt (c / len l)) ^ 2 = len l / c * x ^ 2).
  { intros c x Hc. assert (0 < c / len l) by (apply Rdiv_lt_0_compat; lra). unfold Rdiv at 1. rewrite Rpow_mult_distr, pow_inv, <- Rsqr_pow2 with (x := sqrt (c / len l)), Rsqr_sqrt by lra. field. lra. }
  assert (inj : forall X Y : R, Ok (Some (Fin X)) = Ok (Some (Fin Y)) -> Y = X) by (intros; congruence).
  split; intros f H Hv; each H; try discriminate H; injection H as <-; cbn [nreads nvalue] in Hv.
  - unfold st1_weibull in Hv. rewrite match_ne in Hv by trivial. unfold num in Hv. destruct (_ && _); [|discriminate]. rewrite std_moment_value, Q in Hv by lra. exact (inj _ _ Hv).
  - unfold st2_weibull in Hv. rewrite match_ne in Hv by trivial. unfold num in Hv. destruct (_ && _); [|discriminate]. rewrite !std_moment_value, Q in Hv by lra. exact (inj _ _ Hv).
Qed.
(** the sum of the Laplace transform classes vanishes exactly when the empirical transform agrees with the gamma function
    at -1, -99/100, ..., -1/100 *)
Lemma C97_laplace_zero_holds : forall Gam a l v, lt_execute Gam 100 a "LT2_WEIBULL" l = Ok (Some (Fin v)) ->
  (v = 0 <-> forall i, (1 <= i <= 100)%nat -> mean (map (fun x => exp (x * (INR i / 100))) l) = Gam (1 + INR i / 100)).
Proof.
  intros Gam a l v H. unfold lt_execute in H. rewrite String.eqb_refl in H. cbn [bind] in H. unfold num in H. destruct (negb _) eqn:E; [|discriminate].
  assert (NE : l <> []) by (destruct l; discriminate). pose proof (len_pos l NE) as L.
  set (ts := map (fun t => t / INR 100) (linspace (- INR 100) (-1) 100)) in *. set (g := fun t => exp (- exp (a * t) + a * t) * (Gam (1 - t) - Rsum (map (fun x => exp (- (x * t))) l) / len l) ^ 2) in *.
  assert (Ev : v = len l * Rsum (map g ts)) by congruence. assert (G : forall t, 0 <= g t) by (intros t; unfold g; apply Rmult_le_pos; [left; apply exp_pos|apply pow2_ge_0]).
  assert (N100 : INR 100 = 100) by (rewrite INR_IZR_INZ; reflexivity).
  assert (T : forall t, In t ts <-> exists i, (1 <= i <= 100)%nat /\ t = - (INR i / 100)).
  { intros t. unfold ts, linspace. rewrite map_map, in_map_iff. split.
    - intros (i & <- & Hi). apply in_seq in Hi. exists (100 - i)%nat. split; [lia|]. rewrite minus_INR by lia. rewrite N100. field.
    - intros (i & Hi & ->). exists (100 - i)%nat. split; [|apply in_seq; lia]. rewrite minus_INR by lia. rewrite N100. field. }
  assert (Z : forall t, g t = 0 <-> mean (map (fun x => exp (- (x * t))) l) = Gam (1 - t)).
  { intros t. unfold g. unfold mean. rewrite len_map. pose proof (exp_pos (- exp (a * t) + a * t)). set (d := Gam (1 - t) - Rsum (map (fun x => exp (- (x * t))) l) / len l). split; intros K.
    - apply Rmult_integral in K as [K|K]; [lra|]. assert (d = 0) by (apply Rsqr_0_uniq; unfold Rsqr; rewrite <- K; ring). unfold d in *. lra.
    - assert (D : d = 0) by (unfold d; lra). rewrite D. ring. }
  assert (S : Rsum (map g ts) = 0 <-> forall t, In t ts -> g t = 0).
  { clear - G. split; [|intros K; rewrite (Rsum_map_ext g (fun _ => 0)) by trivial; rewrite Rsum_map_const; ring]. induction ts as [|t ts IH]; intros K x [].
    - subst x. cbn [map Rsum fold_right] in K. change (fold_right Rplus 0 (map g ts)) with (Rsum (map g ts)) in K. assert (0 <= Rsum (map g ts)) by (apply Rsum_nonneg; intros y Hy; apply in_map_iff in Hy as (z & <- & _); auto). specialize (G t). lra.
    - apply IH; trivial. cbn [map Rsum fold_right] in K. change (fold_right Rplus 0 (map g ts)) with (Rsum (map g ts)) in K. assert (0 <= Rsum (map g ts)) by (apply Rsum_nonneg; intros y Hy; apply in_map_iff in Hy as (z & <- & _); auto). specialize (G t). lra. }
  assert (V0 : v = 0 <-> Rsum (map g ts) = 0) by (rewrite Ev; split; intros K; [apply Rmult_integral in K as [K|K]; lra|rewrite K; ring]).
  assert (AT : forall i, mean (map (fun x => exp (- (x * - (INR i / 100)))) l) = mean (map (fun x => exp (x * (INR i / 100))) l)) by (intros i; f_equal; apply map_ext; intros x; f_equal; ring).
  rewrite V0, S. split; intros K.
  - intros i Hi. rewrite <- AT. replace (1 + INR i / 100) with (1 - - (INR i / 100)) by ring. apply Z, K, T. now exists i.
  - intros t Ht. apply T in Ht as (i & Hi & ->). apply Z. rewrite AT, K by trivial. f_equal. ring.
Qed.
(** the Kullback-Leibler value follows the scale of the sample through its mean and mean logarithm only *)
Lemma C97_kullback_leibler_scale_holds : forall minimise Gam gumbel_fit A f c l v, 0 < c -> all_positive l ->
  In ("KullbackLeiblerWeibullGofStatistic", f) (weibull_statistics minimise Gam gumbel_fit A) -> nvalue (f l) = Ok (Some (Fin v)) ->
  nvalue (f (map (fun x => c * x) l)) = Ok (Some (Fin (v + (c - 1) * mean l - ln c))).
Proof.
  intros minimise Gam gumbel_fit A f c l v Hc P H Hv. each H; try discriminate H. injection H as <-. cbn [nreads nvalue] in *.
  assert (RS : rsort (map (fun x => c * x) l) = map (fun x => c * x) (rsort l)) by (apply rsort_map_mono; intros; nra).
  assert (PS : forall x, In x (rsort l) -> 0 < x) by (intros x Hx; apply (proj1 (rsort_in _ _)) in Hx; auto).
  assert (SL : map ln (rsort (map (fun x => c * x) l)) = map (fun s => ln c + s) (map ln (rsort l))) by (rewrite RS, !map_map; apply map_ext_in; intros x Hx; apply ln_mult; auto).
  set (s := map ln (rsort l)) in *. assert (Ls : length s = length l) by (unfold s; rewrite map_length; apply rsort_length).
  assert (W : forall i, (i < length l)%nat -> kl_window (map (fun s => ln c + s) s) i = kl_window s i).
  { intros i Hi. unfold kl_window. rewrite map_length, Ls. assert (Q : forall j, (j < length l)%nat -> nth j (map (fun s => ln c + s) s) 0 = ln c + nth j s 0).
    { intros j Hj. rewrite (nth_indep _ 0 (ln c + 0)) by (rewrite map_length; lia). apply (map_nth (fun s => ln c + s)). }
    rewrite !Q by lia. ring. }
  unfold kl_weibull in *. rewrite SL. fold s in Hv. rewrite map_length. destruct (length l =? 1)%nat; [discriminate|]. unfold num in *.
  assert (PC : all_pos (map (fun x => c * x) l) = all_pos l) by (rewrite !(proj2 (all_pos_iff _)); trivial; intros x Hx; apply in_map_iff in Hx as (y & <- & Hy); apply Rmult_lt_0_compat; auto).
  rewrite PC. assert (FA : forallb (fun i => Rltb 0 (kl_window (map (fun s => ln c + s) s) i)) (seq 0 (length l)) = forallb (fun i => Rltb 0 (kl_window s i)) (seq 0 (length l))).
  { assert (X : forall js, (forall j, In j js -> (j < length l)%nat) -> forallb (fun i => Rltb 0 (kl_window (map (fun s => ln c + s) s) i)) js = forallb (fun i => Rltb 0 (kl_window s i)) js).
    { induction js as [|j js IH]; intros Hj; trivial. cbn [forallb]. rewrite W by (apply Hj; now left). rewrite IH; trivial. intros; apply Hj; now right. }
    apply X. intros j Hj. apply in_seq in Hj. lia. }
  rewrite FA. destruct (_ && _ && _) eqn:B; [|discriminate]. assert (NE : l <> []) by (intros ->; cbn in B; discriminate). pose proof (len_pos l NE) as L.
  do 3 f_equal. rewrite (Rsum_map_ext (fun i => ln (INR (length l) / (2 * INR (length l / 2)) * kl_window (map (fun s => ln c + s) s) i)) (fun i => ln (INR (length l) / (2 * INR (length l / 2)) * kl_window s i)))
    by (intros i Hi; apply in_seq in Hi; rewrite W by lia; reflexivity).
  assert (M1 : mean (map (fun s => ln c + s) s) = ln c + mean s).
  { unfold mean. rewrite Rsum_map_plus, Rsum_map_const, map_id, len_map. unfold len. rewrite Ls. fold (len l). field. lra. }
  assert (M2 : mean (map exp (map (fun s => ln c + s) s)) = c * mean (map exp s)).
  { rewrite map_map. rewrite (map_ext (fun x => exp (ln c + x)) (fun x => c * exp x)) by (intros; rewrite exp_plus, exp_ln by trivial; reflexivity). unfold mean. rewrite Rsum_map_scal, !len_map. unfold Rdiv. ring. }
  assert (M3 : mean (map exp s) = mean l).
  { assert (E : map exp s = rsort l) by (unfold s; rewrite map_map; transitivity (map (fun x => x) (rsort l)); [apply map_ext_in; intros; apply exp_ln; auto|apply map_id]). rewrite E. apply mean_perm', rsort_perm. }
  assert (Ev : - (Rsum (map (fun i => ln (INR (length l) / (2 * INR (length l / 2)) * kl_window s i)) (seq 0 (length l))) / INR (length l)) - mean s + mean (map exp s) = v) by congruence.
  rewrite M1, M2, <- Ev, M3. ring.
Qed.
(** plotting positions: the scores of Sb, SB and OK are exponential quantiles, those of REJG quantiles of the smallest
    extreme value distribution at positions symmetric about 1/2 *)
Lemma C97_plotting_positions_holds : forall n beta,
  (forall i, (i < n - 1)%nat -> nth i (wpp_w n) 0 = - ln (1 - INR (S i) / (INR n + 1))) /\
  exists p, (forall i, (i < n)%nat -> nth i (rejg_scores n beta) 0 = ln (- ln (1 - p i)) / beta /\ 0 < p i < 1 /\ p i + p (n - 1 - i)%nat = 1) /\
            (forall i j, (i < j < n)%nat -> p i < p j).
Proof.
  intros n beta. split.
  - intros i Hi. unfold wpp_w. assert (0 <= INR i) by apply pos_INR. assert (INR (S i) + 1 <= INR n) by (rewrite <- S_INR; apply le_INR; lia).
    rewrite (nth_indep _ 0 (ln ((INR n + 1) / (INR n - INR (S 0) + 1)))) by (rewrite map_length, seq_length; lia).
    rewrite (map_nth (fun i => ln ((INR n + 1) / (INR n - INR (S i) + 1)))). rewrite seq_nth by lia. cbn [Nat.add]. rewrite S_INR in *. rewrite <- ln_Rinv.
    + f_equal. field. split; lra.
    + assert ((INR i + 1) / (INR n + 1) < 1); [|lra]. apply (Rmult_lt_reg_r (INR n + 1)); [lra|]. field_simplify; lra.
  - exists (fun i => (INR (S i) - 0.3175) / (INR n + 0.365)). assert (0 <= INR n) by apply pos_INR. split.
    + intros i Hi. assert (INR (S i) <= INR n) by (apply le_INR; lia). assert (0 <= INR i) by apply pos_INR. split; [|split].
      * unfold rejg_scores. rewrite (nth_indep _ 0 (ln (- ln (1 - (INR (S 0) - 0.3175) / (INR n + 0.365))) / beta)) by (rewrite map_length, seq_length; lia).
        rewrite (map_nth (fun i => ln (- ln (1 - (INR (S i) - 0.3175) / (INR n + 0.365))) / beta)). now rewrite seq_nth by lia.
      * rewrite S_INR in *. split; [apply Rdiv_lt_0_compat; lra|]. apply (Rmult_lt_reg_r (INR n + 0.365)); [lra|]. unfold Rdiv. rewrite Rmult_assoc, Rinv_l by lra. lra.
      * replace (S (n - 1 - i)) with (n - i)%nat by lia. rewrite minus_INR, S_INR by lia. rewrite <- Rdiv_plus_distr. replace (INR i + 1 - 0.3175 + (INR n - INR i - 0.3175)) with (INR n + 0.365) by lra. apply Rinv_r. lra.
    + intros i j Hij. apply Rmult_lt_compat_r; [apply Rinv_0_lt_compat; lra|]. assert (INR (S i) < INR (S j)) by (apply lt_INR; lia). lra.
Qed.
(** the cells of the chi-square class for a sample of equal values are laid out symmetrically about the value *)
Lemma C97_constant_cells_holds : forall x n k i, (1 <= k)%nat -> (i <= k)%nat -> let l := repeat x (S n) in
  chi2_edge l k i + chi2_edge l k (k - i) = 2 * x /\ chi2_edge l k k - chi2_edge l k 0 = 1.
Proof.
  intros x n k i Hk Hi l. assert (M : Rminl 0 l = x /\ Rmaxl 0 l = x).
  { unfold l. clear. induction n as [|n [A B]]; [now split|]. change (repeat x (S (S n))) with (x :: repeat x (S n)). cbn [repeat] in *. rewrite Rmaxl_cons. change (Rminl 0 (x :: x :: repeat x n)) with (Rmin x (Rminl 0 (x :: repeat x n))). rewrite A, B. split; [apply Rmin_left|apply Rmax_left]; lra. }
  unfold chi2_edge, chi2_range. destruct M as [-> ->]. rewrite (proj2 (Reqb_true x x)) by reflexivity. cbn [fst snd]. rewrite minus_INR by lia.
  assert (0 < INR k) by (apply lt_0_INR; lia). simpl (INR 0). replace 0.5 with (1 / 2) by lra. split; field; lra.
Qed.
