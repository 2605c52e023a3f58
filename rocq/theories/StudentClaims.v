(** Properties C47, C48, C50, C54, C61, C63, C64, C65, C67, C86, C87 and C88 for the Student statistics. *)
From Coq Require Import String.
From Verif Require Import Base DecModel EdfModel EdfSpec GraphModel RegistryModel NormalLaw ExpModel ExpSpec NormModel NormSpec StudentModel StudentSpec EdfProofs EdfRotProofs EdfPowerProofs NormProofs NormSymProofs NormReflProofs NormRangeProofs NormFiniteProofs NormBoundProofs EdfClaims ExpClaims StudentProofs.
From Coq Require Import Lra Lia.
Local Open Scope string_scope.
Local Open Scope R_scope.

Ltac each H := cbn [student_statistics In] in H; repeat destruct H as [H|H]; [..|contradiction].
Ltac pickf H := injection H as <- <-.
(** the table contains every Student class of the registry *)
Lemma C54_student_complete_holds : forall T Q A c, In c stat_classes -> sc_dist c = STUDENT ->
  In (sc_name c) (map fst (student_statistics T Q A)).
Proof.
  intros T Q A c Hc Hd. assert (B : forallb (fun c => match sc_dist c with STUDENT => existsb (String.eqb (sc_name c))
    ["KolmogorovSmirnovStudentGofStatistic"; "AndersonDarlingStudentGofStatistic"; "CramerVonMisesStudentGofStatistic";
  "KuiperStudentGofStatistic"; "WatsonStudentGofStatistic"; "ZhangZcStudentGofStatistic"; "ZhangZaStudentGofStatistic";
  "LillieforsStudentGofStatistic"; "ChiSquareStudentGofStatistic"] | _ => true end) stat_classes = true) by (vm_compute; reflexivity).
  rewrite forallb_forall in B. specialize (B c Hc). rewrite Hd in B. apply existsb_exists in B. destruct B as (x & Hx & E).
  apply String.eqb_eq in E. rewrite E. exact Hx.
Qed.
(** *** C47, C48, C50 *)
(** the statistic of KolmogorovSmirnovStudentGofStatistic is the distance between the empirical distribution and the
    hypothesised one, and the Lilliefors class reports the distance to the standard t distribution *)
Lemma C47_student_holds : forall T Q A l, student_law T Q -> 0 < st_df A -> 0 < st_scale A -> st_alt A = TWO_TAILED -> l <> [] ->
  (exists f d, In ("KolmogorovSmirnovStudentGofStatistic", f) (student_statistics T Q A) /\
     nvalue (f l) = Ok (Some (Fin d)) /\ supremum (fun x => Rabs (edf l x - T (st_df A) ((x - st_loc A) / st_scale A))) d) /\
  (exists f d, In ("LillieforsStudentGofStatistic", f) (student_statistics T Q A) /\
     nvalue (f l) = Ok (Some (Fin d)) /\ supremum (fun x => Rabs (edf l x - T (st_df A) x)) d).
Proof.
  intros T Q A l HL Hd Hs Ha Hne. split.
  - destruct (proj1 (C47_ks_is_sup_distance_holds _ l (student_continuous T Q HL _ (st_loc A) _ Hd Hs) Hne)) as (d & E & S).
    eexists; exists d. split; [left; reflexivity|]. split; [|exact S]. cbn [nreads nvalue]. now rewrite Ha, E.
  - destruct (proj1 (C47_ks_is_sup_distance_holds _ l (sl_cdf _ _ HL _ Hd) Hne)) as (d & E & S).
    eexists; exists d. split; [do 7 right; left; reflexivity|]. split; [|exact S]. cbn. now rewrite E.
Qed.
Lemma C48_student_holds : forall T Q A name f l v, student_law T Q -> 0 < st_df A -> 0 < st_scale A -> st_alt A = TWO_TAILED -> l <> [] ->
  In (name, f) (student_statistics T Q A) -> nvalue (f l) = Ok (Some (Fin v)) ->
  (In name ["KolmogorovSmirnovStudentGofStatistic"; "LillieforsStudentGofStatistic"] -> 1 / (2 * len l) <= v <= 1) /\
  (In name ["CramerVonMisesStudentGofStatistic"; "WatsonStudentGofStatistic"] -> 1 / (12 * len l) <= v <= len l / 3) /\
  (name = "KuiperStudentGofStatistic" -> 1 / len l <= v <= 1).
Proof.
  intros T Q A name f l v HL Hd Hs Ha Hne H Hv. set (F := student_cdf T (st_df A) (st_loc A) (st_scale A)) in *.
  destruct (student_continuous T Q HL _ (st_loc A) _ Hd Hs) as (M & B & _).
  pose proof (C48_ranges_holds F l M B Hne) as K. cbv zeta in K. fold (len l) in K.
  destruct K as ((d & Kd & Rd) & (w & Kw & Rw) & (k & Kk & Rk) & (u & Ku & Ru) & _).
  destruct (sl_cdf _ _ HL _ Hd) as (M' & B' & _).
  pose proof (proj1 (C48_ranges_holds _ l M' B' Hne)) as (d' & Kd' & Rd'). fold (len l) in Rd'.
  assert (G : forall x, Ok (Some (Fin x)) = Ok (Some (Fin v)) -> x = v) by (intros x Hx; congruence).
  each H; pickf H; cbn [nreads nvalue] in Hv; rewrite ?Ha in Hv; fold F in Hv; split; [|split| |split| |split| |split| |split| |split| |split| |split| |split];
    intros N; try discriminate N; try (exfalso; cbn [In] in N; intuition discriminate).
  - rewrite Kd in Hv. apply G in Hv. now subst.
  - rewrite Kw in Hv. apply G in Hv. now subst.
  - rewrite Kk in Hv. apply G in Hv. now subst.
  - rewrite Ku in Hv. apply G in Hv. now subst.
  - rewrite Kd' in Hv. apply G in Hv. now subst.
Qed.
(** t observations are never outside the support: the Anderson-Darling statistic is always finite *)
Lemma C50_student_holds : forall T Q A l, student_law T Q -> 0 < st_df A -> l <> [] ->
  exists f v, In ("AndersonDarlingStudentGofStatistic", f) (student_statistics T Q A) /\ nvalue (f l) = Ok (Some (Fin v)) /\ 0 <= v.
Proof.
  intros T Q A l HL Hd Hne.
  destruct (C50_ad_nonnegative_holds (student_cdf T (st_df A) (st_loc A) (st_scale A)) l Hne) as (v & E & Hv).
  { intros x _. now apply (student_inside T Q HL). }
  eexists; exists v. split; [right; left; reflexivity|]. split; [|exact Hv]. cbn [nreads nvalue]. now rewrite E.
Qed.
(** *** C54, C64 *)
Lemma C54_student_holds : forall T Q A name f l l', In (name, f) (student_statistics T Q A) -> Permutation l l' ->
  nvalue (f l) = nvalue (f l').
Proof.
  intros T Q A name f l l' H P. assert (E : rsort l = rsort l') by now apply rsort_perm_eq.
  assert (L : len l = len l') by (unfold len; now rewrite (Permutation_length P)).
  each H; pickf H; cbn [nreads nvalue]; unfold zhang_zc_student, zhang_za_student, clipped_cdf, ks_stat, ad_stat, cvm_stat, kuiper_stat, watson_stat, cdf_vals;
    rewrite ?E; try reflexivity.
  unfold chi2_student. rewrite L. now rewrite (histogram_perm _ _ _ (Permutation_map _ P)).
Qed.
Lemma C64_student_holds : forall T Q A name f l, In (name, f) (student_statistics T Q A) -> nsample_after (f l) = l.
Proof. intros T Q A name f l H. each H; pickf H; reflexivity. Qed.
(** *** C61 *)
Lemma std_relocate a b loc scale x : 0 < b -> 0 < scale -> (a + b * x - (a + b * loc)) / (b * scale) = (x - loc) / scale.
Proof. intros. field. lra. Qed.
Lemma cdf_vals_relocate T df a b loc scale l : 0 < b -> 0 < scale ->
  cdf_vals (student_cdf T df (a + b * loc) (b * scale)) (relocate a b l) = cdf_vals (student_cdf T df loc scale) l.
Proof.
  intros Hb Hs. unfold cdf_vals, relocate. rewrite rsort_map_mono by (intros x y Hxy; nra). rewrite map_map. apply map_ext.
  intros x. unfold student_cdf. now rewrite std_relocate.
Qed.
(** the location and the scale are used: a relocated sample tested against the relocated hypothesis *)
Lemma C61_student_holds : forall T Q df loc scale alt bins a b name f l, 0 < b -> 0 < scale ->
  name <> "LillieforsStudentGofStatistic" ->
  In (name, f) (student_statistics T Q (StudentArgs df loc scale alt bins)) ->
  exists g, In (name, g) (student_statistics T Q (StudentArgs df (a + b * loc) (b * scale) alt bins)) /\
            nvalue (g (relocate a b l)) = nvalue (f l).
Proof.
  intros T Q df loc scale alt bins a b name f l Hb Hs Hn H.
  each H; pickf H; try congruence; (eexists; split; [cbn [student_statistics In]; repeat (first [left; reflexivity|right])|]);
    cbn [nreads nvalue st_df st_loc st_scale st_alt st_bins]; unfold zhang_zc_student, zhang_za_student, clipped_cdf, ks_stat, ad_stat, cvm_stat, kuiper_stat, watson_stat;
    rewrite ?cdf_vals_relocate by assumption; try reflexivity.
  unfold chi2_student, relocate. rewrite map_map. replace (len (map (fun x => a + b * x) l)) with (len l) by (unfold len; now rewrite map_length).
  rewrite (map_ext (fun x => (a + b * x - (a + b * loc)) / (b * scale)) (fun x => (x - loc) / scale)); [reflexivity|].
  intros x. now apply std_relocate.
Qed.
(** the Lilliefors class has no location and scale: it is the Kolmogorov-Smirnov test of the standard t distribution *)
Lemma C61_student_lilliefors_holds : forall T Q df loc scale alt bins l, exists f g,
  In ("LillieforsStudentGofStatistic", f) (student_statistics T Q (StudentArgs df loc scale alt bins)) /\
  In ("KolmogorovSmirnovStudentGofStatistic", g) (student_statistics T Q (StudentArgs df 0 1 TWO_TAILED bins)) /\
  nvalue (f l) = nvalue (g l).
Proof.
  intros T Q df loc scale alt bins l. eexists; eexists. split; [do 7 right; left; reflexivity|].
  split; [left; reflexivity|]. cbn [nreads nvalue st_df st_loc st_scale st_alt st_bins]. f_equal.
  unfold ks_stat, cdf_vals. f_equal. apply map_ext. intros x. unfold student_cdf. f_equal. field.
Qed.
(** *** C63 *)
Lemma C63_student_holds : forall T Q A name f l, student_law T Q -> 0 < st_df A -> (1 <= st_bins A)%nat ->
  In (name, f) (student_statistics T Q A) -> l <> [] -> exists v, nvalue (f l) = Ok (Some (Fin v)).
Proof.
  intros T Q A name f l HL Hd Hb H Hne.
  assert (Hu : forall F, cdf_vals F l <> []) by (intros F; apply map_ne, rsort_ne, Hne).
  each H; pickf H; cbn [nreads nvalue].
  - apply ks_fin, Hu.
  - destruct (C50_ad_nonnegative_holds (student_cdf T (st_df A) (st_loc A) (st_scale A)) l Hne) as (v & E & _).
    { intros x _. now apply (student_inside T Q HL). }
    exists v. now rewrite E.
  - apply cvm_fin, Hu.
  - unfold kuiper_stat. rewrite kuiper_eval by apply Hu. eexists; reflexivity.
  - unfold watson_stat. rewrite watson_eval by apply Hu. eexists; reflexivity.
  - eexists; reflexivity.
  - eexists; reflexivity.
  - apply ks_fin, Hu.
  - unfold chi2_student. set (h := histogram _ _). assert (HB : 0 < INR (st_bins A)) by (apply lt_0_INR; lia).
    pose proof (len_pos l Hne) as Hl.
    assert (E : len l / INR (st_bins A) <> 0) by (apply Rgt_not_eq, Rdiv_lt_0_compat; lra).
    replace (repeat (len l / INR (st_bins A)) (st_bins A)) with (repeat (len l / INR (st_bins A)) (length (map INR h))).
    2:{ f_equal. unfold h. rewrite map_length, histogram_length, map_length, seq_length. lia. }
    unfold power_divergence. rewrite pd1_sum by exact E. eexists; reflexivity.
Qed.
(** *** C67 *)
Lemma C67_student_constructor_holds : forall df loc scale,
  ((exists p, student_ctor df loc scale = Ok p) <-> 0 < df /\ 0 < scale) /\
  (student_ctor df loc scale = Raise ValueError <-> df <= 0 \/ scale <= 0).
Proof.
  intros df loc scale. unfold student_ctor. destruct (Rleb_spec df 0); [|destruct (Rleb_spec scale 0)].
  - split; split; intros K; auto; [destruct K as (p & K); discriminate|lra].
  - split; split; intros K; auto; [destruct K as (p & K); discriminate|lra].
  - split; split; intros K; auto; [eexists; reflexivity|discriminate|lra].
Qed.
(** *** C88 *)
(** the Zhang statistics are never negative, Za is positive *)
Lemma C88_student_zhang_holds : forall T Q A l, l <> [] -> exists f g v w,
  In ("ZhangZcStudentGofStatistic", f) (student_statistics T Q A) /\ In ("ZhangZaStudentGofStatistic", g) (student_statistics T Q A) /\
  nvalue (f l) = Ok (Some (Fin v)) /\ 0 <= v /\ nvalue (g l) = Ok (Some (Fin w)) /\ 0 < w.
Proof.
  intros T Q A l Hne. eexists; eexists; eexists; eexists. split; [do 5 right; left; reflexivity|]. split; [do 6 right; left; reflexivity|].
  split; [reflexivity|]. split; [apply zhang_zc_nonneg|]. split; [reflexivity|]. apply zhang_za_pos.
  - apply map_ne, map_ne, rsort_ne, Hne.
  - intros x Hx. apply in_map_iff in Hx. destruct Hx as (y & <- & _). apply clip_inside.
Qed.
Lemma zc_decreases T df loc scale l x y : (forall z, In z l -> z <= x) -> x <= y ->
  np_clip (student_cdf T df loc scale x) < np_clip (student_cdf T df loc scale y) ->
  zhang_zc_of (clipped_cdf T df loc scale (y :: l)) < zhang_zc_of (clipped_cdf T df loc scale (x :: l)).
Proof.
  intros Hm Hxy Hc. unfold clipped_cdf, cdf_vals.
  assert (E : forall t, (forall z, In z l -> z <= t) -> rsort (t :: l) = (rsort l ++ [t])%list).
  { intros t Ht. apply rsort_unique.
    - transitivity (t :: rsort l); [apply perm_skip, Permutation_sym, rsort_perm|apply Permutation_cons_append].
    - apply sorted_snoc. split; [apply rsort_sorted|]. intros z Hz. apply Ht, rsort_in, Hz. }
  rewrite (E x Hm), (E y) by (intros z Hz; specialize (Hm z Hz); lra).
  rewrite !map_app. cbn [map]. rewrite !zhang_zc_snoc. apply Rplus_lt_compat_l.
  apply sq_ln_lt, odds_lt; [apply clip_range|exact Hc|apply clip_range].
Qed.
(** *** C65 *)
(** the Zhang Zc statistic declares a right-tailed alternative, but moving the largest observation further into the
    tail, however far, makes the value smaller: the last reference odds are clipped to 1e-10 *)
Lemma C65_student_zhang_zc_refuted_holds : forall T Q A f l x y, student_law T Q -> 0 < st_df A -> 0 < st_scale A ->
  In ("ZhangZcStudentGofStatistic", f) (student_statistics T Q A) ->
  (forall z, In z l -> z <= x) -> x < y -> / 10 ^ 10 <= student_cdf T (st_df A) (st_loc A) (st_scale A) x ->
  student_cdf T (st_df A) (st_loc A) (st_scale A) y <= 1 - / 10 ^ 10 ->
  declares "ZhangZcStudentGofStatistic" RIGHT /\
  exists v w, nvalue (f (y :: l)) = Ok (Some (Fin v)) /\ nvalue (f (x :: l)) = Ok (Some (Fin w)) /\ v < w.
Proof.
  intros T Q A f l x y HL Hd Hs H Hm Hxy Hx Hy. split; [apply declared; vm_compute; reflexivity|].
  assert (E : f = nreads (zhang_zc_student T (st_df A) (st_loc A) (st_scale A))) by (each H; try discriminate H; now injection H as <-).
  subst f. eexists; eexists. split; [reflexivity|]. split; [reflexivity|].
  pose proof (student_increasing T Q HL _ (st_loc A) _ Hd Hs x y Hxy) as I. pose proof eps_small as He. unfold clip_eps in He.
  apply zc_decreases; [exact Hm|lra|]. apply clip_lt; unfold clip_eps in *; lra.
Qed.
Lemma rev_repeat0 {A} (x : A) k : rev (repeat x k) = repeat x k.
Proof.
  induction k as [|k IH]; [reflexivity|]. cbn [repeat rev]. rewrite IH. clear. induction k as [|k IH]; [reflexivity|].
  cbn. f_equal. exact IH.
Qed.
(** *** C87 *)
(** the t distribution is symmetric, so mirroring the sample at the centre of the hypothesis does not change the value;
    the one-sided Kolmogorov-Smirnov statistics change places; bins are half open, so no observation may be an edge *)
Lemma C87_student_mirror_holds : forall T Q df loc scale alt bins name f l, student_law T Q -> 0 < df -> 0 < scale ->
  (forall x i, In x l -> (1 <= i < bins)%nat -> student_cdf T df loc scale x <> INR i / INR bins) ->
  name <> "ZhangZcStudentGofStatistic" ->
  In (name, f) (student_statistics T Q (StudentArgs df loc scale alt bins)) ->
  exists g, In (name, g) (student_statistics T Q (StudentArgs df (- loc) scale (opposite alt) bins)) /\
            nvalue (g (map Ropp l)) = nvalue (f l).
Proof.
  intros T Q df loc scale alt bins name f l HL Hd Hs Hed Hn H.
  assert (E : forall lo, cdf_vals (student_cdf T df (- lo) scale) (map Ropp l) = flip (cdf_vals (student_cdf T df lo scale) l)).
  { intros lo. unfold cdf_vals. fold (neg l). rewrite rsort_neg. unfold flip. rewrite map_rev, !map_map. f_equal. unfold neg. rewrite map_map. apply map_ext.
    intros x. unfold student_cdf. rewrite <- (sl_symmetric _ _ HL) by exact Hd. f_equal. field. lra. }
  assert (E0 : cdf_vals (T df) (map Ropp l) = flip (cdf_vals (T df) l)).
  { unfold cdf_vals. fold (neg l). rewrite rsort_neg. unfold flip. rewrite map_rev, !map_map. f_equal. unfold neg. rewrite map_map. apply map_ext.
    intros x. apply (sl_symmetric _ _ HL), Hd. }
  assert (Hop : swap (opposite alt) = alt) by now destruct alt.
  each H; pickf H; try congruence; (eexists; split; [cbn [student_statistics In]; repeat (first [left; reflexivity|right])|]);
    cbn [nreads nvalue st_df st_loc st_scale st_alt st_bins].
  - unfold ks_stat. now rewrite E, ks_flip, Hop.
  - unfold ad_stat. now rewrite E, ad_flip.
  - unfold cvm_stat. now rewrite E, cvm_flip.
  - unfold kuiper_stat. rewrite E. unfold kuiper_of. rewrite d_plus_flip, d_minus_flip, !np_max_rev. unfold np_max.
    destruct (d_minus _) eqn:E1, (d_plus _) eqn:E2; try reflexivity. cbn [bind]. now rewrite Rplus_comm.
  - unfold watson_stat. rewrite E. unfold watson_of. rewrite cvm_flip, flip_len.
    destruct (cdf_vals (student_cdf T df loc scale) l) as [|v us] eqn:Eu; [reflexivity|]. rewrite mean_flip by discriminate.
    destruct (cvm_do_execute _); [|reflexivity]. cbn [bind]. do 2 f_equal. lra.
  - unfold zhang_za_student, clipped_cdf. now rewrite E, map_clip_flip, zhang_za_flip.
  - unfold ks_stat. now rewrite E0, (ks_flip TWO_TAILED).
  - unfold chi2_student. set (inner := map _ (seq 0 (bins - 1))).
    replace (map (fun x => (x - - loc) / scale) (map Ropp l)) with (neg (map (fun x => (x - loc) / scale) l)).
    2:{ unfold neg. rewrite !map_map. apply map_ext. intros x. field. lra. }
    assert (HP : forall i, (i < bins - 1)%nat -> 0 < INR (S i) / INR bins < 1).
    { intros i Hi. assert (0 < INR (S i)) by (apply lt_0_INR; lia). assert (INR (S i) < INR bins) by (apply lt_INR; lia). split.
      - apply Rdiv_lt_0_compat; lra.
      - apply (Rmult_lt_reg_r (INR bins)); [lra|]. unfold Rdiv. rewrite Rmult_assoc, Rinv_l by lra. lra. }
    assert (Tinj : forall u v, T df u = T df v -> u = v).
    { intros u v Huv. destruct (Rtotal_order u v) as [L|[L|L]]; auto; apply (sl_increasing _ _ HL df) in L; auto; lra. }
    assert (Tle : forall u v, T df u <= T df v -> u <= v).
    { intros u v Huv. destruct (Rle_lt_dec u v) as [L|L]; auto. apply (sl_increasing _ _ HL df) in L; auto; lra. }
    rewrite (histogram_mirror inner).
    + replace (len (map Ropp l)) with (len l) by (unfold len; now rewrite map_length). set (h := histogram _ _).
      destruct l as [|x0 l0]; [| set (l := x0 :: l0) in *].
      * assert (HH : h = repeat 0%nat (length h)).
        { unfold h. cbn [map]. generalize inner. clear. intros inner. induction inner as [|e inner IH]; [reflexivity|]. cbn. f_equal. exact IH. }
        rewrite HH, rev_repeat0. reflexivity.
      * destruct bins as [|b0] eqn:Eb.
        -- cbn [repeat]. unfold power_divergence. generalize (map INR (rev h)) (map INR h). intros a b. destruct a, b; reflexivity.
        -- assert (Lh : length h = S b0) by (unfold h; rewrite histogram_length; unfold inner; rewrite map_length, seq_length; lia).
           assert (Hx : len l / INR (S b0) <> 0).
           { apply Rgt_not_eq, Rdiv_lt_0_compat; [apply len_pos; discriminate|apply lt_0_INR; lia]. }
           replace (repeat (len l / INR (S b0)) (S b0)) with (repeat (len l / INR (S b0)) (length (map INR h))) by (rewrite map_length; now rewrite Lh).
           unfold power_divergence. rewrite pd1_sum by exact Hx.
           replace (length (map INR h)) with (length (map INR (rev h))) by now rewrite !map_length, rev_length.
           rewrite pd1_sum by exact Hx. rewrite !map_rev, Rsum_rev. reflexivity.
    + unfold inner. apply sorted_seq. intros i j Hij. apply Tle. rewrite !(sl_inverse _ _ HL) by (auto; apply HP; lia).
      apply Rmult_le_compat_r; [left; apply Rinv_0_lt_compat, lt_0_INR; lia|apply le_INR; lia].
    + unfold inner. apply antisym_seq. intros i Hi. apply Tinj. rewrite (sl_symmetric _ _ HL) by exact Hd.
      rewrite !(sl_inverse _ _ HL) by (auto; apply HP; lia). replace (S (bins - 1 - 1 - i)) with (bins - S i)%nat by lia.
      rewrite minus_INR by lia. field. apply not_0_INR. lia.
    + intros x Hx Hin. apply in_map_iff in Hx. destruct Hx as (x' & <- & Hx). unfold inner in Hin. apply in_map_iff in Hin.
      destruct Hin as (i & Ei & Hi). apply in_seq in Hi. apply (Hed x' (S i) Hx); [lia|]. unfold student_cdf. rewrite <- Ei.
      apply (sl_inverse _ _ HL); [exact Hd|]. apply HP. lia.
Qed.
(** the Zhang Zc statistic treats the two tails differently, already for one observation *)
Lemma C87_student_zhang_zc_refuted_holds : forall T Q A f, student_law T Q -> 0 < st_df A -> st_loc A = 0 -> st_scale A = 1 ->
  In ("ZhangZcStudentGofStatistic", f) (student_statistics T Q A) -> nvalue (f (map Ropp [1])) <> nvalue (f [1]).
Proof.
  intros T Q A f HL Hd Hl Hs H.
  assert (E : f = nreads (zhang_zc_student T (st_df A) (st_loc A) (st_scale A))) by (each H; try discriminate H; now injection H as <-).
  subst f. rewrite Hl, Hs. cbn [nreads nvalue map]. intros EE.
  assert (V : zhang_zc_of (clipped_cdf T (st_df A) 0 1 [- (1)]) = zhang_zc_of (clipped_cdf T (st_df A) 0 1 [1])) by (unfold zhang_zc_student, num in EE; congruence).
  pose proof (sl_increasing _ _ HL (st_df A) (- (1)) 1 Hd ltac:(lra)) as I.
  pose proof (sl_symmetric _ _ HL (st_df A) 1 Hd) as S. pose proof eps_small as He.
  pose proof (zc_decreases T (st_df A) 0 1 [] (- (1)) 1) as Z. rewrite V in Z. apply (Rlt_irrefl (zhang_zc_of (clipped_cdf T (st_df A) 0 1 [1]))).
  apply Z; [intros z []|lra|]. unfold student_cdf. replace ((1 - 0) / 1) with 1 by field. replace ((- (1) - 0) / 1) with (- (1)) by field.
  apply clip_lt; lra.
Qed.
(** *** C86 *)
(** hypothesis() of the other families determines the parameters *)
Lemma C86_parameters_reported_holds :
  (forall l l', exponential_hypothesis l = exponential_hypothesis l' -> l = l') /\
  (forall p p', gamma_hypothesis p = gamma_hypothesis p' -> p = p') /\
  (forall p p', beta_hypothesis p = beta_hypothesis p' -> p = p') /\
  (forall p p', uniform_hypothesis p = uniform_hypothesis p' -> p = p') /\
  (forall p p', lognormal_hypothesis p = lognormal_hypothesis p' -> p = p') /\
  (forall p p', weibull_hypothesis p = weibull_hypothesis p' -> p = p').
Proof.
  assert (X : forall (a b a' b' : string) (p p' : R * R), [(a, fst p); (b, snd p)] = [(a', fst p'); (b', snd p')] -> p = p').
  { intros a b a' b' [u v] [u' v'] H. injection H. cbn. congruence. }
  repeat split; intros p p' H; try (apply X in H; exact H). injection H. auto.
Qed.
(** and names each of them once *)
Lemma C86_parameter_names_distinct_holds :
  (forall p, NoDup (map fst (gamma_hypothesis p))) /\ (forall p, NoDup (map fst (beta_hypothesis p))) /\
  (forall p, NoDup (map fst (uniform_hypothesis p))) /\ (forall p, NoDup (map fst (lognormal_hypothesis p))) /\
  (forall p, NoDup (map fst (weibull_hypothesis p))).
Proof. repeat split; intros p; cbn; repeat constructor; simpl; intuition discriminate. Qed.
(** the names are the keywords of the constructors (exponent.py:40, gamma.py:43, beta.py:28, uniform.py:25, log_normal.py:25,
    weibull.py:35), so a report can be passed back to the constructor *)
Lemma C86_parameter_keywords_holds :
  (forall l, map fst (exponential_hypothesis l) = ["lam"]) /\ (forall p, map fst (gamma_hypothesis p) = ["alpha"; "beta"]) /\
  (forall p, map fst (beta_hypothesis p) = ["alpha"; "beta"]) /\ (forall p, map fst (uniform_hypothesis p) = ["a"; "b"]) /\
  (forall p, map fst (lognormal_hypothesis p) = ["s"; "scale"]) /\ (forall p, map fst (weibull_hypothesis p) = ["a"; "k"]).
Proof. repeat split. Qed.
(** hypothesis() of a Student statistic does not: two hypotheses that differ in the location (or scale) are reported
    as the same one although the statistic distinguishes them *)
Lemma C86_student_hypothesis_refuted_holds : forall T Q df loc, student_law T Q -> 0 < df -> loc <> 0 ->
  exists p p', student_ctor df 0 1 = Ok p /\ student_ctor df loc 1 = Ok p' /\ p <> p' /\ student_hypothesis p = student_hypothesis p' /\
    ks_stat (student_cdf T df 0 1) TWO_TAILED [0] <> ks_stat (student_cdf T df loc 1) TWO_TAILED [0].
Proof.
  intros T Q df loc HL Hd Hl. exists (df, 0, 1), (df, loc, 1). unfold student_ctor.
  rewrite (proj2 (Rleb_false df 0)) by lra. rewrite (proj2 (Rleb_false 1 0)) by lra.
  split; [reflexivity|]. split; [reflexivity|]. split; [congruence|]. split; [reflexivity|].
  assert (K : forall F : R -> R, ks_stat F TWO_TAILED [0] = Ok (Rmax (1 - F 0) (F 0))).
  { intros F. unfold ks_stat, cdf_vals. simpl rsort. cbn [map]. rewrite ks_eval by discriminate. f_equal.
    unfold dpv, dmv, d_plus, d_minus, imap, len. simpl. f_equal; field. }
  rewrite !K. unfold student_cdf. replace ((0 - 0) / 1) with 0 by field. replace ((0 - loc) / 1) with (- loc) by field.
  pose proof (sl_symmetric _ _ HL df 0 Hd) as S0. rewrite Ropp_0 in S0.
  assert (N : T df (- loc) <> T df 0).
  { destruct (Rtotal_order (- loc) 0) as [L|[L|L]]; [|lra|]; apply (sl_increasing _ _ HL df) in L; auto; lra. }
  intros EE. injection EE as EE. revert EE. unfold Rmax. repeat destruct (Rle_dec _ _); lra.
Qed.
(** not vacuous: the Cauchy distribution, that is the t distribution with one degree of freedom *)
Lemma C86_nonvacuous_holds : student_law (fun _ => cauchy_cdf) (fun _ => cauchy_ppf).
Proof. exact cauchy_law. Qed.
Lemma C87_nonvacuous_holds : forall x i, In x [2; -5] -> (1 <= i < 2)%nat -> cauchy_cdf ((x - 0) / 1) <> INR i / INR 2.
Proof.
  intros x i Hx Hi. assert (E : i = 1%nat) by lia. subst i. simpl (INR 1). simpl (INR 2).
  assert (C0 : cauchy_cdf 0 = 1 / 2) by (unfold cauchy_cdf; rewrite atan_0; field; pose proof PI_RGT_0; lra).
  destruct Hx as [<-|[<-|[]]].
  - pose proof (cauchy_increasing 0 ((2 - 0) / 1) ltac:(lra)). lra.
  - pose proof (cauchy_increasing ((-5 - 0) / 1) 0 ltac:(lra)). lra.
Qed.
