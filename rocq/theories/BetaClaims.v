(** Properties C47, C48, C50, C53, C54, C61, C63, C64, C65, C67, C87 and C88 for the beta statistics. *)
From Coq Require Import String.
From Verif Require Import Base DecModel EdfModel EdfSpec GraphModel RegistryModel NormalLaw ExpModel ExpSpec NormModel NormSpec BetaModel BetaSpec EdfProofs EdfRotProofs EdfPowerProofs NormProofs NormSymProofs NormReflProofs NormRangeProofs NormFiniteProofs NormBoundProofs EdfClaims ExpClaims BetaProofs.
From Coq Require Import Lra Lia.
Local Open Scope string_scope.
Local Open Scope R_scope.

Ltac each H := cbn [beta_statistics In] in H; repeat destruct H as [H|H]; [..|contradiction].
Ltac pickf H := first [injection H as <- <- | injection H as <-].
Ltac inlist := cbn [beta_statistics In]; repeat (first [left; reflexivity|right]).
(** the table contains every beta class of the registry *)
Lemma C54_beta_complete_holds : forall B psi betaln A c, In c stat_classes -> sc_dist c = BETA ->
  In (sc_name c) (map fst (beta_statistics B psi betaln A)).
Proof.
  intros B psi betaln A c Hc Hd. assert (K : forallb (fun c => match sc_dist c with BETA => existsb (String.eqb (sc_name c))
    (map fst (beta_statistics (fun _ _ _ => 0) (fun _ => 0) (fun _ _ => 0) (BetaArgs 0 0 LEFT 0))) | _ => true end) stat_classes = true) by (vm_compute; reflexivity).
  rewrite forallb_forall in K. specialize (K c Hc). rewrite Hd in K. apply existsb_exists in K. destruct K as (x & Hx & E).
  apply String.eqb_eq in E. rewrite E. exact Hx.
Qed.
(** *** C67 *)
Lemma C67_beta_constructor_holds : forall alpha beta,
  ((exists p, beta_ctor alpha beta = Ok p) <-> 0 < alpha /\ 0 < beta) /\
  (beta_ctor alpha beta = Raise ValueError <-> alpha <= 0 \/ beta <= 0) /\
  ((exists p, beta_mode_ctor alpha beta = Ok p) <-> 1 < alpha /\ 1 < beta) /\
  (beta_mode_ctor alpha beta = Raise ValueError <-> alpha <= 1 \/ beta <= 1).
Proof.
  intros alpha beta. unfold beta_mode_ctor, beta_ctor.
  destruct (Rleb_spec alpha 1), (Rleb_spec beta 1), (Rleb_spec alpha 0), (Rleb_spec beta 0); try lra;
    repeat split; intros; try discriminate; try lra; try (eexists; reflexivity); trivial;
    repeat match goal with H : exists _, Raise _ = _ |- _ => destruct H; discriminate | H : _ /\ _ |- _ => destruct H end; lra.
Qed.
(** every class refuses observations outside [0,1], whatever the rest of the sample *)
Lemma C67_beta_refuses_outside_holds : forall B psi betaln A name f l, In (name, f) (beta_statistics B psi betaln A) ->
  (exists x, In x l /\ (x < 0 \/ 1 < x)) -> nvalue (f l) = Raise ValueError.
Proof.
  intros B psi betaln A name f l H (x & Hx & Ho). assert (N : ~ in_unit l) by (intros U; specialize (U x Hx); lra).
  each H; pickf H; cbn [nreads nvalue]; now apply validated_raise.
Qed.
(** *** C47, C48, C50, C53 *)
Lemma C47_beta_holds : forall B psi betaln A l, beta_law B betaln -> 0 < ba_alpha A -> 0 < ba_beta A -> ba_alt A = TWO_TAILED -> l <> [] -> in_unit l ->
  exists f g d, In ("KolmogorovSmirnovBetaGofStatistic", f) (beta_statistics B psi betaln A) /\
     In ("LillieforsTestBetaGofStatistic", g) (beta_statistics B psi betaln A) /\
     nvalue (f l) = Ok (Some (Fin d)) /\ nvalue (g l) = Ok (Some (Fin d)) /\
     supremum (fun x => Rabs (edf l x - B (ba_alpha A) (ba_beta A) x)) d.
Proof.
  intros B psi betaln A l HL Ha Hb Ht Hne U.
  destruct (proj1 (C47_ks_is_sup_distance_holds _ l (bl_cdf _ _ HL _ _ Ha Hb) Hne)) as (d & E & S).
  eexists; eexists; exists d. split; [left; reflexivity|]. split; [inlist|]. cbn [nreads nvalue]. rewrite !validated_ok by trivial. rewrite Ht, E. auto.
Qed.
Lemma C48_beta_holds : forall B psi betaln A name f l v, beta_law B betaln -> 0 < ba_alpha A -> 0 < ba_beta A -> ba_alt A = TWO_TAILED -> l <> [] ->
  In (name, f) (beta_statistics B psi betaln A) -> nvalue (f l) = Ok (Some (Fin v)) ->
  (In name ["KolmogorovSmirnovBetaGofStatistic"; "LillieforsTestBetaGofStatistic"] -> 1 / (2 * len l) <= v <= 1) /\
  (In name ["CrammerVonMisesBetaGofStatistic"; "WatsonBetaGofStatistic"] -> 1 / (12 * len l) <= v <= len l / 3) /\
  (name = "KuiperBetaGofStatistic" -> 1 / len l <= v <= 1).
Proof.
  intros B psi betaln A name f l v HL Hd Hs Ha Hne H Hv. set (F := B (ba_alpha A) (ba_beta A)) in *.
  destruct (bl_cdf _ _ HL _ _ Hd Hs) as (M & Bd & _). fold F in M, Bd.
  pose proof (C48_ranges_holds F l M Bd Hne) as K. cbv zeta in K. fold (len l) in K.
  destruct K as ((d & Kd & Rd) & (w & Kw & Rw) & (k & Kk & Rk) & (u & Ku & Ru) & _).
  assert (I : forall x, Ok (Some (Fin x)) = Ok (Some (Fin v)) -> x = v) by (intros x Hx; congruence).
  assert (VV : forall g, beta_validated g l = Ok (Some (Fin v)) -> g l = Ok (Some (Fin v))).
  { intros g. destruct (in_unit_dec l) as [U|U]; [now rewrite validated_ok|rewrite validated_raise by trivial; discriminate]. }
  split; [|split]; intros N; cbn [In] in N; [destruct N as [N|[N|[]]]|destruct N as [N|[N|[]]]|]; subst name; each H; try discriminate H; pickf H; cbn [nreads nvalue] in Hv;
    apply VV in Hv; fold F in Hv; rewrite ?Ha, ?Kd, ?Kw, ?Kk, ?Ku in Hv; apply I in Hv; now subst.
Qed.
(** Anderson-Darling is infinite exactly when an observation is at an end of the interval *)
Lemma C50_beta_holds : forall B psi betaln A l f, beta_law B betaln -> 0 < ba_alpha A -> 0 < ba_beta A -> l <> [] -> in_unit l ->
  In ("AndersonDarlingBetaGofStatistic", f) (beta_statistics B psi betaln A) ->
  ((forall x, In x l -> 0 < x < 1) -> exists v, nvalue (f l) = Ok (Some (Fin v)) /\ 0 <= v) /\
  (nvalue (f l) = Ok (Some NonFinite) <-> exists x, In x l /\ (x = 0 \/ x = 1)).
Proof.
  intros B psi betaln A l f HL Ha Hb Hne U H. each H; try discriminate H. injection H as <-. cbn [nreads nvalue]. rewrite validated_ok by trivial.
  set (F := B (ba_alpha A) (ba_beta A)). split.
  - intros P. destruct (C50_ad_nonnegative_holds F l Hne) as (v & E & V); [intros x Hx; apply (beta_inside B betaln HL); auto|]. exists v. now rewrite E.
  - split.
    + intros E. assert (E' : ad_stat F l = NonFinite) by congruence. apply C50_finite_iff_inside_holds in E' as (x & Hx & Hc). exists x. split; trivial.
      specialize (U x Hx). destruct (Req_dec x 0) as [|N0]; [now left|]. destruct (Req_dec x 1) as [|N1]; [now right|].
      pose proof (beta_inside B betaln HL _ _ Ha Hb x ltac:(lra)) as P. fold F in P. lra.
    + intros (x & Hx & L). do 2 f_equal. apply C50_finite_iff_inside_holds. exists x. split; trivial.
      unfold F. destruct L as [->| ->]; [left; rewrite (bl_zero _ _ HL) by trivial; lra|right; rewrite (bl_one _ _ HL) by trivial; lra].
Qed.
Lemma C53_beta_holds : forall B psi betaln A l f v, beta_law B betaln -> 0 < ba_alpha A -> 0 < ba_beta A ->
  In ("Chi2PearsonBetaGofStatistic", f) (beta_statistics B psi betaln A) -> nvalue (f l) = Ok (Some (Fin v)) -> 0 <= v.
Proof.
  intros B psi betaln A l f v HL Ha Hb H Hv. each H; try discriminate H. injection H as <-. cbn [nreads nvalue] in Hv.
  destruct (in_unit_dec l) as [U|U]; [|rewrite validated_raise in Hv by trivial; discriminate]. rewrite validated_ok in Hv by trivial.
  unfold chi2_beta in Hv. destruct l as [|x0 l0]; [discriminate|]. set (l := x0 :: l0) in *. set (k := Nat.sqrt_up (length l)) in *.
  assert (Hk : (0 < k)%nat) by (apply sqrt_up_pos; simpl; lia). pose proof (len_pos l ltac:(discriminate)) as Hl.
  assert (Hw : forall x, Ok (Some x) = Ok (Some (Fin v)) -> x = Fin v) by (intros x E; congruence). apply Hw in Hv. refine (pd_nonneg _ _ _ _ _ _ _ _ Hv).
  - rewrite expected_length, map_length, histogram_length, map_length, seq_length. lia.
  - intros o Ho. apply in_map_iff in Ho as (z & <- & _). apply pos_INR.
  - intros e He. exact (expected_pos B betaln _ _ k _ e HL Ha Hb Hk Hl He).
  - rewrite (expected_total B betaln) by trivial. rewrite histogram_total. unfold len. now rewrite rsort_length.
Qed.
(** *** C54, C64 *)
Lemma in_unit_perm l l' : Permutation l l' -> in_unit l -> in_unit l'.
Proof. intros P U x Hx. apply U. eapply Permutation_in; [symmetry; exact P|exact Hx]. Qed.
Lemma moment_perm k l l' : Permutation l l' -> moment k l = moment k l'.
Proof.
  intros P. assert (M : mean l = mean l') by (unfold mean, len; rewrite (Permutation_length P); f_equal; now apply Rsum_perm).
  unfold moment. rewrite M. unfold mean, len. rewrite !map_length, (Permutation_length P). f_equal. apply Rsum_perm, Permutation_map, P.
Qed.
Lemma C54_beta_holds : forall B psi betaln A name f l l', In (name, f) (beta_statistics B psi betaln A) -> Permutation l l' ->
  nvalue (f l) = nvalue (f l').
Proof.
  intros B psi betaln A name f l l' H P. assert (E : rsort l = rsort l') by now apply rsort_perm_eq. assert (L : len l = len l') by (unfold len; now rewrite (Permutation_length P)).
  assert (M : mean l = mean l') by (unfold mean; rewrite L; f_equal; now apply Rsum_perm). assert (V : ssq l = ssq l') by (now apply ssq_perm).
  assert (LE : length l = length l') by now apply Permutation_length.
  assert (VV : forall g, g l = g l' -> beta_validated g l = beta_validated g l').
  { intros g Hg. destruct (in_unit_dec l) as [U|U].
    - rewrite !validated_ok; trivial. now apply (in_unit_perm l).
    - rewrite !validated_raise; trivial. intros U'. apply U. now apply (in_unit_perm l'). }
  assert (NL : l = [] <-> l' = []) by (split; intros ->; [now apply Permutation_nil|now apply Permutation_nil, Permutation_sym]).
  assert (MT : forall X (a b : X), match l with [] => a | _ => b end = match l' with [] => a | _ => b end) by (intros X a b; destruct l, l'; trivial; exfalso; (discriminate (proj1 NL eq_refl) || discriminate (proj2 NL eq_refl))).
  each H; pickf H; cbn [nreads nvalue]; apply VV; unfold ks_stat, ad_stat, cvm_stat, kuiper_stat, watson_stat, cdf_vals; rewrite ?E; try reflexivity.
  - unfold chi2_beta. now rewrite MT, E, LE, L.
  - unfold mb_beta. now rewrite L, M, V, LE.
  - unfold sk_beta, varying, skew_unbiased, kurtosis_unbiased, skewness, kurt. now rewrite V, L, LE, !(moment_perm _ _ _ P).
  - unfold rt_beta. rewrite MT, M, L. assert (G : geometric_mean l = geometric_mean l'); [|now rewrite G]. unfold geometric_mean.
    replace (existsb (fun x => Reqb x 0) l') with (existsb (fun x => Reqb x 0) l).
    + unfold mean, len. rewrite !map_length, LE. now rewrite (Rsum_perm _ _ (Permutation_map ln P)).
    + apply eq_true_iff_eq. rewrite !existsb_exists. split; intros (x & Hx & Q); exists x; split; trivial; eapply Permutation_in; [exact P|exact Hx|symmetry; exact P|exact Hx].
  - unfold ent_beta. now rewrite MT, E, L.
  - unfold mode_beta, varying. rewrite V, L, LE. assert (SM : sample_mode l = sample_mode l'); [|now rewrite SM].
    unfold sample_mode. assert (K : forall x, kde l x = kde l' x). { intros x. unfold kde. rewrite V, L. apply Rsum_perm, Permutation_map, P. }
    unfold argmax_on. destruct mode_grid as [|g0 grid]; trivial. revert g0. induction grid as [|x grid IH]; intros g0; trivial. cbn [argmax_from]. rewrite !K. apply IH.
Qed.
Lemma C64_beta_holds : forall B psi betaln A name f l, In (name, f) (beta_statistics B psi betaln A) -> nsample_after (f l) = l.
Proof. intros B psi betaln A name f l H. each H; pickf H; reflexivity. Qed.
(** *** C61 *)
(** the Lilliefors class estimates nothing: it is the two-sided Kolmogorov-Smirnov test of the given parameters *)
Lemma C61_beta_lilliefors_holds : forall B psi betaln a b alt lambda l, exists f g,
  In ("LillieforsTestBetaGofStatistic", f) (beta_statistics B psi betaln (BetaArgs a b alt lambda)) /\
  In ("KolmogorovSmirnovBetaGofStatistic", g) (beta_statistics B psi betaln (BetaArgs a b TWO_TAILED lambda)) /\
  nvalue (f l) = nvalue (g l).
Proof. intros. eexists; eexists. split; [inlist|]. split; [left; reflexivity|]. reflexivity. Qed.
(** *** C63 *)
(** every class returns a finite number on two or more different observations inside (0,1) *)
Lemma C63_beta_holds : forall B psi betaln A name f l, beta_law B betaln -> 0 < ba_alpha A -> 0 < ba_beta A -> 0 <= ba_lambda A ->
  In (name, f) (beta_statistics B psi betaln A) -> NoDup l -> (2 <= length l)%nat -> (forall x, In x l -> 0 < x < 1) ->
  exists v, nvalue (f l) = Ok (Some (Fin v)).
Proof.
  intros B psi betaln A name f l HL Ha Hb Hp H Hd Hn Hx. assert (NE : l <> []) by (destruct l; [simpl in Hn; lia|discriminate]).
  assert (U : in_unit l) by (intros x Hl; specialize (Hx x Hl); lra). set (F := B (ba_alpha A) (ba_beta A)).
  assert (CN : cdf_vals F l <> []) by (unfold cdf_vals; apply map_ne; now apply rsort_ne). pose proof (len_pos l NE) as Hl.
  destruct (bl_cdf _ _ HL _ _ Ha Hb) as (M & Bd & _). fold F in M, Bd. pose proof (nodup_varying l Hd Hn) as V.
  each H; pickf H; cbn [nreads nvalue]; rewrite validated_ok by trivial; fold F.
  - apply ks_fin, CN.
  - destruct (C50_ad_nonnegative_holds F l NE) as (v & E & _); [intros x Hx'; apply (beta_inside B betaln HL); auto|]. exists v. now rewrite E.
  - apply cvm_fin, CN.
  - apply ks_fin, CN.
  - unfold chi2_beta. rewrite match_ne by trivial. fold F. set (k := Nat.sqrt_up (length l)). cbv zeta. assert (Hk : (0 < k)%nat) by (apply sqrt_up_pos; lia).
    destruct (pd_defined (ba_lambda A) (map INR (histogram (map (fun i => INR (S i) / INR k) (seq 0 (k - 1))) (rsort l)))
      (map (fun d => d * len l) (diff (map F (beta_edges k))))) as (s & E); [|now left|exists s; now rewrite E].
    intros e He. exact (expected_pos B betaln _ _ k _ e HL Ha Hb Hk Hl He).
  - destruct (C48_ranges_holds F l M Bd NE) as (_ & _ & _ & (u & E & _) & _). exists u. now rewrite E.
  - destruct (C48_ranges_holds F l M Bd NE) as (_ & _ & (u & E & _) & _). exists u. now rewrite E.
  - apply num_fin. apply Nat.ltb_lt. lia.
  - now apply num_fin.
  - unfold rt_beta. rewrite match_ne by trivial. assert (0 < Rsum l).
    { destruct l as [|x l']; [congruence|]. cbn [Rsum fold_right]. change (fold_right Rplus 0 l') with (Rsum l').
      assert (0 <= Rsum l') by (apply Rsum_nonneg; intros y Hy; specialize (Hx y (or_intror Hy)); lra). pose proof (Hx x (or_introl eq_refl)). lra. }
    assert (0 < mean l) by (unfold mean; apply Rdiv_lt_0_compat; trivial). rewrite (proj2 (Reqb_false _ _)) by lra. now apply num_fin.
  - unfold ent_beta. rewrite match_ne by trivial. now apply num_fin.
  - unfold mode_beta. rewrite V. replace (length l <? 2)%nat with false by (symmetry; apply Nat.ltb_ge; lia). now apply num_fin.
Qed.
(** *** C87 *)
(** the mirrored sample tested against the mirrored hypothesis; the chi-square bins are half open, so no observation may
    be one of their edges *)
Lemma C87_beta_mirror_holds : forall B psi betaln a b alt lambda name f l, beta_law B betaln -> 0 < a -> 0 < b ->
  off_edges (Nat.sqrt_up (length l)) l -> ~ In name ["RatioBetaGofStatistic"; "ModeBetaGofStatistic"] ->
  In (name, f) (beta_statistics B psi betaln (BetaArgs a b alt lambda)) ->
  exists g, In (name, g) (beta_statistics B psi betaln (BetaArgs b a (opposite alt) lambda)) /\ nvalue (g (mirror l)) = nvalue (f l).
Proof.
  intros B psi betaln a b alt lambda name f l HL Ha Hb Ho Hn H. pose proof (beta_vals_mirror B betaln HL a b Ha Hb l) as E.
  assert (Hop : swap (opposite alt) = alt) by now destruct alt.
  assert (VV : forall g h, g (mirror l) = h l -> beta_validated g (mirror l) = beta_validated h l).
  { intros g h Hg. destruct (in_unit_dec l) as [U|U].
    - rewrite !validated_ok; trivial. now apply mirror_unit.
    - rewrite !validated_raise; trivial. intros U'. apply U. now apply mirror_unit. }
  each H; pickf H; try (exfalso; apply Hn; cbn [In]; tauto); (eexists; split; [inlist|]); cbn [nreads nvalue ba_alpha ba_beta ba_alt ba_lambda]; apply VV.
  - unfold ks_stat. now rewrite E, ks_flip, Hop.
  - unfold ad_stat. now rewrite E, ad_flip.
  - unfold cvm_stat. now rewrite E, cvm_flip.
  - unfold ks_stat. now rewrite E, (ks_flip TWO_TAILED).
  - unfold chi2_beta. destruct l as [|x0 l0]; [reflexivity|]. change (mirror (x0 :: l0)) with (1 - x0 :: mirror l0). cbv iota. change (1 - x0 :: mirror l0) with (mirror (x0 :: l0)).
    set (l := x0 :: l0) in *. rewrite mirror_length, mirror_len. set (k := Nat.sqrt_up (length l)) in *. assert (Hk : (0 < k)%nat) by (apply sqrt_up_pos; simpl; lia).
    fold (inner_edges k). rewrite (expected_mirror B betaln a b) by trivial. rewrite (histogram_perm _ _ (mirror l)) by apply rsort_perm.
    rewrite (histogram_perm _ (rsort l) l) by apply rsort_perm. rewrite histogram_unit_mirror by trivial. rewrite map_rev. do 2 f_equal. apply pd_rev.
    rewrite expected_length, map_length, histogram_length. unfold inner_edges. rewrite map_length, seq_length. lia.
  - unfold watson_stat. now rewrite E, watson_flip.
  - unfold kuiper_stat. now rewrite E, kuiper_flip.
  - unfold mb_beta. rewrite mirror_length, mirror_len, mirror_ssq, beta_var_swap, beta_mean_swap by trivial. destruct (Nat.ltb_spec 1 (length l)) as [L|L]; [|reflexivity].
    rewrite mirror_mean by (destruct l; [simpl in L; lia|discriminate]). unfold num. do 3 f_equal. f_equal. unfold Rdiv. ring.
  - unfold sk_beta. rewrite mirror_varying, mirror_len, skew_unbiased_mirror, kurtosis_unbiased_mirror, beta_skew_swap, beta_kurtosis_swap.
    unfold num. do 2 f_equal. destruct (varying l); trivial. f_equal. f_equal. f_equal. ring.
  - unfold ent_beta. destruct l as [|x0 l0]; [reflexivity|]. change (mirror (x0 :: l0)) with (1 - x0 :: mirror l0). cbv iota. change (1 - x0 :: mirror l0) with (mirror (x0 :: l0)).
    set (l := x0 :: l0) in *. rewrite mirror_len, rsort_mirror, vasicek_flip. assert (X : beta_entropy psi betaln b a = beta_entropy psi betaln a b); [|now rewrite X].
    unfold beta_entropy. rewrite (bl_betaln_sym _ _ HL b a), (Rplus_comm b a). ring.
Qed.
(** the mode statistic: provided the density estimate has a single maximiser on the grid *)
Lemma C87_beta_mode_holds : forall B psi betaln a b alt lambda f l m, 1 < a -> 1 < b ->
  In m mode_grid -> (forall x, In x mode_grid -> x <> m -> kde l x < kde l m) ->
  In ("ModeBetaGofStatistic", f) (beta_statistics B psi betaln (BetaArgs a b alt lambda)) ->
  exists g, In ("ModeBetaGofStatistic", g) (beta_statistics B psi betaln (BetaArgs b a (opposite alt) lambda)) /\ nvalue (g (mirror l)) = nvalue (f l).
Proof.
  intros B psi betaln a b alt lambda f l m Ha Hb Hm Hu H. each H; try discriminate H. injection H as <-. eexists. split; [inlist|].
  cbn [nreads nvalue ba_alpha ba_beta]. destruct (in_unit_dec l) as [U|U].
  2: { rewrite !validated_raise; trivial. intros U'. apply U. now apply mirror_unit. }
  rewrite !validated_ok; trivial; [|now apply mirror_unit]. unfold mode_beta. rewrite mirror_length, mirror_varying, mirror_len.
  destruct ((length l <? 2)%nat || negb (varying l)); trivial. unfold sample_mode.
  rewrite (argmax_unique (kde l) mode_grid m Hm Hu).
  rewrite (argmax_unique (kde (mirror l)) mode_grid (1 - m)); [|now apply mode_grid_mirror|].
  - unfold num. do 4 f_equal. rewrite <- Rabs_Ropp. apply f_equal. field. lra.
  - intros x Hx Nx. rewrite kde_mirror. replace (kde (mirror l) x) with (kde l (1 - x)) by (rewrite <- kde_mirror; f_equal; ring). apply Hu; [now apply mode_grid_mirror|]. intros C. apply Nx. lra.
Qed.
Lemma rt_ne psi a b l : l <> [] -> rt_beta psi a b l = if Reqb (mean l) 0 then Raise ValueError
         else num true (sqrt (len l) * Rabs (geometric_mean l / mean l - exp (psi a - psi (a + b)) / (a / (a + b)))).
Proof. destruct l; [congruence|reflexivity]. Qed.
(** the ratio statistic looks at one end only: with the digamma recurrence psi(2) = psi(1) + 1 the mirrored sample has
    another value although the uniform hypothesis is its own mirror image *)
Lemma C87_beta_ratio_refuted_holds : forall B psi betaln alt lambda f, psi 2 = psi 1 + 1 ->
  In ("RatioBetaGofStatistic", f) (beta_statistics B psi betaln (BetaArgs 1 1 alt lambda)) ->
  nvalue (f (mirror [0; 1 / 2])) <> nvalue (f [0; 1 / 2]).
Proof.
  intros B psi betaln alt lambda f Hp H. each H; try discriminate H. injection H as <-. cbn [nreads nvalue ba_alpha ba_beta].
  rewrite !validated_ok; [| |apply mirror_unit]; try (intros x Hx; cbn [In] in Hx; destruct Hx as [<-|[<-|[]]]; lra).
  assert (E1 : mean [0; 1 / 2] = 1 / 4) by (unfold mean, len; cbn; lra).
  assert (E2 : mean (mirror [0; 1 / 2]) = 3 / 4) by (rewrite mirror_mean by discriminate; lra).
  assert (G1 : geometric_mean [0; 1 / 2] = 0). { unfold geometric_mean. cbn [existsb]. now rewrite (proj2 (Reqb_true 0 0)). }
  assert (G2 : geometric_mean (mirror [0; 1 / 2]) ^ 2 = 1 / 2).
  { unfold geometric_mean, mirror. cbn [map existsb]. rewrite (proj2 (Reqb_false _ _)), (proj2 (Reqb_false _ _)) by lra. cbn [orb map].
    replace (1 - 0) with 1 by ring. rewrite ln_1. unfold mean, len. cbn [length INR Rsum fold_right].
    replace ((0 + (ln (1 - 1 / 2) + 0)) / (1 + 1)) with (ln (1 - 1 / 2) / 2) by field. simpl. rewrite Rmult_1_r, <- exp_plus.
    replace (ln (1 - 1 / 2) / 2 + ln (1 - 1 / 2) / 2) with (ln (1 - 1 / 2)) by field. rewrite exp_ln; lra. }
  assert (P2 : 0 < geometric_mean (mirror [0; 1 / 2])).
  { unfold geometric_mean, mirror. cbn [map existsb]. rewrite (proj2 (Reqb_false _ _)), (proj2 (Reqb_false _ _)) by lra. cbn [orb]. apply exp_pos. }
  rewrite !rt_ne by discriminate.
  rewrite E1, E2, G1. set (g := geometric_mean (mirror [0; 1 / 2])) in *. rewrite !(proj2 (Reqb_false _ _)) by lra. unfold num.
  replace (1 + 1) with 2 by ring. rewrite Hp. replace (psi 1 - (psi 1 + 1)) with (- (1)) by ring. rewrite exp_Ropp.
  rewrite mirror_len. replace (len [0; 1 / 2]) with 2 by (unfold len; simpl; ring). intros C. injection C as C.
  pose proof (sqrt_lt_R0 2 ltac:(lra)) as S2. apply Rmult_eq_reg_l in C; [|lra]. pose proof exp_le_3 as E3. pose proof (exp_pos 1) as EP.
  assert (I3 : / 3 <= / exp 1) by (apply Rinv_le_contravar; lra). set (i := / exp 1) in *.
  replace (0 / (1 / 4) - i / (1 / 2)) with (- (2 * i)) in C by field. rewrite Rabs_Ropp, (Rabs_right (2 * i)) in C by lra.
  replace (g / (3 / 4) - i / (1 / 2)) with (4 / 3 * g - 2 * i) in C by field.
  assert (g < 1) by nra. unfold Rabs in C. destruct (Rcase_abs _) in C; nra.
Qed.
(** *** C88 *)
Lemma num_inj b v w : num b v = Ok (Some (Fin w)) -> b = true /\ w = v.
Proof. unfold num. destruct b; intros E; [split; congruence|discriminate]. Qed.
Ltac valid Hv l U := destruct (in_unit_dec l) as [U|U]; [rewrite validated_ok in Hv by trivial|rewrite validated_raise in Hv by trivial; discriminate].
(** moment-based: zero exactly when the sample mean and variance are those of the hypothesis *)
Lemma C88_beta_moments_holds : forall B psi betaln A f l v, 0 < ba_alpha A -> 0 < ba_beta A ->
  In ("MomentBasedBetaGofStatistic", f) (beta_statistics B psi betaln A) -> nvalue (f l) = Ok (Some (Fin v)) ->
  let a := ba_alpha A in let b := ba_beta A in
  0 <= v /\ (v = 0 <-> mean l = a / (a + b) /\ variance1 l = a * b / ((a + b) ^ 2 * (a + b + 1))).
Proof.
  intros B psi betaln A f l v Ha Hb H Hv a b. each H; try discriminate H. injection H as <-. cbn [nreads nvalue] in Hv. valid Hv l U.
  unfold mb_beta in Hv. apply num_inj in Hv as [L ->]. apply Nat.ltb_lt in L. fold a b. change (ssq l / (len l - 1)) with (variance1 l).
  pose proof (beta_var_pos a b Ha Hb) as P. pose proof (sqrt_lt_R0 _ P) as SP.
  assert (LP : 0 < sqrt (len l)) by (apply sqrt_lt_R0, len_pos; destruct l; [simpl in L; lia|discriminate]).
  fold (beta_mean a b) (beta_var a b).
  assert (Z : forall x, sqrt (len l) * x / sqrt (beta_var a b) = 0 <-> x = 0).
  { intros x. split; [|intros ->; field; lra]. intros E. apply (f_equal (fun t => t * sqrt (beta_var a b))) in E. unfold Rdiv in E. rewrite Rmult_assoc, Rinv_l in E by lra. nra. }
  set (p := sqrt (len l) * (mean l - beta_mean a b) / sqrt (beta_var a b)) in *. set (q := sqrt (len l) * (variance1 l - beta_var a b) / sqrt (beta_var a b)) in *.
  split; [nra|]. assert (EQ : p ^ 2 + q ^ 2 = 0 <-> p = 0 /\ q = 0) by (split; [intros E; split; nra|intros [-> ->]; ring]).
  rewrite EQ. unfold p, q. rewrite !Z. split; intros [E1 E2]; split; lra.
Qed.
(** skewness-kurtosis: zero exactly when both agree with those of the hypothesis *)
Lemma C88_beta_skewness_kurtosis_holds : forall B psi betaln A f l v, (4 <= length l)%nat ->
  In ("SkewnessKurtosisBetaGofStatistic", f) (beta_statistics B psi betaln A) -> nvalue (f l) = Ok (Some (Fin v)) ->
  v = len l * ((sample_skewness l - theoretical_skewness (ba_alpha A) (ba_beta A)) ^ 2 / 6
               + (sample_excess_kurtosis l - theoretical_excess_kurtosis (ba_alpha A) (ba_beta A)) ^ 2 / 24) /\
  0 <= v /\ (v = 0 <-> sample_skewness l = theoretical_skewness (ba_alpha A) (ba_beta A) /\
                       sample_excess_kurtosis l = theoretical_excess_kurtosis (ba_alpha A) (ba_beta A)).
Proof.
  intros B psi betaln A f l v Hn H Hv. each H; try discriminate H. injection H as <-. cbn [nreads nvalue] in Hv. valid Hv l U.
  unfold sk_beta in Hv. apply num_inj in Hv as [V ->]. apply varying_iff in V.
  assert (L : 4 <= len l) by (unfold len; apply (le_INR 4) in Hn; simpl in Hn; lra).
  assert (MM : forall k, moment k l = power_dev k l / len l) by (intros k; unfold moment, mean at 1; now rewrite len_map).
  assert (P2 : 0 < power_dev 2 l) by exact V.
  assert (E1 : skew_unbiased l = sample_skewness l).
  { unfold skew_unbiased, sample_skewness. rewrite (proj2 (Nat.ltb_lt _ _)) by lia. unfold skewness. rewrite !MM. reflexivity. }
  assert (E2 : kurtosis_unbiased l = sample_excess_kurtosis l).
  { unfold kurtosis_unbiased, sample_excess_kurtosis. rewrite (proj2 (Nat.ltb_lt _ _)) by lia. unfold kurt. rewrite !MM. fold (len l). field. repeat split; lra. }
  rewrite E1, E2. fold (theoretical_skewness (ba_alpha A) (ba_beta A)). fold (theoretical_excess_kurtosis (ba_alpha A) (ba_beta A)).
  change (beta_skewness (ba_alpha A) (ba_beta A)) with (theoretical_skewness (ba_alpha A) (ba_beta A)).
  change (beta_kurtosis (ba_alpha A) (ba_beta A)) with (theoretical_excess_kurtosis (ba_alpha A) (ba_beta A)).
  set (p := sample_skewness l - _). set (q := sample_excess_kurtosis l - _). 
  assert (A1 : 0 <= len l / 6 * p ^ 2) by (apply Rmult_le_pos; [lra|apply pow2_ge_0]). assert (A2 : 0 <= len l / 24 * q ^ 2) by (apply Rmult_le_pos; [lra|apply pow2_ge_0]).
  split; [field|]. split; [lra|]. split.
  - intros E. assert (P0 : p ^ 2 = 0) by (assert (len l / 6 * p ^ 2 = 0) by lra; nra). assert (Q0 : q ^ 2 = 0) by (assert (len l / 24 * q ^ 2 = 0) by lra; nra).
    assert (p = 0) by nra. assert (q = 0) by nra. unfold p, q in *. split; lra.
  - intros [F1 F2]. assert (p = 0) by (unfold p; lra). assert (q = 0) by (unfold q; lra). replace p with 0. replace q with 0. ring.
Qed.
(** ratio of geometric and arithmetic mean: the compared quantity is between 0 and 1 *)
Lemma C88_beta_ratio_holds : forall B psi betaln A f l v, 0 < ba_alpha A -> 0 < ba_beta A ->
  In ("RatioBetaGofStatistic", f) (beta_statistics B psi betaln A) -> nvalue (f l) = Ok (Some (Fin v)) ->
  let rho := exp (psi (ba_alpha A) - psi (ba_alpha A + ba_beta A)) * (ba_alpha A + ba_beta A) / ba_alpha A in
  0 <= v <= sqrt (len l) * Rmax rho (Rabs (1 - rho)).
Proof.
  intros B psi betaln A f l v Ha Hb H Hv rho. each H; try discriminate H. injection H as <-. cbn [nreads nvalue] in Hv. valid Hv l U.
  unfold rt_beta in Hv. destruct l as [|x0 l0]; [discriminate|]. set (l := x0 :: l0) in *. destruct (Reqb_spec (mean l) 0) as [|N]; [discriminate|].
  apply num_inj in Hv as [_ ->]. assert (P : forall x, In x l -> 0 <= x) by (intros x Hx; apply (U x Hx)).
  pose proof (geometric_range l ltac:(discriminate) P N) as G. pose proof (mean_pos_of l P N ltac:(discriminate)) as M.
  set (r := geometric_mean l / mean l). assert (Rr : 0 <= r <= 1) by (apply ratio_01; lra).
  replace (exp (psi (ba_alpha A) - psi (ba_alpha A + ba_beta A)) / (ba_alpha A / (ba_alpha A + ba_beta A))) with rho by (unfold rho; field; lra).
  pose proof (sqrt_pos (len l)) as S. assert (R0 : 0 < rho). { unfold rho. apply Rdiv_lt_0_compat; trivial. apply Rmult_lt_0_compat; [apply exp_pos|lra]. }
  split; [apply Rmult_le_pos; [trivial|apply Rabs_pos]|]. apply Rmult_le_compat_l; trivial.
  unfold Rmax, Rabs. destruct (Rle_dec _ _), (Rcase_abs (r - rho)); repeat destruct (Rcase_abs _); lra.
Qed.
(** mode: never negative; refuted is that it vanishes for a sample whose mode is right: for every symmetric hypothesis
    (in particular the default one) 1/2 is not on the grid, so the value is at least sqrt n * 0.49/199 on every sample *)
Lemma C88_beta_mode_refuted_holds : forall B psi betaln A f l v, ba_alpha A = ba_beta A -> 1 < ba_alpha A ->
  In ("ModeBetaGofStatistic", f) (beta_statistics B psi betaln A) -> nvalue (f l) = Ok (Some (Fin v)) ->
  0 < sqrt (len l) * (0.49 / 199) <= v.
Proof.
  intros B psi betaln A f l v E Ha H Hv. each H; try discriminate H. injection H as <-. cbn [nreads nvalue] in Hv. valid Hv l U.
  unfold mode_beta in Hv. destruct (Nat.ltb_spec (length l) 2) as [|L]; [discriminate|]. destruct (varying l); [|discriminate]. cbn [orb negb] in Hv. apply num_inj in Hv as [_ ->].
  assert (LP : 0 < sqrt (len l)) by (apply sqrt_lt_R0, len_pos; destruct l; [simpl in L; lia|discriminate]).
  split; [apply Rmult_lt_0_compat; lra|]. apply Rmult_le_compat_l; [lra|]. rewrite <- E. replace ((ba_alpha A - 1) / (ba_alpha A + ba_alpha A - 2)) with (1 / 2) by (field; lra).
  unfold sample_mode. apply mode_half. exact (argmax_in (kde l) mode_grid mode_grid_ne).
Qed.
(** in general the value is sqrt n times the distance from the mode of the hypothesis to a maximiser of the estimate *)
Lemma C88_beta_mode_holds : forall B psi betaln A f l v,
  In ("ModeBetaGofStatistic", f) (beta_statistics B psi betaln A) -> nvalue (f l) = Ok (Some (Fin v)) ->
  exists m, 0.01 <= m <= 0.99 /\ (forall x, In x mode_grid -> kde l x <= kde l m) /\
    v = sqrt (len l) * Rabs (m - (ba_alpha A - 1) / (ba_alpha A + ba_beta A - 2)).
Proof.
  intros B psi betaln A f l v H Hv. each H; try discriminate H. injection H as <-. cbn [nreads nvalue] in Hv. valid Hv l U.
  unfold mode_beta in Hv. destruct ((length l <? 2)%nat || negb (varying l)); [discriminate|]. apply num_inj in Hv as [_ ->].
  exists (sample_mode l). split; [|split; [intros x Hx; unfold sample_mode; exact (argmax_ge (kde l) mode_grid x Hx)|reflexivity]].
  pose proof (argmax_in (kde l) mode_grid mode_grid_ne) as I. apply mode_grid_in in I as (i & Hi & E). unfold sample_mode. rewrite E.
  pose proof (pos_INR i). assert (INR i <= 199) by (replace 199 with (INR 199) by (simpl; lra); apply le_INR; lia). lra.
Qed.
(** entropy: refuted for fewer than four observations, where the window is empty and the data are not looked at *)
Lemma C88_beta_entropy_small_refuted_holds : forall B psi betaln A f l l', In ("EntropyBetaGofStatistic", f) (beta_statistics B psi betaln A) ->
  length l = length l' -> (length l < 4)%nat -> in_unit l -> in_unit l' -> nvalue (f l) = nvalue (f l').
Proof.
  intros B psi betaln A f l l' H E L U U'. each H; try discriminate H. injection H as <-. cbn [nreads nvalue]. rewrite !validated_ok by trivial.
  unfold ent_beta. replace (len l') with (len l) by (unfold len; now rewrite E).
  assert (K : forall w, (length w < 4)%nat -> vasicek w = 0).
  { intros w Hw. unfold vasicek. rewrite (Nat.div_small _ _ Hw). rewrite (map_ext_in _ (fun _ => 0)).
    - replace (Rsum (map (fun _ : nat => 0) (seq 0 (length w)))) with 0; [unfold Rdiv; ring|]. induction (seq 0 (length w)) as [|x s IH]; trivial. cbn [map Rsum fold_right]. change (fold_right Rplus 0 ?z) with (Rsum z) in *. lra.
    - intros i Hi. apply in_seq in Hi. unfold window_range. replace (Nat.min (length w - 1) (i + 0)) with i by lia. rewrite Nat.sub_0_r.
      rewrite (proj2 (Rltb_false _ _)); trivial. lra. }
  rewrite !K by (rewrite rsort_length; lia). destruct l, l'; trivial; discriminate.
Qed.
(** entropy: refuted for constant samples, whose windows are all skipped.  The class declares that large values are
    evidence against the hypothesis, but under the uniform hypothesis every constant sample has the smallest possible
    value 0, while an evenly spread sample has a larger one *)
Lemma C65_beta_entropy_refuted_holds : declares "EntropyBetaGofStatistic" RIGHT /\
  forall B psi betaln alt lambda f, beta_law B betaln -> In ("EntropyBetaGofStatistic", f) (beta_statistics B psi betaln (BetaArgs 1 1 alt lambda)) ->
  (forall x n, 0 <= x <= 1 -> nvalue (f (repeat x (S n))) = Ok (Some (Fin 0))) /\
  (exists v, nvalue (f [0; 1 / 3; 2 / 3; 1]) = Ok (Some (Fin v)) /\ 0 < v).
Proof.
  split; [apply declared; vm_compute; reflexivity|]. intros B psi betaln alt lambda f HL H. each H; try discriminate H. injection H as <-. cbn [nreads nvalue ba_alpha ba_beta].
  assert (E0 : beta_entropy psi betaln 1 1 = 0) by (unfold beta_entropy; rewrite (bl_betaln_one _ _ HL); ring). split.
  - intros x n Hx. rewrite validated_ok by (intros y Hy; apply repeat_spec in Hy; now subst). unfold ent_beta. cbn [repeat]. change (x :: repeat x n) with (repeat x (S n)).
    rewrite E0. assert (S : rsort (repeat x (S n)) = repeat x (S n)).
    { apply rsort_id. induction (S n) as [|k IH]; cbn [repeat]; constructor; trivial. apply Forall_forall. intros y Hy. apply repeat_spec in Hy. subst. lra. }
    rewrite S. assert (V : vasicek (repeat x (Datatypes.S n)) = 0); [|rewrite V; unfold num; do 3 f_equal; rewrite Rminus_0_r, Rabs_R0; ring].
    unfold vasicek. rewrite repeat_length. set (m := (Datatypes.S n / 4)%nat). rewrite (map_ext_in _ (fun _ => 0)).
    + replace (Rsum (map (fun _ : nat => 0) (seq 0 (Datatypes.S n)))) with 0; [unfold Rdiv; ring|]. induction (seq 0 (Datatypes.S n)) as [|y s IH]; trivial. cbn [map Rsum fold_right]. change (fold_right Rplus 0 ?z) with (Rsum z) in *. lra.
    + intros i Hi. apply in_seq in Hi. unfold window_range. rewrite repeat_length.
      assert (K : forall j, (j < Datatypes.S n)%nat -> nth j (repeat x (Datatypes.S n)) 0 = x).
      { intros j Hj. apply (repeat_spec (Datatypes.S n) x). apply nth_In. now rewrite repeat_length. }
      rewrite !K by lia. rewrite (proj2 (Rltb_false _ _)); trivial. lra.
  - rewrite validated_ok by (intros y Hy; cbn [In] in Hy; destruct Hy as [<-|[<-|[<-|[<-|[]]]]]; lra). unfold ent_beta. rewrite E0.
    rewrite rsort_id by (repeat constructor; lra). eexists. split; [reflexivity|]. apply Rmult_lt_0_compat; [apply sqrt_lt_R0; unfold len; simpl; lra|].
    rewrite Rminus_0_r. apply Rabs_pos_lt. unfold vasicek. change (length [0; 1 / 3; 2 / 3; 1]) with 4%nat. change (4 / 4)%nat with 1%nat. cbn [seq map].
    unfold window_range. cbn [length Nat.sub Nat.min Nat.add nth]. rewrite !(proj2 (Rltb_true _ _)) by lra.
    replace (INR 4) with 4 by (simpl; ring). replace (INR 1) with 1 by reflexivity.
    replace ((1 / 3 - 0) * 4 / (2 * 1)) with (2 / 3) by field. replace ((2 / 3 - 0) * 4 / (2 * 1)) with (4 / 3) by field.
    replace ((1 - 1 / 3) * 4 / (2 * 1)) with (4 / 3) by field. replace ((1 - 2 / 3) * 4 / (2 * 1)) with (2 / 3) by field. cbn [Rsum fold_right].
    assert (LL : ln (2 / 3) + ln (4 / 3) < 0). { rewrite <- ln_mult by lra. rewrite <- ln_1. apply ln_increasing; lra. } lra.
Qed.
(** the Lilliefors class is a distance but declares a two-sided alternative *)
Lemma C65_beta_lilliefors_refuted_holds : declares "LillieforsTestBetaGofStatistic" TWO_TAILED /\
  forall B psi betaln A f l, beta_law B betaln -> 0 < ba_alpha A -> 0 < ba_beta A -> l <> [] -> in_unit l ->
  In ("LillieforsTestBetaGofStatistic", f) (beta_statistics B psi betaln A) ->
  exists d, nvalue (f l) = Ok (Some (Fin d)) /\ supremum (fun x => Rabs (edf l x - B (ba_alpha A) (ba_beta A) x)) d.
Proof.
  split; [apply declared; vm_compute; reflexivity|]. intros B psi betaln A f l HL Ha Hb NE U H. each H; try discriminate H. injection H as <-. cbn [nreads nvalue].
  rewrite validated_ok by trivial. destruct (proj1 (C47_ks_is_sup_distance_holds _ l (bl_cdf _ _ HL _ _ Ha Hb) NE)) as (d & E & S). exists d. now rewrite E.
Qed.
(** not vacuous *)
Lemma C88_nonvacuous_holds : beta_law (fun _ _ => unit_cdf) (fun _ _ => 0) /\ unit_cdf (1 / 3) = 1 / 3.
Proof. split; [exact unit_law|]. unfold unit_cdf. rewrite Rmin_right, Rmax_right by lra. reflexivity. Qed.
Lemma C87_nonvacuous_beta_holds : off_edges (Nat.sqrt_up (length [1 / 8; 2 / 5; 3 / 4])) [1 / 8; 2 / 5; 3 / 4].
Proof.
  replace (Nat.sqrt_up (length [1 / 8; 2 / 5; 3 / 4])) with 2%nat by reflexivity. intros x i Hx Hi. replace i with 1%nat by lia. cbn [In] in Hx. simpl (INR _). destruct Hx as [<-|[<-|[<-|[]]]]; lra.
Qed.
