(** C105: the form of the remaining normality statistics. *)
From Coq Require Import String.
From Verif Require Import Base DecModel EdfModel GraphModel RegistryModel NormalLaw ExpModel NormModel NormRangeSpec NormFormSpec DetailSpec NormMoreSpec EdfProofs EdfRotProofs NormProofs NormFiniteProofs NormClaims NormRangeClaims NormMoreProofs.
From Coq Require Import Lra Lia.
Local Open Scope string_scope.
Local Open Scope R_scope.

(** correlations of the order statistics with normal quantiles *)
Lemma C105_correlations_holds : forall l v, let n := List.length l in let x := rsort l in
  (filli_norm l = Ok (Some (Fin v)) -> v = correlation x (map (fun i => norm_ppf (filliben_median n i)) (seq 1 n))) /\
  (lg_norm l = Ok (Some (Fin v)) -> v = correlation x (map (blom n) (seq 0 n))) /\
  (forall alpha, rj_norm false alpha l = Ok (Some (Fin v)) -> v = correlation x (map (fun i => norm_ppf (position alpha n i)) (seq 1 n))) /\
  (forall alpha, rj_norm true alpha l = Ok (Some (Fin v)) -> v = correlation x (map (fun z => norm_ppf (shared_position alpha l z)) x)).
Proof.
  intros l v n x. split; [apply filli_form|]. split; [|split; intros alpha; apply rj_form].
  intros E. apply rj_form in E. rewrite E. f_equal. rewrite map_seq_shift. apply map_ext. intros i. now apply blom_position.
Qed.
(** squared correlations *)
Lemma C105_squared_correlations_holds : forall l v, let n := List.length l in let x := rsort l in
  (sf_norm l = Ok (Some (Fin v)) -> v = correlation x (map (blom n) (seq 0 n)) ^ 2) /\
  (swrg l = Ok (Some (Fin v)) -> v = correlation x (map (rg_weight n) (seq 1 n)) ^ 2).
Proof. intros l v n x. split; [apply sf_form|apply swrg_form]. Qed.
(** sums of squares of a transformed skewness and a transformed kurtosis *)
Lemma C105_dagostino_pearson_holds : forall l v, dap_norm l = Ok (Some (Fin v)) ->
  exists s k, skew_norm l = Ok (Some (Fin s)) /\ kurtosis_norm l = Ok (Some (Fin k)) /\ v = s ^ 2 + k ^ 2.
Proof. exact dap_form. Qed.
Lemma C105_doornik_hansen_holds : forall l v, dh l = Ok (Some (Fin v)) -> let n := len l in let b1 := sample_skewness l in
  let alpha := hansen_alpha n (b1 ^ 2) in
  exists c, 0 <= c /\ c ^ 3 = hansen_chi n (b1 ^ 2) (sample_kurtosis l) / (2 * alpha) /\
    v = dagostino n (skewness_score n b1) ^ 2 + ((c - 1 + 1 / (9 * alpha)) * sqrt (9 * alpha)) ^ 2.
Proof. exact dh_form. Qed.
(** range and mean deviation, combined by their powers; from 150 observations on, n! is replaced by Stirling's formula *)
Lemma C105_spiegelhalter_holds : forall l hi lo v, sh l = Ok (Some (Fin v)) -> In hi l -> In lo l -> (forall x, In x l -> lo <= x <= hi) ->
  let n := List.length l in let s := sample_sd l in
  let c := spiegelhalter_scale n (if (n <? 150)%nat then INR (fact n) else stirling n) in
  let u := (hi - lo) / s in let g := Rsum (map (fun x => Rabs (x - mean l)) l) / (s * sqrt (INR n * (INR n - 1))) in
  v = Rpower (/ (c * u) ^ (n - 1) + / g ^ (n - 1)) (1 / (INR n - 1)).
Proof. exact sh_form. Qed.
(** the Martinez-Iglewicz statistic, without the restriction of the sums to the observations near the median: it is the
    published one if no observation is nine or more median absolute deviations away from the median *)
Lemma C105_martinez_iglewicz_partial_holds : forall l v, mi l = Ok (Some (Fin v)) ->
  v = biweight_ratio (len l) (middle l) (nine_mad l) l l /\
  ((forall x, In x l -> Rabs (x - middle l) < nine_mad l) -> v = martinez_iglewicz l).
Proof. intros l v E. split. now apply mi_value. now apply mi_published. Qed.
Lemma sorted5 : sortedR [-1; -1; 0; 1; 90].
Proof. repeat constructor; lra. Qed.
Lemma C105_martinez_iglewicz_refuted_holds : exists l v, mi l = Ok (Some (Fin v)) /\ v < 2 /\ 2000 < martinez_iglewicz l.
Proof.
  set (l := [-1; -1; 0; 1; 90]). assert (M : middle l = 0) by (unfold middle, l; rewrite (rsort_id _ sorted5); simpl; lra).
  assert (A : nine_mad l = 9).
  { unfold nine_mad. rewrite M. assert (E : map (fun x => Rabs (x - 0)) l = [1; 1; 0; 1; 90]).
    { unfold l. cbn [map]. rewrite !Rminus_0_r. rewrite (Rabs_left (-1)), Rabs_R0, Rabs_R1, (Rabs_pos_eq 90) by lra. now replace (- -1) with 1 by ring. }
    rewrite E. unfold middle. rewrite (rsort_unique _ [0; 1; 1; 1; 90]). simpl. lra. 2: repeat constructor; lra.
    change [1; 1; 0; 1; 90] with ([1; 1] ++ 0 :: [1; 90])%list. symmetry. apply (Permutation_middle [1; 1] [1; 90] 0). }
  exists l. eexists. split; [apply mi_intro; [unfold l; simpl; lia|rewrite A; lra|rewrite M, A; unfold l; simpl; lra]|].
  rewrite M, A. unfold martinez_iglewicz. rewrite M, A.
  assert (F : filter (fun x => Rltb (Rabs ((x - 0) / 9)) 1) l = [-1; -1; 0; 1]).
  { unfold l. cbn [filter]. repeat match goal with |- context [Rltb (Rabs ?t) 1] => let H := fresh in destruct (Rltb_spec (Rabs t) 1) as [H|H]; [try reflexivity|] end; trivial.
    all: unfold Rabs in *; repeat match goal with H : context [Rcase_abs ?t] |- _ => destruct (Rcase_abs t) end; lra. }
  rewrite F. unfold biweight_ratio, l, len. simpl. split; lra.
Qed.
(** moving one observation away, however far, does not increase the statistic beyond any limit: it tends to
    25 / (n (n - 1)), which lies below 1 for six and more observations.  The declared alternative is RIGHT, so with any
    larger critical value the hypothesis is accepted for every gross outlier *)
Lemma C105_gross_outlier_holds : forall l eps, (3 <= List.length l)%nat -> NoDup l -> 0 < eps ->
  exists K, forall x, K < x -> exists v, mi (x :: l) = Ok (Some (Fin v)) /\
    Rabs (v - 25 / (INR (List.length l + 1) * INR (List.length l))) < eps.
Proof. exact mi_outlier. Qed.
Lemma C105_gross_outlier_refuted_holds : forall l c, (3 <= List.length l)%nat -> NoDup l ->
  25 / (INR (List.length l + 1) * INR (List.length l)) < c ->
  (forall c0, In c0 stat_classes -> sc_name c0 = "MartinezIglewiczNormalityGofStatistic" -> sc_alt c0 = Fixed RIGHT) /\
  exists K, forall x, K < x -> exists v, mi (x :: l) = Ok (Some (Fin v)) /\ v < c.
Proof.
  intros l c L ND H. split.
  - intros c0 I E. assert (F : forallb (fun c => negb (String.eqb (sc_name c) "MartinezIglewiczNormalityGofStatistic") || match sc_alt c with Fixed RIGHT => true | _ => false end) stat_classes = true) by (vm_compute; reflexivity).
    rewrite forallb_forall in F. apply F in I. rewrite E, String.eqb_refl in I. cbn [negb orb] in I. destruct (sc_alt c0) as [[]|]; try discriminate I; reflexivity.
  - destruct (mi_outlier l (c - 25 / (INR (List.length l + 1) * INR (List.length l))) L ND ltac:(lra)) as (K & HK). exists K. intros x Hx. destruct (HK x Hx) as (v & E & B). exists v. split; trivial.
    apply Rabs_def2 in B. lra.
Qed.
(** not vacuous: on ten different values all of these statistics are finite, except possibly D'Agostino-Pearson *)
Lemma C105_nonvacuous_holds : forall l, (10 <= List.length l)%nat -> NoDup l ->
  forall f, In f [filli_norm; lg_norm; rj_norm false 0.5; sf_norm; swrg; dh; sh; mi] -> exists v, f l = Ok (Some (Fin v)).
Proof.
  intros l L ND f H. set (A := NormArgs 0 1 TWO_TAILED false 0.5).
  assert (G : forall name g, In (name, g) (normality_statistics A) -> ~ In name conditional_normal -> exists v, nvalue (g l) = Ok (Some (Fin v))).
  { intros name g I N. apply (C63_normality_holds A name g l); trivial. unfold A. simpl. lra. }
  assert (X : forall name, In (name, nreads f) (normality_statistics A) -> ~ In name conditional_normal -> exists v, f l = Ok (Some (Fin v))).
  { intros name I N. exact (G name _ I N). }
  cbn [In] in H. destruct H as [<-|[<-|[<-|[<-|[<-|[<-|[<-|[<-|[]]]]]]]]].
  - apply (X "FilliNormalityGofStatistic"); [cbn; tauto|cbn; intuition discriminate].
  - apply (X "LooneyGulledgeNormalityGofStatistic"); [cbn; tauto|cbn; intuition discriminate].
  - apply (X "RyanJoinerNormalityGofStatistic"); [cbn; tauto|cbn; intuition discriminate].
  - apply (X "SFNormalityGofStatistic"); [cbn; tauto|cbn; intuition discriminate].
  - apply (X "SWRGNormalityGofStatistic"); [cbn; tauto|cbn; intuition discriminate].
  - apply (X "DoornikHansenNormalityGofStatistic"); [cbn; tauto|cbn; intuition discriminate].
  - apply (X "SpiegelhalterNormalityGofStatistic"); [cbn; tauto|cbn; intuition discriminate].
  - apply (X "MartinezIglewiczNormalityGofStatistic"); [cbn; tauto|cbn; intuition discriminate].
Qed.
