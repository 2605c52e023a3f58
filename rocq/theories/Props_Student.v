(** Properties C47, C48, C50, C54, C61, C63, C64, C65, C67, C86, C87 and C88 for the Student statistics. *)
From Coq Require Import String.
From Verif Require Import Base DecModel EdfModel EdfSpec GraphModel RegistryModel NormalLaw ExpModel ExpSpec NormModel NormSpec StudentModel StudentSpec EdfProofs EdfRotProofs EdfPowerProofs NormProofs NormSymProofs NormReflProofs NormRangeProofs NormFiniteProofs NormBoundProofs EdfClaims ExpClaims StudentProofs StudentClaims.
From Coq Require Import Lra Lia.
Local Open Scope string_scope.
Local Open Scope R_scope.

(** the table contains every Student class of the registry *)
Theorem C54_student_complete : forall T Q A c, In c stat_classes -> sc_dist c = STUDENT ->
  In (sc_name c) (map fst (student_statistics T Q A)).
Proof. exact C54_student_complete_holds. Qed.
Print Assumptions C54_student_complete.
(** *** C47, C48, C50 *)
(** the statistic of KolmogorovSmirnovStudentGofStatistic is the distance between the empirical distribution and the
    hypothesised one, and the Lilliefors class reports the distance to the standard t distribution *)
Theorem C47_student : forall T Q A l, student_law T Q -> 0 < st_df A -> 0 < st_scale A -> st_alt A = TWO_TAILED -> l <> [] ->
  (exists f d, In ("KolmogorovSmirnovStudentGofStatistic", f) (student_statistics T Q A) /\
     nvalue (f l) = Ok (Some (Fin d)) /\ supremum (fun x => Rabs (edf l x - T (st_df A) ((x - st_loc A) / st_scale A))) d) /\
  (exists f d, In ("LillieforsStudentGofStatistic", f) (student_statistics T Q A) /\
     nvalue (f l) = Ok (Some (Fin d)) /\ supremum (fun x => Rabs (edf l x - T (st_df A) x)) d).
Proof. exact C47_student_holds. Qed.
Print Assumptions C47_student.
Theorem C48_student : forall T Q A name f l v, student_law T Q -> 0 < st_df A -> 0 < st_scale A -> st_alt A = TWO_TAILED -> l <> [] ->
  In (name, f) (student_statistics T Q A) -> nvalue (f l) = Ok (Some (Fin v)) ->
  (In name ["KolmogorovSmirnovStudentGofStatistic"; "LillieforsStudentGofStatistic"] -> 1 / (2 * len l) <= v <= 1) /\
  (In name ["CramerVonMisesStudentGofStatistic"; "WatsonStudentGofStatistic"] -> 1 / (12 * len l) <= v <= len l / 3) /\
  (name = "KuiperStudentGofStatistic" -> 1 / len l <= v <= 1).
Proof. exact C48_student_holds. Qed.
Print Assumptions C48_student.
(** t observations are never outside the support: the Anderson-Darling statistic is always finite *)
Theorem C50_student : forall T Q A l, student_law T Q -> 0 < st_df A -> l <> [] ->
  exists f v, In ("AndersonDarlingStudentGofStatistic", f) (student_statistics T Q A) /\ nvalue (f l) = Ok (Some (Fin v)) /\ 0 <= v.
Proof. exact C50_student_holds. Qed.
Print Assumptions C50_student.
(** *** C54, C64 *)
Theorem C54_student : forall T Q A name f l l', In (name, f) (student_statistics T Q A) -> Permutation l l' ->
  nvalue (f l) = nvalue (f l').
Proof. exact C54_student_holds. Qed.
Print Assumptions C54_student.
Theorem C64_student : forall T Q A name f l, In (name, f) (student_statistics T Q A) -> nsample_after (f l) = l.
Proof. exact C64_student_holds. Qed.
Print Assumptions C64_student.
(** *** C61 *)
(** the location and the scale are used: a relocated sample tested against the relocated hypothesis *)
Theorem C61_student : forall T Q df loc scale alt bins a b name f l, 0 < b -> 0 < scale ->
  name <> "LillieforsStudentGofStatistic" ->
  In (name, f) (student_statistics T Q (StudentArgs df loc scale alt bins)) ->
  exists g, In (name, g) (student_statistics T Q (StudentArgs df (a + b * loc) (b * scale) alt bins)) /\
            nvalue (g (relocate a b l)) = nvalue (f l).
Proof. exact C61_student_holds. Qed.
Print Assumptions C61_student.
(** the Lilliefors class has no location and scale: it is the Kolmogorov-Smirnov test of the standard t distribution *)
Theorem C61_student_lilliefors : forall T Q df loc scale alt bins l, exists f g,
  In ("LillieforsStudentGofStatistic", f) (student_statistics T Q (StudentArgs df loc scale alt bins)) /\
  In ("KolmogorovSmirnovStudentGofStatistic", g) (student_statistics T Q (StudentArgs df 0 1 TWO_TAILED bins)) /\
  nvalue (f l) = nvalue (g l).
Proof. exact C61_student_lilliefors_holds. Qed.
Print Assumptions C61_student_lilliefors.
(** *** C63 *)
Theorem C63_student : forall T Q A name f l, student_law T Q -> 0 < st_df A -> (1 <= st_bins A)%nat ->
  In (name, f) (student_statistics T Q A) -> l <> [] -> exists v, nvalue (f l) = Ok (Some (Fin v)).
Proof. exact C63_student_holds. Qed.
Print Assumptions C63_student.
(** *** C67 *)
Theorem C67_student_constructor : forall df loc scale,
  ((exists p, student_ctor df loc scale = Ok p) <-> 0 < df /\ 0 < scale) /\
  (student_ctor df loc scale = Raise ValueError <-> df <= 0 \/ scale <= 0).
Proof. exact C67_student_constructor_holds. Qed.
Print Assumptions C67_student_constructor.
(** *** C88 *)
(** the Zhang statistics are never negative, Za is positive *)
Theorem C88_student_zhang : forall T Q A l, l <> [] -> exists f g v w,
  In ("ZhangZcStudentGofStatistic", f) (student_statistics T Q A) /\ In ("ZhangZaStudentGofStatistic", g) (student_statistics T Q A) /\
  nvalue (f l) = Ok (Some (Fin v)) /\ 0 <= v /\ nvalue (g l) = Ok (Some (Fin w)) /\ 0 < w.
Proof. exact C88_student_zhang_holds. Qed.
Print Assumptions C88_student_zhang.
(** *** C65 *)
(** the Zhang Zc statistic declares a right-tailed alternative, but moving the largest observation further into the
    tail, however far, makes the value smaller: the last reference odds are clipped to 1e-10 *)
Theorem C65_student_zhang_zc_refuted : forall T Q A f l x y, student_law T Q -> 0 < st_df A -> 0 < st_scale A ->
  In ("ZhangZcStudentGofStatistic", f) (student_statistics T Q A) ->
  (forall z, In z l -> z <= x) -> x < y -> / 10 ^ 10 <= student_cdf T (st_df A) (st_loc A) (st_scale A) x ->
  student_cdf T (st_df A) (st_loc A) (st_scale A) y <= 1 - / 10 ^ 10 ->
  declares "ZhangZcStudentGofStatistic" RIGHT /\
  exists v w, nvalue (f (y :: l)) = Ok (Some (Fin v)) /\ nvalue (f (x :: l)) = Ok (Some (Fin w)) /\ v < w.
Proof. exact C65_student_zhang_zc_refuted_holds. Qed.
Print Assumptions C65_student_zhang_zc_refuted.
(** *** C87 *)
(** the t distribution is symmetric, so mirroring the sample at the centre of the hypothesis does not change the value;
    the one-sided Kolmogorov-Smirnov statistics change places; bins are half open, so no observation may be an edge *)
Theorem C87_student_mirror : forall T Q df loc scale alt bins name f l, student_law T Q -> 0 < df -> 0 < scale ->
  (forall x i, In x l -> (1 <= i < bins)%nat -> student_cdf T df loc scale x <> INR i / INR bins) ->
  name <> "ZhangZcStudentGofStatistic" ->
  In (name, f) (student_statistics T Q (StudentArgs df loc scale alt bins)) ->
  exists g, In (name, g) (student_statistics T Q (StudentArgs df (- loc) scale (opposite alt) bins)) /\
            nvalue (g (map Ropp l)) = nvalue (f l).
Proof. exact C87_student_mirror_holds. Qed.
Print Assumptions C87_student_mirror.
(** the Zhang Zc statistic treats the two tails differently, already for one observation *)
Theorem C87_student_zhang_zc_refuted : forall T Q A f, student_law T Q -> 0 < st_df A -> st_loc A = 0 -> st_scale A = 1 ->
  In ("ZhangZcStudentGofStatistic", f) (student_statistics T Q A) -> nvalue (f (map Ropp [1])) <> nvalue (f [1]).
Proof. exact C87_student_zhang_zc_refuted_holds. Qed.
Print Assumptions C87_student_zhang_zc_refuted.
(** *** C86 *)
(** hypothesis() of the other families determines the parameters *)
Theorem C86_parameters_reported :
  (forall l l', exponential_hypothesis l = exponential_hypothesis l' -> l = l') /\
  (forall p p', gamma_hypothesis p = gamma_hypothesis p' -> p = p') /\
  (forall p p', beta_hypothesis p = beta_hypothesis p' -> p = p') /\
  (forall p p', uniform_hypothesis p = uniform_hypothesis p' -> p = p') /\
  (forall p p', lognormal_hypothesis p = lognormal_hypothesis p' -> p = p') /\
  (forall p p', weibull_hypothesis p = weibull_hypothesis p' -> p = p').
Proof. exact C86_parameters_reported_holds. Qed.
Print Assumptions C86_parameters_reported.
(** and names each of them once *)
Theorem C86_parameter_names_distinct : (forall p, NoDup (map fst (gamma_hypothesis p))) /\ (forall p, NoDup (map fst (beta_hypothesis p))) /\
  (forall p, NoDup (map fst (uniform_hypothesis p))) /\ (forall p, NoDup (map fst (lognormal_hypothesis p))) /\
  (forall p, NoDup (map fst (weibull_hypothesis p))).
Proof. exact C86_parameter_names_distinct_holds. Qed.
Print Assumptions C86_parameter_names_distinct.
(** the names are the keywords of the constructors (exponent.py:40, gamma.py:43, beta.py:28, uniform.py:25, log_normal.py:25,
    weibull.py:35), so a report can be passed back to the constructor *)
Theorem C86_parameter_keywords :
  (forall l, map fst (exponential_hypothesis l) = ["lam"]) /\ (forall p, map fst (gamma_hypothesis p) = ["alpha"; "beta"]) /\
  (forall p, map fst (beta_hypothesis p) = ["alpha"; "beta"]) /\ (forall p, map fst (uniform_hypothesis p) = ["a"; "b"]) /\
  (forall p, map fst (lognormal_hypothesis p) = ["s"; "scale"]) /\ (forall p, map fst (weibull_hypothesis p) = ["a"; "k"]).
Proof. exact C86_parameter_keywords_holds. Qed.
Print Assumptions C86_parameter_keywords.
(** hypothesis() of a Student statistic does not: two hypotheses that differ in the location (or scale) are reported
    as the same one although the statistic distinguishes them *)
Theorem C86_student_hypothesis_refuted : forall T Q df loc, student_law T Q -> 0 < df -> loc <> 0 ->
  exists p p', student_ctor df 0 1 = Ok p /\ student_ctor df loc 1 = Ok p' /\ p <> p' /\ student_hypothesis p = student_hypothesis p' /\
    ks_stat (student_cdf T df 0 1) TWO_TAILED [0] <> ks_stat (student_cdf T df loc 1) TWO_TAILED [0].
Proof. exact C86_student_hypothesis_refuted_holds. Qed.
Print Assumptions C86_student_hypothesis_refuted.
(** not vacuous: the Cauchy distribution, that is the t distribution with one degree of freedom *)
Example C86_nonvacuous : student_law (fun _ => cauchy_cdf) (fun _ => cauchy_ppf).
Proof. exact C86_nonvacuous_holds. Qed.
Example C87_nonvacuous : forall x i, In x [2; -5] -> (1 <= i < 2)%nat -> cauchy_cdf ((x - 0) / 1) <> INR i / INR 2.
Proof. exact C87_nonvacuous_holds. Qed.
