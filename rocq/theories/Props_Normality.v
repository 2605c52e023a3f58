(** Properties C54, C60, C61, C64 and C83 for the normality statistics. *)
From Coq Require Import String.
From Verif Require Import Base DecModel EdfModel GraphModel RegistryModel NormalLaw ExpModel ExpSpec NormModel NormSpec EdfProofs ExpProofs ExpRangeProofs NormProofs NormSymProofs NormAffProofs NormReflProofs NormClaims.
From Coq Require Import Lra Lia.
Local Open Scope string_scope.
Local Open Scope R_scope.

(** *** C54 *)
Theorem C54_normality : forall A name f rvs rvs', In (name, f) (normality_statistics A) ->
  Permutation rvs rvs' -> nvalue (f rvs) = nvalue (f rvs').
Proof. exact C54_normality_holds. Qed.
Print Assumptions C54_normality.
(** the table lists every class of the module that is not a graph statistic, except one, under the names of the
    registry *)
Theorem C54_normality_complete : forall A,
  incl (map sc_name normal_classes)
    (map fst (normality_statistics A) ++ ["BHSNormalityGofStatistic";
      "GraphEdgesNumberNormalityGofStatistic"; "GraphMaxDegreeNormalityGofStatistic";
      "GraphAverageDegreeNormalityGofStatistic"; "GraphConnectedComponentsNormalityGofStatistic";
      "GraphCliqueNumberNormalityGofStatistic"; "GraphIndependenceNumberNormalityGofStatistic"]).
Proof. exact C54_normality_complete_holds. Qed.
Print Assumptions C54_normality_complete.

(** *** C60 *)
Theorem C60_normality : forall A name f a b rvs, In (name, f) (normality_statistics A) -> ~ In name simple_normal ->
  0 < b -> nvalue (f (map (fun x => a + b * x) rvs)) = nvalue (f rvs).
Proof. exact C60_normality_holds. Qed.
Print Assumptions C60_normality.

(** *** C83 *)
Theorem C83_normality_reflection : forall A name f rvs, In (name, f) (normality_statistics A) ->
  ~ In name directed_normal -> 0 <= n_alpha A < 1 -> nvalue (f (map Ropp rvs)) = nvalue (f rvs).
Proof. exact C83_normality_reflection_holds. Qed.
Print Assumptions C83_normality_reflection.
(** the one-sided Kolmogorov-Smirnov statistics and the two Zhang Q statistics change places *)
Theorem C83_kolmogorov_smirnov_reflection : forall mean_ var_ alt rvs,
  ks_norm mean_ var_ alt (map Ropp rvs) = ks_norm mean_ var_ (opposite alt) rvs.
Proof. exact C83_kolmogorov_smirnov_reflection_holds. Qed.
Print Assumptions C83_kolmogorov_smirnov_reflection.
Theorem C83_zhang_q_reflection : forall rvs, zq (map Ropp rvs) = zqs rvs /\ zqs (map Ropp rvs) = zq rvs.
Proof. exact C83_zhang_q_reflection_holds. Qed.
Print Assumptions C83_zhang_q_reflection.
(** the skewness statistic changes its sign, unless the skewness is zero *)
Theorem C83_skewness_reflection : forall rvs v, (8 <= length rvs)%nat -> Rsum (map (fun x => (x - mean rvs) ^ 3) rvs) <> 0 ->
  skew_norm rvs = Ok (Some (Fin v)) -> skew_norm (map Ropp rvs) = Ok (Some (Fin (- v))).
Proof. exact C83_skewness_reflection_holds. Qed.
Print Assumptions C83_skewness_reflection.
(** a zero skewness is reported as the skewness of an asymmetric sample: the value is positive for every
    sample that equals its mirror image *)
Theorem C83_skewness_refuted : forall rvs, (8 <= length rvs)%nat -> (exists x y, In x rvs /\ In y rvs /\ x <> y) ->
  Permutation (map Ropp rvs) rvs -> exists v, 0 < v /\ skew_norm rvs = Ok (Some (Fin v)) /\ skew_norm (map Ropp rvs) = Ok (Some (Fin v)).
Proof. exact C83_skewness_refuted_holds. Qed.
Print Assumptions C83_skewness_refuted.
Example C83_nonvacuous : let rvs := [-4; -3; -2; -1; 1; 2; 3; 4] in
  (8 <= length rvs)%nat /\ (exists x y, In x rvs /\ In y rvs /\ x <> y) /\ Permutation (map Ropp rvs) rvs.
Proof. exact C83_nonvacuous_holds. Qed.
(** with the reflection, the origin and the unit may be changed by any non-zero factor *)
Theorem C60_normality_any_factor : forall A name f a b rvs, In (name, f) (normality_statistics A) -> ~ In name simple_normal ->
  ~ In name directed_normal -> 0 <= n_alpha A < 1 -> b <> 0 -> nvalue (f (map (fun x => a + b * x) rvs)) = nvalue (f rvs).
Proof. exact C60_normality_any_factor_holds. Qed.
Print Assumptions C60_normality_any_factor.

(** *** C61 *)
Theorem C61_normal_ks_ignores_parameters : forall m v m' v' alt rvs, ks_norm m v alt rvs = ks_norm m' v' alt rvs.
Proof. exact C61_normal_ks_ignores_parameters_holds. Qed.
Print Assumptions C61_normal_ks_ignores_parameters.
(** a sample from N(m, v) tested against N(m, v) should give the value of the standardised sample against N(0, 1) *)
Theorem C61_normal_ks_refuted : exists m v rvs, 0 < v /\
  ks_norm m v TWO_TAILED rvs <> ks_norm 0 1 TWO_TAILED (map (fun x => (x - m) / sqrt v) rvs).
Proof. exact C61_normal_ks_refuted_holds. Qed.
Print Assumptions C61_normal_ks_refuted.

(** *** C64 *)
Theorem C64_normality_reads_only : forall A name f rvs, In (name, f) (normality_statistics A) ->
  ~ In name sorting_normal -> nsample_after (f rvs) = rvs.
Proof. exact C64_normality_reads_only_holds. Qed.
Print Assumptions C64_normality_reads_only.
Theorem C64_normality_sorts : forall A name f rvs, In (name, f) (normality_statistics A) ->
  In name sorting_normal -> (nsample_after (f rvs) = rvs <-> (length rvs <= 3)%nat \/ sortedR rvs).
Proof. exact C64_normality_sorts_holds. Qed.
Print Assumptions C64_normality_sorts.
Theorem C64_normality_refuted : forall A, exists name f rvs, In (name, f) (normality_statistics A) /\ nsample_after (f rvs) <> rvs.
Proof. exact C64_normality_refuted_holds. Qed.
Print Assumptions C64_normality_refuted.
