(** Property C93: chi-square type statistics. *)
From Coq Require Import String.
From Verif Require Import Base DecModel EdfModel EdfSpec ExpModel NormModel GammaModel GammaSpec StudentModel StudentSpec BetaModel BetaSpec WeibullModel WeibullSpec ChisqSpec EdfProofs EdfPowerProofs EdfClaims NormRangeProofs NormFiniteProofs BetaProofs WeibullClaims GraphProofs ChisqProofs ChisqClaims.
From Coq Require Import Lra Lia.
Local Open Scope string_scope.
Local Open Scope R_scope.

(** every power divergence with equal totals *)
Theorem C93_power_divergence : forall lambda_ f_obs f_exp, length f_obs = length f_exp -> (forall o, In o f_obs -> 0 <= o) -> (forall e, In e f_exp -> 0 < e) ->
  Rsum f_obs = Rsum f_exp -> (power_divergence lambda_ f_obs f_exp = Fin 0 <-> f_obs = f_exp).
Proof. exact C93_power_divergence_holds. Qed.
Print Assumptions C93_power_divergence.
Theorem C93_uniform : forall a b lambda_ bins l, a < b -> (0 < bins)%nat -> l <> [] -> (forall x, In x l -> a <= x <= b) ->
  (chi2_uniform a b lambda_ bins l = Ok (Fin 0) <->
   forall i, (0 < i < bins)%nat -> below (a + (b - a) * (INR i / INR bins)) l = len l * (INR i / INR bins)).
Proof. exact C93_uniform_holds. Qed.
Print Assumptions C93_uniform.
Theorem C93_gamma : forall G Q A name f l, gamma_law G Q -> 0 < ga_alpha A -> 0 < ga_beta A -> (0 < ga_bins A)%nat -> l <> [] ->
  In name ["Chi2PearsonGammaGofStatistic"; "LikelihoodRatioGammaGofStatistic"; "CressieReadGammaGofStatistic"] -> In (name, f) (gamma_statistics G Q A) ->
  (nvalue (f l) = Ok (Some (Fin 0)) <->
   forall i e, (0 < i < ga_bins A)%nat -> G (ga_alpha A) (ga_beta A * e) = INR i / INR (ga_bins A) -> below e l = len l * (INR i / INR (ga_bins A))).
Proof. exact C93_gamma_holds. Qed.
Print Assumptions C93_gamma.
Theorem C93_student : forall T Q A f l, student_law T Q -> 0 < st_df A -> 0 < st_scale A -> (0 < st_bins A)%nat -> l <> [] ->
  In ("ChiSquareStudentGofStatistic", f) (student_statistics T Q A) ->
  (nvalue (f l) = Ok (Some (Fin 0)) <->
   forall i e, (0 < i < st_bins A)%nat -> T (st_df A) ((e - st_loc A) / st_scale A) = INR i / INR (st_bins A) -> below e l = len l * (INR i / INR (st_bins A))).
Proof. exact C93_student_holds. Qed.
Print Assumptions C93_student.
Theorem C93_beta : forall B psi betaln A f l, beta_law B betaln -> 0 < ba_alpha A -> 0 < ba_beta A -> l <> [] -> in_unit l ->
  In ("Chi2PearsonBetaGofStatistic", f) (beta_statistics B psi betaln A) ->
  let k := Nat.sqrt_up (length l) in
  (nvalue (f l) = Ok (Some (Fin 0)) <->
   forall i, (0 < i < k)%nat -> below (INR i / INR k) l = len l * B (ba_alpha A) (ba_beta A) (INR i / INR k)).
Proof. exact C93_beta_holds. Qed.
Print Assumptions C93_beta.
(** the Weibull class cannot be zero: the frequencies add up to 1 and the probabilities they are compared with do not *)
Theorem C93_weibull_refuted : forall minimise Gam gumbel_fit A f l v, valid_args A -> all_positive l -> (exists x y, In x l /\ In y l /\ x <> y) ->
  In ("Chi2PearsonWeibullGofStatistic", f) (weibull_statistics minimise Gam gumbel_fit A) -> nvalue (f l) = Ok (Some (Fin v)) ->
  let F := SamplerModel.generate_weibull_cdf (wa_a A) (wa_k A) in let E := F (Rmaxl 0 l) - F (Rminl 0 l) in
  0 < E < 1 /\ (1 - E) ^ 2 / E <= v /\ 0 < v.
Proof. exact C93_weibull_refuted_holds. Qed.
Print Assumptions C93_weibull_refuted.
(** not vacuous: two cells with their share, and two cells without *)
Example chisq_balanced : below (0 + (1 - 0) * (INR 1 / INR 2)) [1/4; 3/4] = len [1/4; 3/4] * (INR 1 / INR 2).
Proof.
  unfold below, len. replace (0 + (1 - 0) * (INR 1 / INR 2)) with (1/2) by (simpl; lra). cbn [filter].
  rewrite (proj2 (Rltb_true (1/4) (1/2))), (proj2 (Rltb_false (3/4) (1/2))) by lra. simpl. lra.
Qed.
Example chisq_zero : chi2_uniform 0 1 1 2 [1/4; 3/4] = Ok (Fin 0).
Proof.
  apply C93_uniform; [lra|lia|discriminate|intros x [<-|[<-|[]]]; lra|]. intros i Hi. replace i with 1%nat by lia. apply chisq_balanced.
Qed.
Example chisq_not_zero : chi2_uniform 0 1 1 2 [1/4; 1/3] <> Ok (Fin 0).
Proof.
  intros E. refine (_ (proj1 (C93_uniform 0 1 1 2 [1/4; 1/3] _ _ _ _) E)); [|lra|lia|discriminate|intros x [<-|[<-|[]]]; lra]. clear E. intros E. specialize (E 1%nat ltac:(lia)). unfold below, len in E.
  replace (0 + (1 - 0) * (INR 1 / INR 2)) with (1/2) in E by (simpl; lra). cbn [filter] in E.
  rewrite (proj2 (Rltb_true (1/4) (1/2))), (proj2 (Rltb_true (1/3) (1/2))) in E by lra. simpl in E. lra.
Qed.
