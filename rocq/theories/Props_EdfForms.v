(** C108, C109: statistics of transformed samples equal their published definitions *)
From Coq Require Import String.
From Coquelicot Require Import Coquelicot.
From Verif Require Import Base DecModel EdfModel EdfSpec GraphModel NormalLaw ExpModel ExpSpec NormModel GammaModel GammaSpec BetaModel BetaSpec StudentModel StudentSpec UniformModel UniformSpec WeibullModel WeibullSpec LognormModel NormMoreSpec WeibullFormSpec EdfProofs EdfRotProofs EdfIntProofs EdfPowerProofs NormReflProofs NormFiniteProofs NormRangeProofs NormBoundProofs EdfClaims GammaProofs BetaProofs StudentProofs UniformProofs GammaClaims BetaClaims StudentClaims UniformClaims WeibullProofs LognormProofs WeibullFormProofs EdfFormSpec EdfFormProofs EdfFormClaims.
From Coq Require Import Lra Lia.
Local Open Scope string_scope.
Local Open Scope R_scope.

Theorem C108_gamma : forall G Q A l name P f v, gamma_law G Q -> 0 < ga_alpha A -> 0 < ga_beta A -> (0 < ga_bins A)%nat -> l <> [] ->
  In (name, P) (gamma_published (fun x => G (ga_alpha A) (ga_beta A * x)) (fun p => Q (ga_alpha A) p / ga_beta A) (ga_bins A) (ga_power A) l) ->
  In (name, f) (gamma_statistics G Q A) -> nvalue (f l) = Ok (Some (Fin v)) -> P v.
Proof. exact C108_gamma_holds. Qed.
Print Assumptions C108_gamma.
Theorem C108_student : forall T Q A l name P f v, student_law T Q -> 0 < st_df A -> 0 < st_scale A -> (0 < st_bins A)%nat -> l <> [] ->
  In (name, P) (student_published (fun x => T (st_df A) ((x - st_loc A) / st_scale A)) (st_bins A) l) ->
  In (name, f) (student_statistics T Q A) -> nvalue (f l) = Ok (Some (Fin v)) -> P v.
Proof. exact C108_student_holds. Qed.
Print Assumptions C108_student.
Theorem C108_beta : forall B psi betaln A l name P f v, beta_law B betaln -> 0 < ba_alpha A -> 0 < ba_beta A -> l <> [] ->
  In (name, P) (beta_published (B (ba_alpha A) (ba_beta A)) (ba_lambda A) l) ->
  In (name, f) (beta_statistics B psi betaln A) -> nvalue (f l) = Ok (Some (Fin v)) -> P v.
Proof. exact C108_beta_holds. Qed.
Print Assumptions C108_beta.
Theorem C108_uniform : forall A l k name P f v, ua_a A < ua_b A -> l <> [] -> uniform_bins (ua_a A) (ua_b A) (ua_bins A) l = Ok k ->
  In (name, P) (uniform_published (ua_a A) (ua_b A) k (ua_lambda A) l) ->
  In (name, f) (uniform_statistics A) -> nvalue (f l) = Ok (Some (Fin v)) -> P v.
Proof. exact C108_uniform_holds. Qed.
Print Assumptions C108_uniform.
(** Watson's statistic of the uniform class is the published one divided by n and increased by 1/4 *)
Theorem C109_watson_uniform : forall A l f v, ua_a A < ua_b A -> l <> [] -> In ("WatsonUniformGofStatistic", f) (uniform_statistics A) ->
  nvalue (f l) = Ok (Some (Fin v)) -> v = watson (map (interval_cdf (ua_a A) (ua_b A)) l) / len l + 1 / 4.
Proof. exact C109_watson_uniform_holds. Qed.
Print Assumptions C109_watson_uniform.
Theorem C109_watson_uniform_refuted : forall A, ua_a A < ua_b A -> exists l f v, In ("WatsonUniformGofStatistic", f) (uniform_statistics A) /\
  nvalue (f l) = Ok (Some (Fin v)) /\ v <> watson (map (interval_cdf (ua_a A) (ua_b A)) l).
Proof. exact C109_watson_uniform_refuted_holds. Qed.
Print Assumptions C109_watson_uniform_refuted.
(** Zhang's Z_A *)
Theorem C108_zhang_uniform : forall A l f v, ua_a A < ua_b A -> ua_zhang A = ZhangA -> In ("ZhangTestsUniformGofStatistic", f) (uniform_statistics A) ->
  nvalue (f l) = Ok (Some (Fin v)) -> v = EdfFormSpec.zhang_a (map (interval_cdf (ua_a A) (ua_b A)) l).
Proof. exact C108_zhang_uniform_holds. Qed.
Print Assumptions C108_zhang_uniform.
Theorem C108_weibull : forall minimise Gam gumbel_fit A l name P f v, valid_args A -> l <> [] ->
  In (name, P) (weibull_published (SamplerModel.generate_weibull_cdf (wa_a A) (wa_k A)) l) ->
  In (name, f) (weibull_statistics minimise Gam gumbel_fit A) -> nvalue (f l) = Ok (Some (Fin v)) -> P v.
Proof. exact C108_weibull_holds. Qed.
Print Assumptions C108_weibull.
(** log-normal and exponential classes *)
Theorem C108_lognormal : forall s scale alt l f v, 0 < s -> 0 < scale -> l <> [] ->
  nvalue (f l) = Ok (Some (Fin v)) -> let u := map (fun x => if Rle_dec x 0 then 0 else norm_cdf (ln (x / scale) / s)) l in
  (In ("CramerVonMiseLogNormalGofStatistic", f) (firstn 5 (lognormal_statistics s scale alt)) -> v = cramer_von_mises u) /\
  (In ("QuesenberryMillerLogNormalGofStatistic", f) (firstn 5 (lognormal_statistics s scale alt)) -> v = quesenberry_miller 0 1 u).
Proof. exact C108_lognormal_holds. Qed.
Print Assumptions C108_lognormal.
Theorem C108_normal : forall A l name P f v, (2 <= List.length l)%nat -> In (name, P) (normal_published l) ->
  In (name, f) (normality_statistics A) -> nvalue (f l) = Ok (Some (Fin v)) -> P v.
Proof. exact C108_normal_holds. Qed.
Print Assumptions C108_normal.
Example C108_nonvacuous_gamma : forall name P, In (name, P) (gamma_published exponential_cdf exponential_ppf 2 (2 / 3) [1; 2]) ->
  exists f v, In (name, f) (gamma_statistics (fun _ => exponential_cdf) (fun _ => exponential_ppf) (GammaArgs 1 1 TWO_TAILED 2 (2 / 3))) /\ nvalue (f [1; 2]) = Ok (Some (Fin v)).
Proof. exact C108_nonvacuous_gamma_holds. Qed.
Example C108_nonvacuous_student : forall name P, In (name, P) (student_published cauchy_cdf 2 [1; 2]) ->
  exists f v, In (name, f) (student_statistics (fun _ => cauchy_cdf) (fun _ => cauchy_ppf) (StudentArgs 1 0 1 TWO_TAILED 2)) /\ nvalue (f [1; 2]) = Ok (Some (Fin v)).
Proof. exact C108_nonvacuous_student_holds. Qed.
Example C108_nonvacuous_uniform : forall name P, In (name, P) (uniform_published 0 3 2 1 [1; 2]) ->
  exists f v, In (name, f) (uniform_statistics (UniformArgs 0 3 TWO_TAILED 1 (GivenBins 2) AutoBandwidth ZhangA 4)) /\ nvalue (f [1; 2]) = Ok (Some (Fin v)).
Proof. exact C108_nonvacuous_uniform_holds. Qed.
Example C108_nonvacuous_beta : forall name P, In (name, P) (beta_published unit_cdf 1 [1 / 4; 1 / 2]) ->
  exists f v, In (name, f) (beta_statistics (fun _ _ => unit_cdf) (fun x => x) (fun _ _ => 0) (BetaArgs 1 1 TWO_TAILED 1)) /\ nvalue (f [1 / 4; 1 / 2]) = Ok (Some (Fin v)).
Proof. exact C108_nonvacuous_beta_holds. Qed.
