(** The beta law behind the beta statistics *)
From Coq Require Import String.
From Coquelicot Require Import Coquelicot.
From Verif Require Import Base DecModel EdfModel EdfSpec GraphModel NormalLaw ExpModel NormModel NormSpec BetaModel BetaSpec BetaLawSpec NormProofs NormAffProofs BetaProofs BetaClaims BetaLawProofs BetaLawClaims.
From Coq Require Import Lra Lia.
Local Open Scope string_scope.
Local Open Scope R_scope.

(** the law exists for all parameters: its density has a finite positive integral *)
Theorem C113_law_exists : forall a b, 0 < a -> 0 < b -> exists c, beta_constant a b c.
Proof. exact C113_law_exists_holds. Qed.
Print Assumptions C113_law_exists.
(** moment-based: mean and variance are those of the law *)
Theorem C113_moments : forall B psi betaln A f l v, 0 < ba_alpha A -> 0 < ba_beta A ->
  In ("MomentBasedBetaGofStatistic", f) (beta_statistics B psi betaln A) -> nvalue (f l) = Ok (Some (Fin v)) ->
  exists mu var, 0 < var /\ beta_expects (ba_alpha A) (ba_beta A) (fun x => x) mu /\ beta_expects (ba_alpha A) (ba_beta A) (fun x => (x - mu) ^ 2) var /\
    v = len l * ((mean l - mu) ^ 2 + (variance1 l - var) ^ 2) / var.
Proof. exact C113_moments_holds. Qed.
Print Assumptions C113_moments.
(** skewness-kurtosis: standardised third and fourth moments of the law *)
Theorem C113_skewness_kurtosis : forall B psi betaln A f l v, 0 < ba_alpha A -> 0 < ba_beta A -> (4 <= length l)%nat ->
  In ("SkewnessKurtosisBetaGofStatistic", f) (beta_statistics B psi betaln A) -> nvalue (f l) = Ok (Some (Fin v)) ->
  exists mu sigma g1 k, 0 < sigma /\ beta_expects (ba_alpha A) (ba_beta A) (fun x => x) mu /\ beta_expects (ba_alpha A) (ba_beta A) (fun x => (x - mu) ^ 2) (sigma ^ 2) /\
    beta_expects (ba_alpha A) (ba_beta A) (fun x => ((x - mu) / sigma) ^ 3) g1 /\ beta_expects (ba_alpha A) (ba_beta A) (fun x => ((x - mu) / sigma) ^ 4) k /\
    v = len l * ((sample_skewness l - g1) ^ 2 / 6 + (sample_excess_kurtosis l - (k - 3)) ^ 2 / 24).
Proof. exact C113_skewness_kurtosis_holds. Qed.
Print Assumptions C113_skewness_kurtosis.
(** ratio: the geometric mean over the mean of the law *)
Theorem C113_ratio : forall B psi betaln A f l v, digamma_like psi -> 0 < ba_alpha A -> 0 < ba_beta A ->
  In ("RatioBetaGofStatistic", f) (beta_statistics B psi betaln A) -> nvalue (f l) = Ok (Some (Fin v)) ->
  exists mu lambda g, beta_expects (ba_alpha A) (ba_beta A) (fun x => x) mu /\ beta_expects (ba_alpha A) (ba_beta A) ln lambda /\
    ((forall x, In x l -> 0 < x) -> g = exp (mean (map ln l))) /\ (In 0 l -> g = 0) /\
    v = sqrt (len l) * Rabs (g / mean l - exp lambda / mu).
Proof. exact C113_ratio_holds. Qed.
Print Assumptions C113_ratio.
(** entropy: minus the mean logarithm of the density of the law *)
Theorem C113_entropy : forall B psi betaln A f l v c, digamma_like psi -> 0 < ba_alpha A -> 0 < ba_beta A ->
  beta_constant (ba_alpha A) (ba_beta A) c -> betaln (ba_alpha A) (ba_beta A) = ln c ->
  In ("EntropyBetaGofStatistic", f) (beta_statistics B psi betaln A) -> nvalue (f l) = Ok (Some (Fin v)) ->
  exists h, beta_expects (ba_alpha A) (ba_beta A) (fun x => - ln (beta_weight (ba_alpha A) (ba_beta A) x / c)) h /\
    v = sqrt (len l) * Rabs (vasicek_estimate (rsort l) (length l / 4) - h).
Proof. exact C113_entropy_holds. Qed.
Print Assumptions C113_entropy.
Theorem C113_mode : forall B psi betaln A f l v, 1 < ba_alpha A -> 1 < ba_beta A ->
  In ("ModeBetaGofStatistic", f) (beta_statistics B psi betaln A) -> nvalue (f l) = Ok (Some (Fin v)) ->
  exists m m0, grid_point m /\ (forall x, grid_point x -> scott_density l x <= scott_density l m) /\
    (forall x, 0 < x < 1 -> x <> m0 -> beta_weight (ba_alpha A) (ba_beta A) x < beta_weight (ba_alpha A) (ba_beta A) m0) /\ 0 < m0 < 1 /\
    v = sqrt (len l) * Rabs (m - m0).
Proof. exact C113_mode_holds. Qed.
Print Assumptions C113_mode.
(** non-vacuity: an increasing function with the recursion of digamma exists, and the classes return numbers *)
Example C113_nonvacuous_digamma : exists psi, digamma_like psi.
Proof. exact C113_nonvacuous_digamma_holds. Qed.
Example C113_nonvacuous_values : forall B psi betaln name f, let A := BetaArgs 2 3 TWO_TAILED 1 in let l := [1 / 5; 2 / 5; 3 / 5; 4 / 5] in
  In name ["MomentBasedBetaGofStatistic"; "SkewnessKurtosisBetaGofStatistic"; "RatioBetaGofStatistic"; "EntropyBetaGofStatistic"; "ModeBetaGofStatistic"] ->
  In (name, f) (beta_statistics B psi betaln A) -> exists v, nvalue (f l) = Ok (Some (Fin v)).
Proof. exact C113_nonvacuous_values_holds. Qed.
