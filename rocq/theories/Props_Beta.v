(** Properties C47, C48, C50, C53, C54, C61, C63, C64, C65, C67, C87 and C88 for the beta statistics. *)
From Coq Require Import String.
From Verif Require Import Base DecModel EdfModel EdfSpec GraphModel RegistryModel NormalLaw ExpModel ExpSpec NormModel NormSpec BetaModel BetaSpec EdfProofs EdfRotProofs EdfPowerProofs NormProofs NormSymProofs NormReflProofs NormRangeProofs NormFiniteProofs NormBoundProofs EdfClaims ExpClaims BetaProofs BetaClaims.
From Coq Require Import Lra Lia.
Local Open Scope string_scope.
Local Open Scope R_scope.

(** the table contains every beta class of the registry *)
Theorem C54_beta_complete : forall B psi betaln A c, In c stat_classes -> sc_dist c = BETA ->
  In (sc_name c) (map fst (beta_statistics B psi betaln A)).
Proof. exact C54_beta_complete_holds. Qed.
Print Assumptions C54_beta_complete.
(** *** C67 *)
Theorem C67_beta_constructor : forall alpha beta,
  ((exists p, beta_ctor alpha beta = Ok p) <-> 0 < alpha /\ 0 < beta) /\
  (beta_ctor alpha beta = Raise ValueError <-> alpha <= 0 \/ beta <= 0) /\
  ((exists p, beta_mode_ctor alpha beta = Ok p) <-> 1 < alpha /\ 1 < beta) /\
  (beta_mode_ctor alpha beta = Raise ValueError <-> alpha <= 1 \/ beta <= 1).
Proof. exact C67_beta_constructor_holds. Qed.
Print Assumptions C67_beta_constructor.
(** every class refuses observations outside [0,1], whatever the rest of the sample *)
Theorem C67_beta_refuses_outside : forall B psi betaln A name f l, In (name, f) (beta_statistics B psi betaln A) ->
  (exists x, In x l /\ (x < 0 \/ 1 < x)) -> nvalue (f l) = Raise ValueError.
Proof. exact C67_beta_refuses_outside_holds. Qed.
Print Assumptions C67_beta_refuses_outside.
(** *** C47, C48, C50, C53 *)
Theorem C47_beta : forall B psi betaln A l, beta_law B betaln -> 0 < ba_alpha A -> 0 < ba_beta A -> ba_alt A = TWO_TAILED -> l <> [] -> in_unit l ->
  exists f g d, In ("KolmogorovSmirnovBetaGofStatistic", f) (beta_statistics B psi betaln A) /\
     In ("LillieforsTestBetaGofStatistic", g) (beta_statistics B psi betaln A) /\
     nvalue (f l) = Ok (Some (Fin d)) /\ nvalue (g l) = Ok (Some (Fin d)) /\
     supremum (fun x => Rabs (edf l x - B (ba_alpha A) (ba_beta A) x)) d.
Proof. exact C47_beta_holds. Qed.
Print Assumptions C47_beta.
Theorem C48_beta : forall B psi betaln A name f l v, beta_law B betaln -> 0 < ba_alpha A -> 0 < ba_beta A -> ba_alt A = TWO_TAILED -> l <> [] ->
  In (name, f) (beta_statistics B psi betaln A) -> nvalue (f l) = Ok (Some (Fin v)) ->
  (In name ["KolmogorovSmirnovBetaGofStatistic"; "LillieforsTestBetaGofStatistic"] -> 1 / (2 * len l) <= v <= 1) /\
  (In name ["CrammerVonMisesBetaGofStatistic"; "WatsonBetaGofStatistic"] -> 1 / (12 * len l) <= v <= len l / 3) /\
  (name = "KuiperBetaGofStatistic" -> 1 / len l <= v <= 1).
Proof. exact C48_beta_holds. Qed.
Print Assumptions C48_beta.
(** Anderson-Darling is infinite exactly when an observation is at an end of the interval *)
Theorem C50_beta : forall B psi betaln A l f, beta_law B betaln -> 0 < ba_alpha A -> 0 < ba_beta A -> l <> [] -> in_unit l ->
  In ("AndersonDarlingBetaGofStatistic", f) (beta_statistics B psi betaln A) ->
  ((forall x, In x l -> 0 < x < 1) -> exists v, nvalue (f l) = Ok (Some (Fin v)) /\ 0 <= v) /\
  (nvalue (f l) = Ok (Some NonFinite) <-> exists x, In x l /\ (x = 0 \/ x = 1)).
Proof. exact C50_beta_holds. Qed.
Print Assumptions C50_beta.
Theorem C53_beta : forall B psi betaln A l f v, beta_law B betaln -> 0 < ba_alpha A -> 0 < ba_beta A ->
  In ("Chi2PearsonBetaGofStatistic", f) (beta_statistics B psi betaln A) -> nvalue (f l) = Ok (Some (Fin v)) -> 0 <= v.
Proof. exact C53_beta_holds. Qed.
Print Assumptions C53_beta.
(** *** C54, C64 *)
Theorem C54_beta : forall B psi betaln A name f l l', In (name, f) (beta_statistics B psi betaln A) -> Permutation l l' ->
  nvalue (f l) = nvalue (f l').
Proof. exact C54_beta_holds. Qed.
Print Assumptions C54_beta.
Theorem C64_beta : forall B psi betaln A name f l, In (name, f) (beta_statistics B psi betaln A) -> nsample_after (f l) = l.
Proof. exact C64_beta_holds. Qed.
Print Assumptions C64_beta.
(** *** C61 *)
(** the Lilliefors class estimates nothing: it is the two-sided Kolmogorov-Smirnov test of the given parameters *)
Theorem C61_beta_lilliefors : forall B psi betaln a b alt lambda l, exists f g,
  In ("LillieforsTestBetaGofStatistic", f) (beta_statistics B psi betaln (BetaArgs a b alt lambda)) /\
  In ("KolmogorovSmirnovBetaGofStatistic", g) (beta_statistics B psi betaln (BetaArgs a b TWO_TAILED lambda)) /\
  nvalue (f l) = nvalue (g l).
Proof. exact C61_beta_lilliefors_holds. Qed.
Print Assumptions C61_beta_lilliefors.
(** *** C63 *)
(** every class returns a finite number on two or more different observations inside (0,1) *)
Theorem C63_beta : forall B psi betaln A name f l, beta_law B betaln -> 0 < ba_alpha A -> 0 < ba_beta A -> 0 <= ba_lambda A ->
  In (name, f) (beta_statistics B psi betaln A) -> NoDup l -> (2 <= length l)%nat -> (forall x, In x l -> 0 < x < 1) ->
  exists v, nvalue (f l) = Ok (Some (Fin v)).
Proof. exact C63_beta_holds. Qed.
Print Assumptions C63_beta.
(** *** C87 *)
(** the mirrored sample tested against the mirrored hypothesis; the chi-square bins are half open, so no observation may
    be one of their edges *)
Theorem C87_beta_mirror : forall B psi betaln a b alt lambda name f l, beta_law B betaln -> 0 < a -> 0 < b ->
  off_edges (Nat.sqrt_up (length l)) l -> ~ In name ["RatioBetaGofStatistic"; "ModeBetaGofStatistic"] ->
  In (name, f) (beta_statistics B psi betaln (BetaArgs a b alt lambda)) ->
  exists g, In (name, g) (beta_statistics B psi betaln (BetaArgs b a (opposite alt) lambda)) /\ nvalue (g (mirror l)) = nvalue (f l).
Proof. exact C87_beta_mirror_holds. Qed.
Print Assumptions C87_beta_mirror.
(** the mode statistic: provided the density estimate has a single maximiser on the grid *)
Theorem C87_beta_mode : forall B psi betaln a b alt lambda f l m, 1 < a -> 1 < b ->
  In m mode_grid -> (forall x, In x mode_grid -> x <> m -> kde l x < kde l m) ->
  In ("ModeBetaGofStatistic", f) (beta_statistics B psi betaln (BetaArgs a b alt lambda)) ->
  exists g, In ("ModeBetaGofStatistic", g) (beta_statistics B psi betaln (BetaArgs b a (opposite alt) lambda)) /\ nvalue (g (mirror l)) = nvalue (f l).
Proof. exact C87_beta_mode_holds. Qed.
Print Assumptions C87_beta_mode.
(** the ratio statistic looks at one end only: with the digamma recurrence psi(2) = psi(1) + 1 the mirrored sample has
    another value although the uniform hypothesis is its own mirror image *)
Theorem C87_beta_ratio_refuted : forall B psi betaln alt lambda f, psi 2 = psi 1 + 1 ->
  In ("RatioBetaGofStatistic", f) (beta_statistics B psi betaln (BetaArgs 1 1 alt lambda)) ->
  nvalue (f (mirror [0; 1 / 2])) <> nvalue (f [0; 1 / 2]).
Proof. exact C87_beta_ratio_refuted_holds. Qed.
Print Assumptions C87_beta_ratio_refuted.
(** *** C88 *)
(** moment-based: zero exactly when the sample mean and variance are those of the hypothesis *)
Theorem C88_beta_moments : forall B psi betaln A f l v, 0 < ba_alpha A -> 0 < ba_beta A ->
  In ("MomentBasedBetaGofStatistic", f) (beta_statistics B psi betaln A) -> nvalue (f l) = Ok (Some (Fin v)) ->
  let a := ba_alpha A in let b := ba_beta A in
  0 <= v /\ (v = 0 <-> mean l = a / (a + b) /\ variance1 l = a * b / ((a + b) ^ 2 * (a + b + 1))).
Proof. exact C88_beta_moments_holds. Qed.
Print Assumptions C88_beta_moments.
(** skewness-kurtosis: zero exactly when both agree with those of the hypothesis *)
Theorem C88_beta_skewness_kurtosis : forall B psi betaln A f l v, (4 <= length l)%nat ->
  In ("SkewnessKurtosisBetaGofStatistic", f) (beta_statistics B psi betaln A) -> nvalue (f l) = Ok (Some (Fin v)) ->
  v = len l * ((sample_skewness l - theoretical_skewness (ba_alpha A) (ba_beta A)) ^ 2 / 6
               + (sample_excess_kurtosis l - theoretical_excess_kurtosis (ba_alpha A) (ba_beta A)) ^ 2 / 24) /\
  0 <= v /\ (v = 0 <-> sample_skewness l = theoretical_skewness (ba_alpha A) (ba_beta A) /\
                       sample_excess_kurtosis l = theoretical_excess_kurtosis (ba_alpha A) (ba_beta A)).
Proof. exact C88_beta_skewness_kurtosis_holds. Qed.
Print Assumptions C88_beta_skewness_kurtosis.
(** ratio of geometric and arithmetic mean: the compared quantity is between 0 and 1 *)
Theorem C88_beta_ratio : forall B psi betaln A f l v, 0 < ba_alpha A -> 0 < ba_beta A ->
  In ("RatioBetaGofStatistic", f) (beta_statistics B psi betaln A) -> nvalue (f l) = Ok (Some (Fin v)) ->
  let rho := exp (psi (ba_alpha A) - psi (ba_alpha A + ba_beta A)) * (ba_alpha A + ba_beta A) / ba_alpha A in
  0 <= v <= sqrt (len l) * Rmax rho (Rabs (1 - rho)).
Proof. exact C88_beta_ratio_holds. Qed.
Print Assumptions C88_beta_ratio.
(** mode: never negative; refuted is that it vanishes for a sample whose mode is right: for every symmetric hypothesis
    (in particular the default one) 1/2 is not on the grid, so the value is at least sqrt n * 0.49/199 on every sample *)
Theorem C88_beta_mode_refuted : forall B psi betaln A f l v, ba_alpha A = ba_beta A -> 1 < ba_alpha A ->
  In ("ModeBetaGofStatistic", f) (beta_statistics B psi betaln A) -> nvalue (f l) = Ok (Some (Fin v)) ->
  0 < sqrt (len l) * (0.49 / 199) <= v.
Proof. exact C88_beta_mode_refuted_holds. Qed.
Print Assumptions C88_beta_mode_refuted.
(** in general the value is sqrt n times the distance from the mode of the hypothesis to a maximiser of the estimate *)
Theorem C88_beta_mode : forall B psi betaln A f l v,
  In ("ModeBetaGofStatistic", f) (beta_statistics B psi betaln A) -> nvalue (f l) = Ok (Some (Fin v)) ->
  exists m, 0.01 <= m <= 0.99 /\ (forall x, In x mode_grid -> kde l x <= kde l m) /\
    v = sqrt (len l) * Rabs (m - (ba_alpha A - 1) / (ba_alpha A + ba_beta A - 2)).
Proof. exact C88_beta_mode_holds. Qed.
Print Assumptions C88_beta_mode.
(** entropy: refuted for fewer than four observations, where the window is empty and the data are not looked at *)
Theorem C88_beta_entropy_small_refuted : forall B psi betaln A f l l', In ("EntropyBetaGofStatistic", f) (beta_statistics B psi betaln A) ->
  length l = length l' -> (length l < 4)%nat -> in_unit l -> in_unit l' -> nvalue (f l) = nvalue (f l').
Proof. exact C88_beta_entropy_small_refuted_holds. Qed.
Print Assumptions C88_beta_entropy_small_refuted.
(** entropy: refuted for constant samples, whose windows are all skipped.  The class declares that large values are
    evidence against the hypothesis, but under the uniform hypothesis every constant sample has the smallest possible
    value 0, while an evenly spread sample has a larger one *)
Theorem C65_beta_entropy_refuted : declares "EntropyBetaGofStatistic" RIGHT /\
  forall B psi betaln alt lambda f, beta_law B betaln -> In ("EntropyBetaGofStatistic", f) (beta_statistics B psi betaln (BetaArgs 1 1 alt lambda)) ->
  (forall x n, 0 <= x <= 1 -> nvalue (f (repeat x (S n))) = Ok (Some (Fin 0))) /\
  (exists v, nvalue (f [0; 1 / 3; 2 / 3; 1]) = Ok (Some (Fin v)) /\ 0 < v).
Proof. exact C65_beta_entropy_refuted_holds. Qed.
Print Assumptions C65_beta_entropy_refuted.
(** the Lilliefors class is a distance but declares a two-sided alternative *)
Theorem C65_beta_lilliefors_refuted : declares "LillieforsTestBetaGofStatistic" TWO_TAILED /\
  forall B psi betaln A f l, beta_law B betaln -> 0 < ba_alpha A -> 0 < ba_beta A -> l <> [] -> in_unit l ->
  In ("LillieforsTestBetaGofStatistic", f) (beta_statistics B psi betaln A) ->
  exists d, nvalue (f l) = Ok (Some (Fin d)) /\ supremum (fun x => Rabs (edf l x - B (ba_alpha A) (ba_beta A) x)) d.
Proof. exact C65_beta_lilliefors_refuted_holds. Qed.
Print Assumptions C65_beta_lilliefors_refuted.
(** not vacuous *)
Example C88_nonvacuous : beta_law (fun _ _ => unit_cdf) (fun _ _ => 0) /\ unit_cdf (1 / 3) = 1 / 3.
Proof. exact C88_nonvacuous_holds. Qed.
Example C87_nonvacuous_beta : off_edges (Nat.sqrt_up (length [1 / 8; 2 / 5; 3 / 4])) [1 / 8; 2 / 5; 3 / 4].
Proof. exact C87_nonvacuous_beta_holds. Qed.
