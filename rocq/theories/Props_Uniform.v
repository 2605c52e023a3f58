(** Properties of the uniform statistics. *)
From Coq Require Import String.
From Coquelicot Require Import Coquelicot.
From Verif Require Import Base DecModel EdfModel EdfSpec GraphModel RegistryModel NormalLaw ExpModel ExpSpec NormModel NormSpec BetaSpec UniformModel UniformSpec EdfProofs EdfRotProofs EdfPowerProofs ExpProofs ExpRangeProofs NormProofs NormAffProofs NormSymProofs NormReflProofs NormRangeProofs NormFiniteProofs EdfClaims ExpClaims StudentProofs BetaProofs LegendreProofs UniformProofs UniformStatProofs UniformKmProofs UniformMomentProofs UniformClaims.
From Coq Require Import Lra Lia.
Local Open Scope string_scope.
Local Open Scope R_scope.

(** the table contains every uniform class of the registry *)
Theorem C54_uniform_complete : forall A c, In c stat_classes -> sc_dist c = UNIFORM ->
  In (sc_name c) (map fst (uniform_statistics A)).
Proof. exact C54_uniform_complete_holds. Qed.
Print Assumptions C54_uniform_complete.
(** *** C67 *)
(** every class refuses observations outside [a, b], whatever the rest of the sample *)
Theorem C67_uniform_table_refuses_outside : forall A name f l, In (name, f) (uniform_statistics A) ->
  (exists x, In x l /\ (x < ua_a A \/ ua_b A < x)) -> nvalue (f l) = Raise ValueError.
Proof. exact C67_uniform_table_refuses_outside_holds. Qed.
Print Assumptions C67_uniform_table_refuses_outside.
(** the Zhang class accepts exactly the letters A, C and K *)
Theorem C67_uniform_zhang_constructor : forall t,
  (zhang_ctor t = Ok ZhangA <-> t = "A" \/ t = "a") /\ (zhang_ctor t = Ok ZhangC <-> t = "C" \/ t = "c") /\
  (zhang_ctor t = Ok ZhangK <-> t = "K" \/ t = "k") /\
  (zhang_ctor t = Raise ValueError <-> ~ In t ["A"; "a"; "C"; "c"; "K"; "k"]).
Proof. exact C67_uniform_zhang_constructor_holds. Qed.
Print Assumptions C67_uniform_zhang_constructor.
(** *** C47, C48, C50, C53 *)
Theorem C47_uniform : forall A l, ua_a A < ua_b A -> ua_alt A = TWO_TAILED -> l <> [] -> within (ua_a A) (ua_b A) l ->
  exists f g d, In ("KolmogorovSmirnovUniformGofStatistic", f) (uniform_statistics A) /\
     In ("LillieforsTestUniformGofStatistic", g) (uniform_statistics A) /\
     nvalue (f l) = Ok (Some (Fin d)) /\ nvalue (g l) = Ok (Some (Fin d)) /\
     supremum (fun x => Rabs (edf l x - uniform_cdf (ua_a A) (ua_b A) x)) d.
Proof. exact C47_uniform_holds. Qed.
Print Assumptions C47_uniform.
(** Watson's statistic of this class is U^2/n + 1/4, see C52 *)
Theorem C48_uniform : forall A name f l v, ua_a A < ua_b A -> ua_alt A = TWO_TAILED -> l <> [] ->
  In (name, f) (uniform_statistics A) -> nvalue (f l) = Ok (Some (Fin v)) ->
  (In name ["KolmogorovSmirnovUniformGofStatistic"; "LillieforsTestUniformGofStatistic"] -> 1 / (2 * len l) <= v <= 1) /\
  (name = "CrammerVonMisesUniformGofStatistic" -> 1 / (12 * len l) <= v <= len l / 3) /\
  (name = "WatsonUniformGofStatistic" -> 1 / (12 * len l ^ 2) + 1 / 4 <= v <= 1 / 3 + 1 / 4) /\
  (name = "KuiperUniformGofStatistic" -> 1 / len l <= v <= 1).
Proof. exact C48_uniform_holds. Qed.
Print Assumptions C48_uniform.
(** Anderson-Darling is infinite exactly when an observation is at an end of the interval *)
Theorem C50_uniform : forall A l f, ua_a A < ua_b A -> l <> [] -> within (ua_a A) (ua_b A) l ->
  In ("AndersonDarlingUniformGofStatistic", f) (uniform_statistics A) ->
  (strictly_within (ua_a A) (ua_b A) l -> exists v, nvalue (f l) = Ok (Some (Fin v)) /\ 0 <= v) /\
  (nvalue (f l) = Ok (Some NonFinite) <-> exists x, In x l /\ (x = ua_a A \/ x = ua_b A)).
Proof. exact C50_uniform_holds. Qed.
Print Assumptions C50_uniform.
Theorem C53_uniform : forall A l f v, ua_a A < ua_b A ->
  In ("Chi2PearsonUniformGofStatistic", f) (uniform_statistics A) -> l <> [] -> nvalue (f l) = Ok (Some (Fin v)) -> 0 <= v.
Proof. exact C53_uniform_holds. Qed.
Print Assumptions C53_uniform.
(** the number of bins: Sturges' rule, the square root rule, 10 for other names, the given number, but never less than 2 *)
Theorem C53_uniform_bins : forall a b l, l <> [] ->
  uniform_bins a b Sturges l = Ok (Nat.max 2 (Nat.log2_up (length l) + 1)) /\
  uniform_bins a b SqrtRule l = Ok (Nat.max 2 (Nat.sqrt_up (length l))) /\
  uniform_bins a b OtherRule l = Ok 10%nat /\ (forall n, uniform_bins a b (GivenBins n) l = Ok (Nat.max 2 n)).
Proof. exact C53_uniform_bins_holds. Qed.
Print Assumptions C53_uniform_bins.
(** the "auto" rule: the smallest number of bins that are not wider than 3.5 s / n^(1/3) *)
Theorem C53_uniform_auto_bins : forall a b l, a < b -> NoDup l -> (2 <= length l)%nat -> let w := 3.5 * sqrt (np_var l) / Rpower (len l) (1 / 3) in
  exists k, (1 <= k)%nat /\ uniform_bins a b AutoRule l = Ok (Nat.max 2 k) /\ (b - a) / INR k <= w /\ (forall j, (1 <= j < k)%nat -> w < (b - a) / INR j).
Proof. exact C53_uniform_auto_bins_holds. Qed.
Print Assumptions C53_uniform_auto_bins.
(** *** C54, C64 *)
Theorem C54_uniform : forall A name f l l', In (name, f) (uniform_statistics A) -> Permutation l l' ->
  nvalue (f l) = nvalue (f l').
Proof. exact C54_uniform_holds. Qed.
Print Assumptions C54_uniform.
Theorem C64_uniform : forall A name f l, In (name, f) (uniform_statistics A) -> nsample_after (f l) = l.
Proof. exact C64_uniform_holds. Qed.
Print Assumptions C64_uniform.
(** *** C61 *)
(** testing the stretched sample against [a, b] is testing the sample against [0, 1] *)
Theorem C61_uniform_table : forall a b alt lambda bins bandwidth zhang k name f l, a < b ->
  In (name, f) (uniform_statistics (UniformArgs a b alt lambda bins bandwidth zhang k)) ->
  ~ In name ["ShermanUniformGofStatistic"; "QuesenberryMillerUniformGofStatistic"] ->
  exists g, In (name, g) (uniform_statistics (UniformArgs 0 1 alt lambda bins bandwidth zhang k)) /\ nvalue (f (stretched a b l)) = nvalue (g l).
Proof. exact C61_uniform_table_holds. Qed.
Print Assumptions C61_uniform_table.
(** the Lilliefors class estimates nothing: it is the two-sided Kolmogorov-Smirnov test of the given interval *)
Theorem C61_uniform_lilliefors : forall a b alt lambda bins bandwidth zhang k l, exists f g,
  In ("LillieforsTestUniformGofStatistic", f) (uniform_statistics (UniformArgs a b alt lambda bins bandwidth zhang k)) /\
  In ("KolmogorovSmirnovUniformGofStatistic", g) (uniform_statistics (UniformArgs a b TWO_TAILED lambda bins bandwidth zhang k)) /\
  nvalue (f l) = nvalue (g l).
Proof. exact C61_uniform_lilliefors_holds. Qed.
Print Assumptions C61_uniform_lilliefors.
(** every class returns a finite number on two or more different observations inside the interval *)
Theorem C63_uniform : forall A name f l, ua_a A < ua_b A -> 0 <= ua_lambda A -> ua_bandwidth A <> GivenBandwidth 0 ->
  In (name, f) (uniform_statistics A) -> NoDup l -> (2 <= length l)%nat -> strictly_within (ua_a A) (ua_b A) l ->
  exists v, nvalue (f l) = Ok (Some (Fin v)).
Proof. exact C63_uniform_holds. Qed.
Print Assumptions C63_uniform.
(** equal observations inside the interval: the "auto" rules of the chi-square and Bickel-Rosenblatt classes fail *)
Theorem C63_uniform_auto_refuted : forall A x n, ua_a A < x < ua_b A ->
  (forall f, ua_bins A = AutoRule -> In ("Chi2PearsonUniformGofStatistic", f) (uniform_statistics A) -> nvalue (f (repeat x (S n))) = Raise OverflowError) /\
  (forall f, ua_bandwidth A = AutoBandwidth -> In ("BickelRosenblattUniformGofStatistic", f) (uniform_statistics A) -> nvalue (f (repeat x (S n))) = Ok (Some NonFinite)).
Proof. exact C63_uniform_auto_refuted_holds. Qed.
Print Assumptions C63_uniform_auto_refuted.
(** *** C87 *)
(** the sample reflected at the middle of the interval has the same value; one-sided alternatives are exchanged.  The bins
    of the chi-square class are half open, so no observation may be one of their edges *)
Theorem C87_uniform_mirror : forall a b alt lambda bins bandwidth zhang k name f l, a < b ->
  (forall m x i, uniform_bins a b bins l = Ok m -> In x l -> (1 <= i < m)%nat -> x <> a + (b - a) * (INR i / INR m)) ->
  In (name, f) (uniform_statistics (UniformArgs a b alt lambda bins bandwidth zhang k)) ->
  exists g, In (name, g) (uniform_statistics (UniformArgs a b (opposite alt) lambda bins bandwidth zhang k)) /\ nvalue (g (reflected a b l)) = nvalue (f l).
Proof. exact C87_uniform_mirror_holds. Qed.
Print Assumptions C87_uniform_mirror.
(** *** C65 *)
Theorem C65_uniform_lilliefors_refuted : declares "LillieforsTestUniformGofStatistic" TWO_TAILED /\
  forall A f l, ua_a A < ua_b A -> l <> [] -> within (ua_a A) (ua_b A) l -> In ("LillieforsTestUniformGofStatistic", f) (uniform_statistics A) ->
  exists d, nvalue (f l) = Ok (Some (Fin d)) /\ supremum (fun x => Rabs (edf l x - uniform_cdf (ua_a A) (ua_b A) x)) d.
Proof. exact C65_uniform_lilliefors_refuted_holds. Qed.
Print Assumptions C65_uniform_lilliefors_refuted.
(** a sample concentrated at the middle of the interval has the least possible value of Stein's statistic *)
Theorem C65_uniform_stein_refuted : declares "SteinUniformGofStatistic" RIGHT /\
  forall A f n, ua_a A < ua_b A -> (2 <= n)%nat -> In ("SteinUniformGofStatistic", f) (uniform_statistics A) ->
  nvalue (f (repeat ((ua_a A + ua_b A) / 2) n)) = Ok (Some (Fin (- (1 / 4)))) /\
  forall l v, (2 <= length l)%nat -> nvalue (f l) = Ok (Some (Fin v)) -> - (1 / 4) <= v <= 1 / 2.
Proof. exact C65_uniform_stein_refuted_holds. Qed.
Print Assumptions C65_uniform_stein_refuted.
(** *** C94 *)
(** the value is the sum of the squared scores of k orthonormal polynomials of the uniform distribution *)
Theorem C94_components : exists phi, orthonormal phi (fun j => (1 <= j)%nat) /\
  (forall j, (1 <= j)%nat -> polynomial_of_degree j (phi j) /\ is_RInt (phi j) 0 1 0) /\
  forall A f l, ua_a A < ua_b A -> l <> [] -> within (ua_a A) (ua_b A) l -> In ("NeymanSmoothTestUniformGofStatistic", f) (uniform_statistics A) ->
  nvalue (f l) = Ok (Some (Fin (Rsum (map (fun j => (Rsum (map (fun x => phi j ((x - ua_a A) / (ua_b A - ua_a A))) l)) ^ 2 / len l) (seq 1 (ua_k A)))))).
Proof. exact C94_components_holds. Qed.
Print Assumptions C94_components.
(** never negative; zero exactly when the first k moments of the standardised sample are those of the uniform distribution *)
Theorem C94_moments : forall A f l v, ua_a A < ua_b A -> l <> [] -> In ("NeymanSmoothTestUniformGofStatistic", f) (uniform_statistics A) ->
  nvalue (f l) = Ok (Some (Fin v)) ->
  0 <= v /\ (v = 0 <-> forall j, (1 <= j <= ua_k A)%nat -> mean (map (fun x => ((x - ua_a A) / (ua_b A - ua_a A)) ^ j) l) = 1 / (INR j + 1)).
Proof. exact C94_moments_holds. Qed.
Print Assumptions C94_moments.
Theorem C95_stein_value : forall A f l, ua_a A < ua_b A -> (2 <= length l)%nat -> within (ua_a A) (ua_b A) l -> In ("SteinUniformGofStatistic", f) (uniform_statistics A) ->
  let u := map (fun x => (x - ua_a A) / (ua_b A - ua_a A)) l in let h := fun x y => (x ^ 2 + y ^ 2) / 2 - Rmin x y in
  nvalue (f l) = Ok (Some (Fin ((Rsum (map (fun x => Rsum (map (h x) u)) u) - Rsum (map (fun x => h x x) u)) / (len l * (len l - 1))))).
Proof. exact C95_stein_value_holds. Qed.
Print Assumptions C95_stein_value.
Theorem C95_stein_kernel_mean : let h := fun x y : R => (x ^ 2 + y ^ 2) / 2 - Rmin x y in
  (forall x, 0 <= x <= 1 -> is_RInt (h x) 0 1 (x ^ 2 - x + 1 / 6)) /\ is_RInt (fun x => RInt (h x) 0 1) 0 1 0.
Proof. exact C95_stein_kernel_mean_holds. Qed.
Print Assumptions C95_stein_kernel_mean.
(** not a discrepancy: samples concentrated at one end of the interval get exactly the mean value *)
Theorem C95_stein_discrepancy_refuted : forall A f n, ua_a A < ua_b A -> (2 <= n)%nat -> In ("SteinUniformGofStatistic", f) (uniform_statistics A) ->
  nvalue (f (repeat (ua_a A) n)) = Ok (Some (Fin 0)) /\ nvalue (f (repeat (ua_b A) n)) = Ok (Some (Fin 0)).
Proof. exact C95_stein_discrepancy_refuted_holds. Qed.
Print Assumptions C95_stein_discrepancy_refuted.
(** nothing censored: the statistic without censoring *)
Theorem C95_nothing_censored : forall A f a b l n, a = ua_a A -> b = ua_b A -> In ("SteinUniformGofStatistic", f) (uniform_statistics A) ->
  censored_stein a b NoIndices l = nvalue (f l) /\ censored_stein a b (IndexArray (repeat false n)) l = nvalue (f l).
Proof. exact C95_nothing_censored_holds. Qed.
Print Assumptions C95_nothing_censored.
(** but a Python list of zeros gives twice that value *)
Theorem C95_list_of_zeros_refuted : forall A f l v, ua_a A < ua_b A -> In ("SteinUniformGofStatistic", f) (uniform_statistics A) ->
  nvalue (f l) = Ok (Some (Fin v)) -> censored_stein (ua_a A) (ua_b A) (IndexList (repeat false (length l))) l = Ok (Some (Fin (2 * v))).
Proof. exact C95_list_of_zeros_refuted_holds. Qed.
Print Assumptions C95_list_of_zeros_refuted.
(** the weights are the inverse of the product-limit estimator, not less than 10^-10 *)
Theorem C95_kaplan_meier : forall obs, NoDup (map fst obs) ->
  (forall t, kaplan_meier obs t = product_limit obs t) /\ (forall t, 0 <= kaplan_meier obs t <= 1) /\
  (forall s t, s <= t -> kaplan_meier obs t <= kaplan_meier obs s).
Proof. exact C95_kaplan_meier_holds. Qed.
Print Assumptions C95_kaplan_meier.
(** the order of the observations (with their indicators) is irrelevant *)
Theorem C95_order : forall a b l d l' d', a < b -> length l = length d -> length l' = length d' -> NoDup l -> Permutation (combine l d) (combine l' d') ->
  censored_stein a b (IndexArray d) l = censored_stein a b (IndexArray d') l' /\ censored_stein a b (IndexList d) l = censored_stein a b (IndexList d') l'.
Proof. exact C95_order_holds. Qed.
Print Assumptions C95_order.
(** only the largest observation is censored: twice the statistic of the others *)
Theorem C95_largest_censored_refuted : forall A f l m v, ua_a A < ua_b A -> NoDup l -> (forall x, In x l -> x < m) -> m <= ua_b A ->
  In ("SteinUniformGofStatistic", f) (uniform_statistics A) -> l <> [] -> nvalue (f l) = Ok (Some (Fin v)) ->
  censored_stein (ua_a A) (ua_b A) (IndexArray (repeat false (length l) ++ [true])) (l ++ [m]) = Ok (Some (Fin (2 * v))).
Proof. exact C95_largest_censored_refuted_holds. Qed.
Print Assumptions C95_largest_censored_refuted.
(** *** C96 *)
(** Zhang's statistic A is smallest at the evenly spaced sample, and only there *)
Theorem C96_zhang_a : forall A f l, ua_a A < ua_b A -> ua_zhang A = ZhangA -> l <> [] -> strictly_within (ua_a A) (ua_b A) l -> In ("ZhangTestsUniformGofStatistic", f) (uniform_statistics A) ->
  exists v0 v, nvalue (f (ideal_sample (ua_a A) (ua_b A) (length l))) = Ok (Some (Fin v0)) /\ nvalue (f l) = Ok (Some (Fin v)) /\ v0 <= v /\
    (v = v0 <-> Permutation l (ideal_sample (ua_a A) (ua_b A) (length l))).
Proof. exact C96_zhang_a_holds. Qed.
Print Assumptions C96_zhang_a.
(** statistic C is not: the sample 1/5, 1/2, 4/5 has a smaller value than the evenly spaced one *)
Theorem C96_zhang_c_refuted : exists v0 v, zhang_uniform 0 1 ZhangC (ideal_sample 0 1 3) = Ok (Some (Fin v0)) /\
  zhang_uniform 0 1 ZhangC [1 / 5; 1 / 2; 4 / 5] = Ok (Some (Fin v)) /\ v < v0.
Proof. exact C96_zhang_c_refuted_holds. Qed.
Print Assumptions C96_zhang_c_refuted.
(** nor is statistic K: it vanishes on every sample concentrated at the middle, but not on the evenly spaced one *)
Theorem C96_zhang_k_refuted : declares "ZhangTestsUniformGofStatistic" RIGHT /\
  (forall n, zhang_uniform 0 1 ZhangK (repeat (1 / 2) n) = Ok (Some (Fin 0))) /\
  exists v, zhang_uniform 0 1 ZhangK (ideal_sample 0 1 2) = Ok (Some (Fin v)) /\ 0 < v.
Proof. exact C96_zhang_k_refuted_holds. Qed.
Print Assumptions C96_zhang_k_refuted.
(** Bickel-Rosenblatt: a sum of squared differences between the kernel estimate of the density and 1 over a grid of [0, 1] *)
Theorem C96_bickel_rosenblatt : forall A h f l v, ua_a A < ua_b A -> ua_bandwidth A = GivenBandwidth h -> l <> [] -> In ("BickelRosenblattUniformGofStatistic", f) (uniform_statistics A) ->
  nvalue (f l) = Ok (Some (Fin v)) ->
  let estimate t := Rsum (map (fun x => exp (- ((t - (x - ua_a A) / (ua_b A - ua_a A)) / h) ^ 2 / 2) / sqrt (2 * PI)) l) / (len l * h) in
  0 <= v /\ (v = 0 <-> forall i, (i <= 999)%nat -> estimate (INR i / 999) = 1).
Proof. exact C96_bickel_rosenblatt_holds. Qed.
Print Assumptions C96_bickel_rosenblatt.
(** not vacuous *)
Example C94_nonvacuous : let l := [1 / 2 - sqrt (1 / 12); 1 / 2 + sqrt (1 / 12)] in
  forall f, In ("NeymanSmoothTestUniformGofStatistic", f) (uniform_statistics (UniformArgs 0 1 LEFT 0 Sturges AutoBandwidth ZhangA 3)) -> nvalue (f l) = Ok (Some (Fin 0)).
Proof. exact C94_nonvacuous_holds. Qed.
Example C95_nonvacuous : censored_stein 0 1 (IndexArray [false; false; true]) [1 / 4; 1 / 2; 3 / 4] = Ok (Some (Fin (- (3 / 16)))).
Proof. exact C95_nonvacuous_holds. Qed.
Example C96_nonvacuous : ideal_sample 0 1 2 = [1 / 4; 3 / 4] /\ strictly_within 0 1 [1 / 4; 3 / 4].
Proof. exact C96_nonvacuous_holds. Qed.
Example C87_nonvacuous_uniform : forall m x i, uniform_bins 0 1 (GivenBins 2) [1 / 4; 2 / 3] = Ok m -> In x [1 / 4; 2 / 3] -> (1 <= i < m)%nat -> x <> 0 + (1 - 0) * (INR i / INR m).
Proof. exact C87_nonvacuous_uniform_holds. Qed.
