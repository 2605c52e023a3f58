(** C69, C70: maximum likelihood (function_for_maximum_likelihood.py, maximum_likelihood.py) *)
From Coq Require Import ZArith String.
From Verif Require Import Base NormModel MleModel MleSpec ExpRangeProofs MleProofs MleMoreProofs MleFitProofs MleExamples MleClaims.
From Coq Require Import Lra Lia.
Local Open Scope R_scope.

(** *** C69: closed forms *)
Theorem C69_uniform : forall c l, varied l -> exists v, lf_uniform c l = Ok (Val v) /\
  is_maximum (fun p : R * R => fst p < snd p) (fun p => likelihood (uniform_pdf (fst p) (snd p)) l) v.
Proof. exact C69_uniform_holds. Qed.
Print Assumptions C69_uniform.
Theorem C69_normal : forall c l, varied l -> exists v, lf_normal c l = Ok (Val v) /\
  is_maximum (fun p : R * R => 0 < snd p) (fun p => likelihood (normal_pdf (fst p) (snd p)) l) v.
Proof. exact C69_normal_holds. Qed.
Print Assumptions C69_normal.
Theorem C69_lognormal : forall c l, (forall x, In x l -> 0 < x) -> varied l -> exists v, lf_lognormal c l = Ok (Val v) /\
  is_maximum (fun p : R * R => 0 < snd p) (fun p => likelihood (lognormal_pdf (fst p) (snd p)) l) v.
Proof. exact C69_lognormal_holds. Qed.
Print Assumptions C69_lognormal.
Theorem C69_exponential : forall c l, (forall x, In x l -> 0 <= x) -> (exists x, In x l /\ 0 < x) -> exists v, lf_exponential c l = Ok (Val v) /\
  is_maximum (fun rate => 0 < rate) (fun rate => likelihood (exponential_pdf rate) l) v.
Proof. exact C69_exponential_holds. Qed.
Print Assumptions C69_exponential.
Theorem C69_pareto : forall c l, c <> KList -> (forall x, In x l -> 0 < x) -> varied l -> exists v, lf_pareto c l = Ok (Val v) /\
  is_maximum (fun p : R * R => 0 < fst p /\ 0 < snd p) (fun p => likelihood (pareto_pdf (fst p) (snd p)) l) v.
Proof. exact C69_pareto_holds. Qed.
Print Assumptions C69_pareto.
Theorem C69_laplace : forall c l, varied l -> exists v, lf_laplace c l = Ok (Val v) /\
  is_maximum (fun p : R * R => 0 < snd p) (fun p => likelihood (laplace_pdf (fst p) (snd p)) l) v.
Proof. exact C69_laplace_holds. Qed.
Print Assumptions C69_laplace.
Theorem C69_rayleigh : forall c l, c <> KList -> l <> [] -> (forall x, In x l -> 0 < x) -> exists v, lf_rayleigh c l = Ok (Val v) /\
  is_maximum (fun s => 0 < s) (fun s => likelihood (rayleigh_pdf s) l) v.
Proof. exact C69_rayleigh_holds. Qed.
Print Assumptions C69_rayleigh.
Theorem C69_discrete_uniform : forall c l, l <> [] -> (forall x, In x l -> integer x) -> exists v, lf_discrete_uniform c l = Ok (Val v) /\
  is_maximum (fun p : Z * Z => (fst p <= snd p)%Z) (fun p => likelihood (discrete_uniform_pmf (fst p) (snd p)) l) v.
Proof. exact C69_discrete_uniform_holds. Qed.
Print Assumptions C69_discrete_uniform.
Theorem C69_bernoulli : forall c l, l <> [] -> (forall x, In x l -> x = 0 \/ x = 1) -> exists v, lf_bernoulli c l = Ok (Val v) /\
  is_maximum (fun p => 0 <= p <= 1) (fun p => likelihood (bernoulli_pmf p) l) v.
Proof. exact C69_bernoulli_holds. Qed.
Print Assumptions C69_bernoulli.
Theorem C69_binomial : forall n l, (0 < n)%nat -> l <> [] -> counts n l -> exists v, lf_binomial KInt l n = Ok (Val v) /\
  is_maximum (fun p => 0 <= p <= 1) (fun p => likelihood (binomial_pmf n p) l) v.
Proof. exact C69_binomial_holds. Qed.
Print Assumptions C69_binomial.
Theorem C69_poisson : forall l, l <> [] -> (forall x, In x l -> exists k, x = INR k) -> (exists x, In x l /\ x <> 0) ->
  exists v, lf_poisson KInt l = Ok (Val v) /\ is_maximum (fun lam => 0 <= lam) (fun lam => likelihood (poisson_pmf lam) l) v.
Proof. exact C69_poisson_holds. Qed.
Print Assumptions C69_poisson.
Theorem C69_geometric : forall c l, c <> KList -> l <> [] -> (forall x, In x l -> exists k, (1 <= k)%nat /\ x = INR k) -> (exists x, In x l /\ x <> 1) ->
  exists v, lf_geometric c l = Ok (Val v) /\ is_maximum (fun p => 0 <= p <= 1) (fun p => likelihood (geometric_pmf p) l) v.
Proof. exact C69_geometric_holds. Qed.
Print Assumptions C69_geometric.
(** samples with a value outside the support have likelihood 0 under every parameter, and 0 is returned *)
Theorem C69_outside_support : forall c l x, In x l ->
  (x <= 0 -> lf_lognormal c l = Ok (Val 0) /\ is_maximum (fun p : R * R => 0 < snd p) (fun p => likelihood (lognormal_pdf (fst p) (snd p)) l) 0) /\
  (x < 0 -> lf_exponential c l = Ok (Val 0) /\ is_maximum (fun r => 0 < r) (fun r => likelihood (exponential_pdf r) l) 0) /\
  (x <= 0 -> c <> KList -> lf_pareto c l = Ok (Val 0) /\ is_maximum (fun p : R * R => 0 < fst p /\ 0 < snd p) (fun p => likelihood (pareto_pdf (fst p) (snd p)) l) 0) /\
  (x < 0 -> c <> KList -> lf_rayleigh c l = Ok (Val 0) /\ is_maximum (fun s => 0 < s) (fun s => likelihood (rayleigh_pdf s) l) 0) /\
  (x <> 0 -> x <> 1 -> lf_bernoulli c l = Ok (Val 0) /\ is_maximum (fun p => 0 <= p <= 1) (fun p => likelihood (bernoulli_pmf p) l) 0) /\
  (forall n, (x < 0 \/ INR n < x \/ ~ integer x) -> c <> KList -> lf_binomial c l n = Ok (Val 0) /\ is_maximum (fun p => 0 <= p <= 1) (fun p => likelihood (binomial_pmf n p) l) 0) /\
  ((x < 0 \/ ~ integer x) -> c <> KList -> lf_poisson c l = Ok (Val 0) /\ is_maximum (fun lam => 0 <= lam) (fun lam => likelihood (poisson_pmf lam) l) 0) /\
  ((x < 1 \/ ~ integer x) -> c <> KList -> lf_geometric c l = Ok (Val 0) /\ is_maximum (fun p => 0 <= p <= 1) (fun p => likelihood (geometric_pmf p) l) 0).
Proof. exact C69_outside_support_holds. Qed.
Print Assumptions C69_outside_support.
(** samples of one repeated value: Laplace and Pareto report inf, and the likelihood is indeed unbounded *)
Theorem C69_unbounded_likelihood : forall c a l, constant a l ->
  (lf_laplace c l = Ok PlusInf /\ unbounded (fun p : R * R => 0 < snd p) (fun p => likelihood (laplace_pdf (fst p) (snd p)) l)) /\
  (c <> KList -> 0 < a -> lf_pareto c l = Ok PlusInf /\ unbounded (fun p : R * R => 0 < fst p /\ 0 < snd p) (fun p => likelihood (pareto_pdf (fst p) (snd p)) l)).
Proof. exact C69_unbounded_likelihood_holds. Qed.
Print Assumptions C69_unbounded_likelihood.
(** ... while uniform, normal, log-normal and exponential report 0 although the likelihood is unbounded *)
Theorem C69_repeated_value_refuted : forall c a l, constant a l ->
  (lf_uniform c l = Ok (Val 0) /\ unbounded (fun p : R * R => fst p < snd p) (fun p => likelihood (uniform_pdf (fst p) (snd p)) l)) /\
  (lf_normal c l = Ok (Val 0) /\ unbounded (fun p : R * R => 0 < snd p) (fun p => likelihood (normal_pdf (fst p) (snd p)) l)) /\
  (0 < a -> lf_lognormal c l = Ok (Val 0) /\ unbounded (fun p : R * R => 0 < snd p) (fun p => likelihood (lognormal_pdf (fst p) (snd p)) l)) /\
  (a = 0 -> c <> KList -> lf_exponential c l = Ok (Val 0) /\ unbounded (fun r => 0 < r) (fun r => likelihood (exponential_pdf r) l)).
Proof. exact C69_repeated_value_refuted_holds. Qed.
Print Assumptions C69_repeated_value_refuted.
(** extreme counts: the maximum is 1 but an exception is raised; a zero observation makes the Rayleigh fit fail although the
    likelihood is 0 for every scale; discrete uniform gives a positive likelihood to values that are no integers *)
Theorem C69_boundary_samples_refuted : (forall l, constant 0 l -> lf_poisson KInt l = Raise ValueError /\ is_maximum (fun lam => 0 <= lam) (fun lam => likelihood (poisson_pmf lam) l) 1) /\
  (forall c l, c <> KList -> constant 1 l -> lf_geometric c l = Raise ValueError /\ is_maximum (fun p => 0 <= p <= 1) (fun p => likelihood (geometric_pmf p) l) 1) /\
  (forall c l, c <> KList -> (forall x, In x l -> 0 <= x) -> In 0 l -> lf_rayleigh c l = Raise FitError /\ is_maximum (fun s => 0 < s) (fun s => likelihood (rayleigh_pdf s) l) 0) /\
  (forall c l x, In x l -> ~ integer x -> exists v, lf_discrete_uniform c l = Ok (Val v) /\ 0 < v /\
     is_maximum (fun p : Z * Z => (fst p <= snd p)%Z) (fun p => likelihood (discrete_uniform_pmf (fst p) (snd p)) l) 0).
Proof. exact C69_boundary_samples_refuted_holds. Qed.
Print Assumptions C69_boundary_samples_refuted.
(** which containers are refused *)
Theorem C69_lists_refused : forall S l n, 
  lf_weibull (sp_root S) KList l = Raise TypeError /\ lf_gamma (sp_gamma_pdf S) (sp_gamma_fit S) KList l = Raise TypeError /\
  lf_fisher (sp_f_pdf S) (sp_f_fit S) KList l = Raise TypeError /\ lf_rayleigh KList l = Raise TypeError /\ lf_pareto KList l = Raise TypeError /\
  lf_binomial KList l n = Raise TypeError /\ lf_poisson KList l = Raise TypeError /\ lf_geometric KList l = Raise TypeError /\
  (l <> [] -> lf_beta (sp_gammaln S) (sp_beta_fit S) KList l = Raise TypeError /\ lf_wigner (sp_minimise S) KList l = Raise TypeError).
Proof. exact C69_lists_refused_holds. Qed.
Print Assumptions C69_lists_refused.
(** arrays of floats: Poisson and binomial raise although the same numbers as integers have a likelihood *)
Theorem C69_float_counts_refuted : (forall l, l <> [] -> (forall x, In x l -> exists k, x = INR k) -> (exists x, In x l /\ x <> 0) ->
     lf_poisson KFloat l = Raise TypeError /\ exists v, lf_poisson KInt l = Ok (Val v)) /\
  (forall n l, (0 < n)%nat -> l <> [] -> counts n l -> (exists x, In x l /\ x <> 0) -> (exists x, In x l /\ x <> INR n) ->
     lf_binomial KFloat l n = Raise TypeError /\ exists v, lf_binomial KInt l n = Ok (Val v)).
Proof. exact C69_float_counts_refuted_holds. Qed.
Print Assumptions C69_float_counts_refuted.
(** *** C69: families fitted by scipy.  If the fit is a maximiser, the returned value is the maximum *)
Theorem C69_gamma : forall G fit c l shape scale, (forall x, 0 < x -> 0 < G x) -> c <> KList -> (forall x, In x l -> 0 < x) -> varied l -> fit l = Ok (shape, scale) ->
  attains (fun p : R * R => 0 < fst p /\ 0 < snd p) (fun p => likelihood (gamma_pdf G (fst p) (snd p)) l) (shape, scale) ->
  exists v, lf_gamma (fun a => gamma_pdf G a 1) fit c l = Ok (Val v) /\
    is_maximum (fun p : R * R => 0 < fst p /\ 0 < snd p) (fun p => likelihood (gamma_pdf G (fst p) (snd p)) l) v.
Proof. exact C69_gamma_holds. Qed.
Print Assumptions C69_gamma.
Theorem C69_beta : forall G fit c l a b, (forall x, 0 < x -> 0 < G x) -> c <> KList -> (forall x, In x l -> 0 < x < 1) -> varied l -> fit l = Ok (a, b) ->
  attains (fun p : R * R => 0 < fst p /\ 0 < snd p) (fun p => likelihood (beta_pdf G (fst p) (snd p)) l) (a, b) ->
  exists v, lf_beta (fun x => ln (G x)) fit c l = Ok (Val v) /\
    is_maximum (fun p : R * R => 0 < fst p /\ 0 < snd p) (fun p => likelihood (beta_pdf G (fst p) (snd p)) l) v.
Proof. exact C69_beta_holds. Qed.
Print Assumptions C69_beta.
Theorem C69_cauchy : forall fit c l loc scale, varied l -> fit l = Ok (loc, scale) ->
  attains (fun p : R * R => 0 < snd p) (fun p => likelihood (cauchy_pdf (fst p) (snd p)) l) (loc, scale) ->
  exists v, lf_cauchy (cauchy_pdf 0 1) fit c l = Ok (Val v) /\
    is_maximum (fun p : R * R => 0 < snd p) (fun p => likelihood (cauchy_pdf (fst p) (snd p)) l) v.
Proof. exact C69_cauchy_holds. Qed.
Print Assumptions C69_cauchy.
Theorem C69_student : forall pdf fit c l df loc scale, (forall df x, 0 < df -> 0 <= pdf df x) -> varied l -> fit l = Ok (df, loc, scale) ->
  attains (fun p : R * R * R => 0 < fst (fst p) /\ 0 < snd p) (fun p => likelihood (location_scale (pdf (fst (fst p))) (snd (fst p)) (snd p)) l) (df, loc, scale) ->
  exists v, lf_t pdf fit c l = Ok (Val v) /\
    is_maximum (fun p : R * R * R => 0 < fst (fst p) /\ 0 < snd p) (fun p => likelihood (location_scale (pdf (fst (fst p))) (snd (fst p)) (snd p)) l) v.
Proof. exact C69_student_holds. Qed.
Print Assumptions C69_student.
Theorem C69_fisher : forall pdf fit c l d1 d2 scale, (forall d1 d2 x, 0 < d1 -> 0 < d2 -> 0 <= pdf d1 d2 x) -> c <> KList -> (forall x, In x l -> 0 < x) -> varied l -> fit l = Ok (d1, d2, scale) ->
  attains (fun p : R * R * R => 0 < fst (fst p) /\ 0 < snd (fst p) /\ 0 < snd p) (fun p => likelihood (location_scale (pdf (fst (fst p)) (snd (fst p))) 0 (snd p)) l) (d1, d2, scale) ->
  exists v, lf_fisher pdf fit c l = Ok (Val v) /\
    is_maximum (fun p : R * R * R => 0 < fst (fst p) /\ 0 < snd (fst p) /\ 0 < snd p) (fun p => likelihood (location_scale (pdf (fst (fst p)) (snd (fst p))) 0 (snd p)) l) v.
Proof. exact C69_fisher_holds. Qed.
Print Assumptions C69_fisher.
Theorem C69_wigner : forall minimise c l r, c <> KList -> varied l -> minimise (Rmaxl 0 (map Rabs l) + 1e-6) (Rmaxl 0 (map Rabs l) + 10) l = (true, r) -> (forall x, In x l -> Rabs x < r) ->
  attains (fun r => 0 < r) (fun r => likelihood (wigner_pdf r) l) r ->
  exists v, lf_wigner minimise c l = Ok (Val v) /\ is_maximum (fun r => 0 < r) (fun r => likelihood (wigner_pdf r) l) v.
Proof. exact C69_wigner_holds. Qed.
Print Assumptions C69_wigner.
(** the search interval of the Wigner radius ends at max|x| + 10: for the samples {a, -a} with a >= 25 the optimum lies outside *)
Theorem C69_wigner_refuted : forall minimise c a, c <> KList -> 25 <= a ->
  (forall r, minimise (a + 1e-6) (a + 10) [a; - a] = (true, r) -> a + 1e-6 <= r <= a + 10) ->
  exists v, lf_wigner minimise c [a; - a] = Ok (Val v) /\ ~ is_maximum (fun r => 0 < r) (fun r => likelihood (wigner_pdf r) [a; - a]) v.
Proof. exact C69_wigner_refuted_holds. Qed.
Print Assumptions C69_wigner_refuted.
(** chi-square: a free scale is fitted besides the degrees of freedom, so the returned value is the maximum of a larger family;
    it exceeds the chi-square maximum whenever the geometric mean is below the mean by more than 2 *)
Theorem C69_chi_squared_refuted : forall G fit c l df s, gamma_like G -> l <> [] -> (forall x, In x l -> 0 < x) -> exp (mean (map ln l)) < mean l - 2 -> fit l = Ok (df, s) ->
  attains (fun p : R * R => 0 < fst p /\ 0 < snd p) (fun p => likelihood (location_scale (chi2_pdf G (fst p)) 0 (snd p)) l) (df, s) ->
  exists v, lf_chi_squared (chi2_pdf G) fit c l = Ok (Val v) /\
    is_maximum (fun p : R * R => 0 < fst p /\ 0 < snd p) (fun p => likelihood (location_scale (chi2_pdf G (fst p)) 0 (snd p)) l) v /\
    ~ is_maximum (fun d => 0 < d) (fun d => likelihood (chi2_pdf G d) l) v.
Proof. exact C69_chi_squared_refuted_holds. Qed.
Print Assumptions C69_chi_squared_refuted.
(** Weibull: the scale is optimal for the shape that is returned *)
Theorem C69_weibull_scale_partial : forall root c l, c <> KList -> l <> [] -> (forall x, In x l -> 0 < x) -> 0 < root l -> weibull_g l 0.1 * weibull_g l 10 <= 0 ->
  exists v, lf_weibull root c l = Ok (Val v) /\ is_maximum (fun lam => 0 < lam) (fun lam => likelihood (weibull_pdf (root l) lam) l) v.
Proof. exact C69_weibull_scale_partial_holds. Qed.
Print Assumptions C69_weibull_scale_partial.
(** ... but the equation for the shape is not the likelihood equation: for samples of values above 1, whatever root of the
    equation of the code is found, the returned value is not the maximum *)
Theorem C69_weibull_refuted : forall root c l, c <> KList -> l <> [] -> (forall x, In x l -> 1 < x) -> 0 < root l -> weibull_g l (root l) = 0 ->
  exists v, lf_weibull root c l = Ok (Val v) /\ ~ is_maximum (fun p : R * R => 0 < fst p /\ 0 < snd p) (fun p => likelihood (weibull_pdf (fst p) (snd p)) l) v.
Proof. exact C69_weibull_refuted_holds. Qed.
Print Assumptions C69_weibull_refuted.
(** *** C70 *)
(** the loop itself is right: for any list of functions that all return, the name that comes back belongs to a function whose
    value is positive and not exceeded by any other; None comes back exactly when no value is positive *)
Theorem C70_selection_loop : forall D (functions : list (string * (D -> result likval))) d r, find_max functions d = Ok r ->
  (forall n f, In (n, f) functions -> exists v, f d = Ok v) /\
  match r with
  | Some name => exists f v, In (name, f) functions /\ f d = Ok v /\ larger_likelihood v (Val 0) /\ (forall n' f' v', In (n', f') functions -> f' d = Ok v' -> ~ larger_likelihood v' v)
  | None => forall n' f' v', In (n', f') functions -> f' d = Ok v' -> ~ larger_likelihood v' (Val 0)
  end.
Proof. exact C70_selection_loop_holds. Qed.
Print Assumptions C70_selection_loop.
(** ... but the module also contains functions of another signature: no call ever returns, whatever the data and whatever scipy computes *)
Theorem C70_find_max_refuted : forall S d, ~ exists r, find_max_probability_function S d = Ok r.
Proof. exact C70_find_max_refuted_holds. Qed.
Print Assumptions C70_find_max_refuted.
Theorem C70_find_result_refuted : forall S d, ~ exists r, find_result_of_likelihood_function S d = Ok r.
Proof. exact C70_find_result_refuted_holds. Qed.
Print Assumptions C70_find_result_refuted.
(** the data that the documentation calls valid, lists of several numbers, are refused: the truth value of the array is ambiguous *)
Theorem C70_several_values_refuted : forall S k x y l, find_result_of_likelihood_function S (k, x :: y :: l) = Raise ValueError.
Proof. exact C70_several_values_refuted_holds. Qed.
Print Assumptions C70_several_values_refuted.
Theorem C70_import_refuted : import_maximum_likelihood false = Raise ModuleNotFoundError.
Proof. exact C70_import_refuted_holds. Qed.
Print Assumptions C70_import_refuted.
(** *** cases that meet the hypotheses *)
Example mle_varied : varied [1; 2] /\ (forall x, In x [1; 2] -> 0 < x) /\ (forall x, In x [1; 2] -> integer x) /\ (exists x, In x [1; 2] /\ x <> 1).
Proof.
  split; [exists 1, 2; simpl; repeat split; auto; lra|]. split; [intros x [<-|[<-|[]]]; lra|]. split; [intros x [<-|[<-|[]]]; [now exists 1%Z|now exists 2%Z]|].
  exists 2. simpl. split; [auto|lra].
Qed.
Example mle_counts : counts 3 [INR 1; INR 3] /\ (forall x, In x [INR 1; INR 3] -> exists k, (1 <= k)%nat /\ x = INR k).
Proof. split; intros x [<-|[<-|[]]]; eexists; (split; [|reflexivity]; lia). Qed.
Example mle_bits : forall x, In x [0; 1; 1] -> x = 0 \/ x = 1.
Proof. simpl. intros x [<-|[<-|[<-|[]]]]; auto. Qed.
Example mle_constant : constant 2 [2; 2] /\ constant 0 [0] /\ constant 1 [1; 1].
Proof. repeat split; try discriminate; simpl; intros x H; repeat destruct H as [<-|H]; tauto || reflexivity. Qed.
Example mle_half_not_integer : ~ integer (1/2).
Proof. intros (z & H). destruct z as [|p|p]; [lra| |]. pose proof (IZR_le 1 (Z.pos p) ltac:(lia)). lra. pose proof (IZR_le (Z.neg p) (-1) ltac:(lia)). lra. Qed.
Example mle_gamma_fit : attains (fun p : R * R => 0 < fst p /\ 0 < snd p) (fun p => likelihood (gamma_pdf gamma_like_norm (fst p) (snd p)) [1; 2]) (1, 3/2).
Proof. exact gamma_attained. Qed.
Example mle_beta_fit : attains (fun p : R * R => 0 < fst p /\ 0 < snd p) (fun p => likelihood (beta_pdf beta_like_norm (fst p) (snd p)) [1/2; 1/4]) (1, 1).
Proof. exact beta_attained. Qed.
Example mle_cauchy_fit : attains (fun p : R * R => 0 < snd p) (fun p => likelihood (cauchy_pdf (fst p) (snd p)) [-1; 1]) (0, 1).
Proof. exact cauchy_attained. Qed.
Example mle_student_fit : attains (fun p : R * R * R => 0 < fst (fst p) /\ 0 < snd p) (fun p => likelihood (location_scale (t_like (fst (fst p))) (snd (fst p)) (snd p)) [-1; 1]) (1, 0, 1).
Proof. exact t_attained. Qed.
Example mle_fisher_fit : exists s, attains (fun p : R * R * R => 0 < fst (fst p) /\ 0 < snd (fst p) /\ 0 < snd p) (fun p => likelihood (location_scale (f_like (fst (fst p)) (snd (fst p))) 0 (snd p)) [1; 2]) (1, 1, s).
Proof. exact f_attained. Qed.
Example mle_wigner_fit : attains (fun r => 0 < r) (fun r => likelihood (wigner_pdf r) [1; - (1)]) (sqrt 2).
Proof. exact wigner_attained. Qed.
Example mle_chi_squared_fit : gamma_like stairs_gamma /\ (forall x, In x chi2_sample -> 0 < x) /\ exp (mean (map ln chi2_sample)) < mean chi2_sample - 2 /\
  attains (fun p : R * R => 0 < fst p /\ 0 < snd p) (fun p => likelihood (location_scale (chi2_pdf stairs_gamma (fst p)) 0 (snd p)) chi2_sample) (1, 5 * exp 2).
Proof. exact (conj stairs_gamma_like (conj chi2_sample_pos (conj chi2_sample_gap chi2_attained))). Qed.
Example mle_weibull_root : weibull_g [exp 1; exp 2] 0.1 * weibull_g [exp 1; exp 2] 10 <= 0 /\ exists k, 0.1 <= k <= 10 /\ weibull_g [exp 1; exp 2] k = 0.
Proof. split; [|exact weibull_root_exists]. pose proof weibull_g_low. pose proof weibull_g_high. unfold e_sample in *. nra. Qed.
Example mle_loop : find_max [("a"%string, fun _ : unit => Ok (Val 1)); ("b"%string, fun _ => Ok (Val 2)); ("c"%string, fun _ => Ok NaN)] tt = Ok (Some "b"%string).
Proof.
  unfold find_max. cbn [max_loop bind exceeds snd]. rewrite (proj2 (Rltb_true 0 1)) by lra. cbn [max_loop bind exceeds snd fst].
  rewrite (proj2 (Rltb_true 1 2)) by lra. reflexivity.
Qed.
