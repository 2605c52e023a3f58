(** Properties C69 and C70: maximum likelihood. *)
From Coq Require Import ZArith String.
From Verif Require Import Base NormModel MleModel MleSpec ExpRangeProofs MleProofs MleMoreProofs MleFitProofs MleExamples.
From Coq Require Import Lra Lia.
Local Open Scope R_scope.

(** *** C69: closed forms *)
Lemma C69_uniform_holds : forall c l, varied l -> exists v, lf_uniform c l = Ok (Val v) /\
  is_maximum (fun p : R * R => fst p < snd p) (fun p => likelihood (uniform_pdf (fst p) (snd p)) l) v.
Proof. exact uniform_opt. Qed.
Lemma C69_normal_holds : forall c l, varied l -> exists v, lf_normal c l = Ok (Val v) /\
  is_maximum (fun p : R * R => 0 < snd p) (fun p => likelihood (normal_pdf (fst p) (snd p)) l) v.
Proof. exact normal_opt. Qed.
Lemma C69_lognormal_holds : forall c l, (forall x, In x l -> 0 < x) -> varied l -> exists v, lf_lognormal c l = Ok (Val v) /\
  is_maximum (fun p : R * R => 0 < snd p) (fun p => likelihood (lognormal_pdf (fst p) (snd p)) l) v.
Proof. exact lognormal_opt. Qed.
Lemma C69_exponential_holds : forall c l, (forall x, In x l -> 0 <= x) -> (exists x, In x l /\ 0 < x) -> exists v, lf_exponential c l = Ok (Val v) /\
  is_maximum (fun rate => 0 < rate) (fun rate => likelihood (exponential_pdf rate) l) v.
Proof. exact exponential_opt. Qed.
Lemma C69_pareto_holds : forall c l, c <> KList -> (forall x, In x l -> 0 < x) -> varied l -> exists v, lf_pareto c l = Ok (Val v) /\
  is_maximum (fun p : R * R => 0 < fst p /\ 0 < snd p) (fun p => likelihood (pareto_pdf (fst p) (snd p)) l) v.
Proof. exact pareto_opt. Qed.
Lemma C69_laplace_holds : forall c l, varied l -> exists v, lf_laplace c l = Ok (Val v) /\
  is_maximum (fun p : R * R => 0 < snd p) (fun p => likelihood (laplace_pdf (fst p) (snd p)) l) v.
Proof. exact laplace_opt. Qed.
Lemma C69_rayleigh_holds : forall c l, c <> KList -> l <> [] -> (forall x, In x l -> 0 < x) -> exists v, lf_rayleigh c l = Ok (Val v) /\
  is_maximum (fun s => 0 < s) (fun s => likelihood (rayleigh_pdf s) l) v.
Proof. exact rayleigh_opt. Qed.
Lemma C69_discrete_uniform_holds : forall c l, l <> [] -> (forall x, In x l -> integer x) -> exists v, lf_discrete_uniform c l = Ok (Val v) /\
  is_maximum (fun p : Z * Z => (fst p <= snd p)%Z) (fun p => likelihood (discrete_uniform_pmf (fst p) (snd p)) l) v.
Proof. exact discrete_uniform_opt. Qed.
Lemma C69_bernoulli_holds : forall c l, l <> [] -> (forall x, In x l -> x = 0 \/ x = 1) -> exists v, lf_bernoulli c l = Ok (Val v) /\
  is_maximum (fun p => 0 <= p <= 1) (fun p => likelihood (bernoulli_pmf p) l) v.
Proof. exact bernoulli_opt. Qed.
Lemma C69_binomial_holds : forall n l, (0 < n)%nat -> l <> [] -> counts n l -> exists v, lf_binomial KInt l n = Ok (Val v) /\
  is_maximum (fun p => 0 <= p <= 1) (fun p => likelihood (binomial_pmf n p) l) v.
Proof. exact binomial_opt. Qed.
Lemma C69_poisson_holds : forall l, l <> [] -> (forall x, In x l -> exists k, x = INR k) -> (exists x, In x l /\ x <> 0) ->
  exists v, lf_poisson KInt l = Ok (Val v) /\ is_maximum (fun lam => 0 <= lam) (fun lam => likelihood (poisson_pmf lam) l) v.
Proof. exact poisson_opt. Qed.
Lemma C69_geometric_holds : forall c l, c <> KList -> l <> [] -> (forall x, In x l -> exists k, (1 <= k)%nat /\ x = INR k) -> (exists x, In x l /\ x <> 1) ->
  exists v, lf_geometric c l = Ok (Val v) /\ is_maximum (fun p => 0 <= p <= 1) (fun p => likelihood (geometric_pmf p) l) v.
Proof. exact geometric_opt. Qed.
(** samples with a value outside the support have likelihood 0 under every parameter, and 0 is returned *)
Lemma C69_outside_support_holds : forall c l x, In x l ->
  (x <= 0 -> lf_lognormal c l = Ok (Val 0) /\ is_maximum (fun p : R * R => 0 < snd p) (fun p => likelihood (lognormal_pdf (fst p) (snd p)) l) 0) /\
  (x < 0 -> lf_exponential c l = Ok (Val 0) /\ is_maximum (fun r => 0 < r) (fun r => likelihood (exponential_pdf r) l) 0) /\
  (x <= 0 -> c <> KList -> lf_pareto c l = Ok (Val 0) /\ is_maximum (fun p : R * R => 0 < fst p /\ 0 < snd p) (fun p => likelihood (pareto_pdf (fst p) (snd p)) l) 0) /\
  (x < 0 -> c <> KList -> lf_rayleigh c l = Ok (Val 0) /\ is_maximum (fun s => 0 < s) (fun s => likelihood (rayleigh_pdf s) l) 0) /\
  (x <> 0 -> x <> 1 -> lf_bernoulli c l = Ok (Val 0) /\ is_maximum (fun p => 0 <= p <= 1) (fun p => likelihood (bernoulli_pmf p) l) 0) /\
  (forall n, (x < 0 \/ INR n < x \/ ~ integer x) -> c <> KList -> lf_binomial c l n = Ok (Val 0) /\ is_maximum (fun p => 0 <= p <= 1) (fun p => likelihood (binomial_pmf n p) l) 0) /\
  ((x < 0 \/ ~ integer x) -> c <> KList -> lf_poisson c l = Ok (Val 0) /\ is_maximum (fun lam => 0 <= lam) (fun lam => likelihood (poisson_pmf lam) l) 0) /\
  ((x < 1 \/ ~ integer x) -> c <> KList -> lf_geometric c l = Ok (Val 0) /\ is_maximum (fun p => 0 <= p <= 1) (fun p => likelihood (geometric_pmf p) l) 0).
Proof.
  assert (NI : forall x, ~ integer x -> is_int x = false) by (intros x N; destruct (is_int x) eqn:E; [apply is_int_spec in E; contradiction|reflexivity]).
  assert (NN : forall x, ~ integer x -> Reqb (INR (Z.to_nat (Int_part x))) x = false).
  { intros x N. apply Reqb_false. intros E. apply N. rewrite <- E. apply integer_INR. }
  intros c l x Hx. repeat split.
  - unfold lf_lognormal. now rewrite (any_nonpos_true l x).
  - apply (zero_maximum _ (fun p : R * R => lognormal_pdf (fst p) (snd p)) l x (0, 1)); [trivial| |cbn; lra]. intros p _. unfold lognormal_pdf. now rewrite (proj2 (Rltb_false 0 x)).
  - intros p Hp. cbn beta. rewrite (lik_zero _ l x); trivial; [lra|]. unfold lognormal_pdf. now rewrite (proj2 (Rltb_false 0 x)).
  - unfold lf_exponential. now rewrite (any_neg_true l x).
  - apply (zero_maximum _ exponential_pdf l x 1); [trivial| |lra]. intros p _. unfold exponential_pdf. now rewrite (proj2 (Rleb_false 0 x)).
  - intros p Hp. cbn beta. rewrite (lik_zero _ l x); trivial; [lra|]. unfold exponential_pdf. now rewrite (proj2 (Rleb_false 0 x)).
  - unfold lf_pareto. rewrite array_ok by trivial. now rewrite (any_nonpos_true l x).
  - apply (zero_maximum _ (fun p : R * R => pareto_pdf (fst p) (snd p)) l x (1, 1)); [trivial| |cbn; lra]. intros p (_ & Hp). unfold pareto_pdf. rewrite (proj2 (Rleb_false (snd p) x)); [reflexivity|lra].
  - intros p (_ & Hp). cbn beta. rewrite (lik_zero _ l x); trivial; [lra|]. unfold pareto_pdf. rewrite (proj2 (Rleb_false (snd p) x)); [reflexivity|lra].
  - unfold lf_rayleigh. rewrite array_ok by trivial. now rewrite (any_neg_true l x).
  - apply (zero_maximum _ rayleigh_pdf l x 1); [trivial| |lra]. intros p _. unfold rayleigh_pdf. now rewrite (proj2 (Rleb_false 0 x)).
  - intros p Hp. cbn beta. rewrite (lik_zero _ l x); trivial; [lra|]. unfold rayleigh_pdf. now rewrite (proj2 (Rleb_false 0 x)).
  - unfold lf_bernoulli. replace (forallb _ l) with false; [reflexivity|]. symmetry. apply not_true_iff_false. rewrite forallb_forall. intros K. specialize (K x Hx). apply orb_true_iff in K. rewrite !Reqb_true in K. tauto.
  - apply (zero_maximum _ bernoulli_pmf l x 0); [trivial| |lra]. intros p _. unfold bernoulli_pmf. now rewrite (proj2 (Reqb_false x 1)), (proj2 (Reqb_false x 0)).
  - intros p Hp. cbn beta. rewrite (lik_zero _ l x); trivial; [lra|]. unfold bernoulli_pmf. now rewrite (proj2 (Reqb_false x 1)), (proj2 (Reqb_false x 0)).
  - unfold lf_binomial. rewrite array_ok by trivial. replace (existsb _ l) with true; [reflexivity|]. symmetry. apply existsb_exists. exists x. split; [trivial|].
    destruct H as [H|[H|H]]; [rewrite (proj2 (Rltb_true x 0) H)|rewrite (proj2 (Rltb_true (INR n) x) H)|rewrite (NI x H)]; cbn; rewrite ?orb_true_r; reflexivity.
  - apply (zero_maximum _ (binomial_pmf n) l x 0); [trivial| |lra]. intros p _. unfold binomial_pmf. destruct H as [H|[H|H]];
    [rewrite (proj2 (Rleb_false 0 x) H)|rewrite (proj2 (Rleb_false x (INR n)) H)|rewrite (NN x H)]; rewrite ?andb_false_r; reflexivity.
  - intros p Hp. cbn beta. rewrite (lik_zero _ l x); trivial; [lra|]. unfold binomial_pmf. destruct H as [H|[H|H]];
    [rewrite (proj2 (Rleb_false 0 x) H)|rewrite (proj2 (Rleb_false x (INR n)) H)|rewrite (NN x H)]; rewrite ?andb_false_r; reflexivity.
  - unfold lf_poisson. rewrite array_ok by trivial. destruct H as [H|H]; [now rewrite (any_neg_true l x)|]. replace (forallb is_int l) with false; [now rewrite orb_true_r|].
    symmetry. apply not_true_iff_false. rewrite forallb_forall. intros K. specialize (K x Hx). now rewrite (NI x H) in K.
  - apply (zero_maximum _ poisson_pmf l x 0); [trivial| |lra]. intros p _. unfold poisson_pmf. destruct H as [H|H]; [rewrite (proj2 (Rleb_false 0 x) H)|rewrite (NN x H)]; rewrite ?andb_false_r; reflexivity.
  - intros p Hp. cbn beta. rewrite (lik_zero _ l x); trivial; [lra|]. unfold poisson_pmf. destruct H as [H|H]; [rewrite (proj2 (Rleb_false 0 x) H)|rewrite (NN x H)]; rewrite ?andb_false_r; reflexivity.
  - unfold lf_geometric. rewrite array_ok by trivial. destruct H as [H|H].
    + replace (existsb _ l) with true; [reflexivity|]. symmetry. apply existsb_exists. exists x. split; [trivial|now apply Rltb_true].
    + replace (forallb is_int l) with false; [now rewrite orb_true_r|]. symmetry. apply not_true_iff_false. rewrite forallb_forall. intros K. specialize (K x Hx). now rewrite (NI x H) in K.
  - apply (zero_maximum _ geometric_pmf l x 0); [trivial| |lra]. intros p _. unfold geometric_pmf. destruct H as [H|H]; [rewrite (proj2 (Rleb_false 1 x) H)|rewrite (NN x H)]; rewrite ?andb_false_r; reflexivity.
  - intros p Hp. cbn beta. rewrite (lik_zero _ l x); trivial; [lra|]. unfold geometric_pmf. destruct H as [H|H]; [rewrite (proj2 (Rleb_false 1 x) H)|rewrite (NN x H)]; rewrite ?andb_false_r; reflexivity.
Qed.
(** samples of one repeated value: Laplace and Pareto report inf, and the likelihood is indeed unbounded *)
Lemma C69_unbounded_likelihood_holds : forall c a l, constant a l ->
  (lf_laplace c l = Ok PlusInf /\ unbounded (fun p : R * R => 0 < snd p) (fun p => likelihood (laplace_pdf (fst p) (snd p)) l)) /\
  (c <> KList -> 0 < a -> lf_pareto c l = Ok PlusInf /\ unbounded (fun p : R * R => 0 < fst p /\ 0 < snd p) (fun p => likelihood (pareto_pdf (fst p) (snd p)) l)).
Proof. intros c a l H. split; [now apply (laplace_const c a)|]. intros; now apply (pareto_const c a). Qed.
(** ... while uniform, normal, log-normal and exponential report 0 although the likelihood is unbounded *)
Lemma C69_repeated_value_refuted_holds : forall c a l, constant a l ->
  (lf_uniform c l = Ok (Val 0) /\ unbounded (fun p : R * R => fst p < snd p) (fun p => likelihood (uniform_pdf (fst p) (snd p)) l)) /\
  (lf_normal c l = Ok (Val 0) /\ unbounded (fun p : R * R => 0 < snd p) (fun p => likelihood (normal_pdf (fst p) (snd p)) l)) /\
  (0 < a -> lf_lognormal c l = Ok (Val 0) /\ unbounded (fun p : R * R => 0 < snd p) (fun p => likelihood (lognormal_pdf (fst p) (snd p)) l)) /\
  (a = 0 -> c <> KList -> lf_exponential c l = Ok (Val 0) /\ unbounded (fun r => 0 < r) (fun r => likelihood (exponential_pdf r) l)).
Proof.
  intros c a l H. split; [now apply (uniform_const c a)|]. split; [now apply (normal_const c a)|]. split; [intros; now apply (lognormal_const c a)|].
  intros -> Hc. now apply exponential_zeros.
Qed.
(** extreme counts: the maximum is 1 but an exception is raised; a zero observation makes the Rayleigh fit fail although the
    likelihood is 0 for every scale; discrete uniform gives a positive likelihood to values that are no integers *)
Lemma C69_boundary_samples_refuted_holds :
  (forall l, constant 0 l -> lf_poisson KInt l = Raise ValueError /\ is_maximum (fun lam => 0 <= lam) (fun lam => likelihood (poisson_pmf lam) l) 1) /\
  (forall c l, c <> KList -> constant 1 l -> lf_geometric c l = Raise ValueError /\ is_maximum (fun p => 0 <= p <= 1) (fun p => likelihood (geometric_pmf p) l) 1) /\
  (forall c l, c <> KList -> (forall x, In x l -> 0 <= x) -> In 0 l -> lf_rayleigh c l = Raise FitError /\ is_maximum (fun s => 0 < s) (fun s => likelihood (rayleigh_pdf s) l) 0) /\
  (forall c l x, In x l -> ~ integer x -> exists v, lf_discrete_uniform c l = Ok (Val v) /\ 0 < v /\
     is_maximum (fun p : Z * Z => (fst p <= snd p)%Z) (fun p => likelihood (discrete_uniform_pmf (fst p) (snd p)) l) 0).
Proof.
  split; [|split; [|split]].
  - intros l Hc. pose proof Hc as (Hne & Hx). destruct (naturals_guard l) as (G1 & G2); [intros x H; exists 0%nat; now rewrite (Hx x H)|]. split.
    + unfold lf_poisson. rewrite G1, G2, match_ne by trivial. cbn [elementwise orb negb]. fold (mean l). rewrite (const_mean 0 l Hc). now rewrite (proj2 (Reqb_true 0 0) eq_refl).
    + assert (P0 : forall q, poisson_pmf q 0 = exp (- q)) by (intros q; change 0 with (INR 0) at 1; rewrite poisson_val; simpl; field).
      split; [exists 0; split; [lra|]; apply likelihood_one; intros x H; rewrite (Hx x H), P0, Ropp_0; apply exp_0|].
      intros q Hq. apply likelihood_le_one. intros x H. rewrite (Hx x H), P0. split; [left; apply exp_pos|]. rewrite <- exp_0. apply exp_mono. lra.
  - intros c l Hk Hc. pose proof Hc as (Hne & Hx). destruct (positive_naturals_guard l) as (G1 & G2); [intros x H; exists 1%nat; split; [lia|]; now rewrite (Hx x H)|]. pose proof (EdfProofs.len_pos l Hne) as L. split.
    + unfold lf_geometric. rewrite array_ok by trivial. rewrite G1, G2, match_ne by trivial. cbn [orb negb]. rewrite <- (map_id l) at 2. rewrite (Rsum_map_ext _ (fun _ => 1)) by trivial. rewrite Rsum_const_len.
      replace (len l / (len l * 1)) with 1 by (field; lra). now rewrite (proj2 (Reqb_true 1 1) eq_refl).
    + assert (P1 : forall q, geometric_pmf q 1 = q) by (intros q; change 1 with (INR 1) at 1; rewrite geometric_val by lia; simpl; ring).
      split; [exists 1; split; [lra|]; apply likelihood_one; intros x H; now rewrite (Hx x H), P1|].
      intros q Hq. apply likelihood_le_one. intros x H. now rewrite (Hx x H), P1.
  - intros c l Hk Hn H0. split.
    + unfold lf_rayleigh. rewrite array_ok, not_any_neg by trivial. now rewrite (any_nonpos_true l 0) by (trivial; lra).
    + assert (R0 : forall s, rayleigh_pdf s 0 = 0) by (intros s; unfold rayleigh_pdf; destruct (Rleb 0 0); [unfold Rdiv; ring|reflexivity]).
      apply (zero_maximum _ rayleigh_pdf l 0 1); trivial; lra.
  - intros c l x Hx N. assert (Hne : l <> []) by (intros ->; destruct Hx). unfold lf_discrete_uniform. rewrite match_ne by trivial. eexists. split; [reflexivity|]. split; [apply exp_pos|].
    apply (zero_maximum _ (fun p : Z * Z => discrete_uniform_pmf (fst p) (snd p)) l x (0%Z, 0%Z)); [trivial| |cbn; lia]. intros p _. unfold discrete_uniform_pmf. fold (is_int x).
    replace (is_int x) with false by (symmetry; destruct (is_int x) eqn:E; [apply is_int_spec in E; contradiction|reflexivity]). now rewrite andb_false_r.
Qed.
(** which containers are refused *)
Lemma C69_lists_refused_holds : forall S l n, 
  lf_weibull (sp_root S) KList l = Raise TypeError /\ lf_gamma (sp_gamma_pdf S) (sp_gamma_fit S) KList l = Raise TypeError /\
  lf_fisher (sp_f_pdf S) (sp_f_fit S) KList l = Raise TypeError /\ lf_rayleigh KList l = Raise TypeError /\ lf_pareto KList l = Raise TypeError /\
  lf_binomial KList l n = Raise TypeError /\ lf_poisson KList l = Raise TypeError /\ lf_geometric KList l = Raise TypeError /\
  (l <> [] -> lf_beta (sp_gammaln S) (sp_beta_fit S) KList l = Raise TypeError /\ lf_wigner (sp_minimise S) KList l = Raise TypeError).
Proof. intros S l n. repeat split. all: intros; destruct l; [congruence|reflexivity]. Qed.
(** arrays of floats: Poisson and binomial raise although the same numbers as integers have a likelihood *)
Lemma C69_float_counts_refuted_holds :
  (forall l, l <> [] -> (forall x, In x l -> exists k, x = INR k) -> (exists x, In x l /\ x <> 0) ->
     lf_poisson KFloat l = Raise TypeError /\ exists v, lf_poisson KInt l = Ok (Val v)) /\
  (forall n l, (0 < n)%nat -> l <> [] -> counts n l -> (exists x, In x l /\ x <> 0) -> (exists x, In x l /\ x <> INR n) ->
     lf_binomial KFloat l n = Raise TypeError /\ exists v, lf_binomial KInt l n = Ok (Val v)).
Proof.
  split.
  - intros l Hne H E. destruct (poisson_opt l Hne H E) as (v & Hv & _). split; [|eauto]. unfold lf_poisson in *. destruct (naturals_guard l H) as (G1 & G2). rewrite G1, G2, match_ne in * by trivial. cbn [elementwise orb negb] in *.
    destruct (Reqb (Rsum l / len l) 0); [discriminate|reflexivity].
  - intros n l Hn Hne H (x0 & Hx0 & N0) (x1 & Hx1 & N1). destruct (binomial_opt n l Hn Hne H) as (v & Hv & _). split; [|eauto]. unfold lf_binomial in *. rewrite counts_guard, match_ne in * by trivial. cbn [elementwise] in *.
    rewrite (proj2 (Nat.eqb_neq n 0)) in * by lia. cbn [negb andb] in *. pose proof (EdfProofs.len_pos l Hne) as L. pose proof (lt_0_INR n Hn) as Np. assert (LN : 0 < len l * INR n) by nra.
    assert (Ep : Rsum l / (len l * INR n) * (len l * INR n) = Rsum l) by (apply div_prod_mult; lra). set (p := Rsum l / (len l * INR n)) in *.
    destruct (Reqb_spec p 0) as [E|E].
    { exfalso. apply N0. apply (Rsum_zero l); trivial; [intros x Hx; destruct (H x Hx) as (k & _ & ->); apply pos_INR|]. rewrite <- Ep, E. ring. }
    destruct (Reqb_spec p 1) as [E'|E']; [|reflexivity].
    exfalso. apply N1. apply (Rsum_full (INR n) l); trivial; [intros x Hx; destruct (H x Hx) as (k & Hk & ->); now apply le_INR|]. rewrite <- Ep, E'. ring.
Qed.
(** *** C69: families fitted by scipy.  If the fit is a maximiser, the returned value is the maximum *)
Lemma C69_gamma_holds : forall G fit c l shape scale, (forall x, 0 < x -> 0 < G x) -> c <> KList -> (forall x, In x l -> 0 < x) -> varied l -> fit l = Ok (shape, scale) ->
  attains (fun p : R * R => 0 < fst p /\ 0 < snd p) (fun p => likelihood (gamma_pdf G (fst p) (snd p)) l) (shape, scale) ->
  exists v, lf_gamma (fun a => gamma_pdf G a 1) fit c l = Ok (Val v) /\
    is_maximum (fun p : R * R => 0 < fst p /\ 0 < snd p) (fun p => likelihood (gamma_pdf G (fst p) (snd p)) l) v.
Proof. exact gamma_fit_max. Qed.
Lemma C69_beta_holds : forall G fit c l a b, (forall x, 0 < x -> 0 < G x) -> c <> KList -> (forall x, In x l -> 0 < x < 1) -> varied l -> fit l = Ok (a, b) ->
  attains (fun p : R * R => 0 < fst p /\ 0 < snd p) (fun p => likelihood (beta_pdf G (fst p) (snd p)) l) (a, b) ->
  exists v, lf_beta (fun x => ln (G x)) fit c l = Ok (Val v) /\
    is_maximum (fun p : R * R => 0 < fst p /\ 0 < snd p) (fun p => likelihood (beta_pdf G (fst p) (snd p)) l) v.
Proof. exact beta_fit_max. Qed.
Lemma C69_cauchy_holds : forall fit c l loc scale, varied l -> fit l = Ok (loc, scale) ->
  attains (fun p : R * R => 0 < snd p) (fun p => likelihood (cauchy_pdf (fst p) (snd p)) l) (loc, scale) ->
  exists v, lf_cauchy (cauchy_pdf 0 1) fit c l = Ok (Val v) /\
    is_maximum (fun p : R * R => 0 < snd p) (fun p => likelihood (cauchy_pdf (fst p) (snd p)) l) v.
Proof. exact cauchy_fit_max. Qed.
Lemma C69_student_holds : forall pdf fit c l df loc scale, (forall df x, 0 < df -> 0 <= pdf df x) -> varied l -> fit l = Ok (df, loc, scale) ->
  attains (fun p : R * R * R => 0 < fst (fst p) /\ 0 < snd p) (fun p => likelihood (location_scale (pdf (fst (fst p))) (snd (fst p)) (snd p)) l) (df, loc, scale) ->
  exists v, lf_t pdf fit c l = Ok (Val v) /\
    is_maximum (fun p : R * R * R => 0 < fst (fst p) /\ 0 < snd p) (fun p => likelihood (location_scale (pdf (fst (fst p))) (snd (fst p)) (snd p)) l) v.
Proof. exact t_fit_max. Qed.
Lemma C69_fisher_holds : forall pdf fit c l d1 d2 scale, (forall d1 d2 x, 0 < d1 -> 0 < d2 -> 0 <= pdf d1 d2 x) -> c <> KList -> (forall x, In x l -> 0 < x) -> varied l -> fit l = Ok (d1, d2, scale) ->
  attains (fun p : R * R * R => 0 < fst (fst p) /\ 0 < snd (fst p) /\ 0 < snd p) (fun p => likelihood (location_scale (pdf (fst (fst p)) (snd (fst p))) 0 (snd p)) l) (d1, d2, scale) ->
  exists v, lf_fisher pdf fit c l = Ok (Val v) /\
    is_maximum (fun p : R * R * R => 0 < fst (fst p) /\ 0 < snd (fst p) /\ 0 < snd p) (fun p => likelihood (location_scale (pdf (fst (fst p)) (snd (fst p))) 0 (snd p)) l) v.
Proof. exact fisher_fit_max. Qed.
Lemma C69_wigner_holds : forall minimise c l r, c <> KList -> varied l -> minimise (Rmaxl 0 (map Rabs l) + 1e-6) (Rmaxl 0 (map Rabs l) + 10) l = (true, r) -> (forall x, In x l -> Rabs x < r) ->
  attains (fun r => 0 < r) (fun r => likelihood (wigner_pdf r) l) r ->
  exists v, lf_wigner minimise c l = Ok (Val v) /\ is_maximum (fun r => 0 < r) (fun r => likelihood (wigner_pdf r) l) v.
Proof. exact wigner_exact. Qed.
(** the search interval of the Wigner radius ends at max|x| + 10: for the samples {a, -a} with a >= 25 the optimum lies outside *)
Lemma C69_wigner_refuted_holds : forall minimise c a, c <> KList -> 25 <= a ->
  (forall r, minimise (a + 1e-6) (a + 10) [a; - a] = (true, r) -> a + 1e-6 <= r <= a + 10) ->
  exists v, lf_wigner minimise c [a; - a] = Ok (Val v) /\ ~ is_maximum (fun r => 0 < r) (fun r => likelihood (wigner_pdf r) [a; - a]) v.
Proof. exact wigner_not_max. Qed.
(** chi-square: a free scale is fitted besides the degrees of freedom, so the returned value is the maximum of a larger family;
    it exceeds the chi-square maximum whenever the geometric mean is below the mean by more than 2 *)
Lemma C69_chi_squared_refuted_holds : forall G fit c l df s, gamma_like G -> l <> [] -> (forall x, In x l -> 0 < x) -> exp (mean (map ln l)) < mean l - 2 -> fit l = Ok (df, s) ->
  attains (fun p : R * R => 0 < fst p /\ 0 < snd p) (fun p => likelihood (location_scale (chi2_pdf G (fst p)) 0 (snd p)) l) (df, s) ->
  exists v, lf_chi_squared (chi2_pdf G) fit c l = Ok (Val v) /\
    is_maximum (fun p : R * R => 0 < fst p /\ 0 < snd p) (fun p => likelihood (location_scale (chi2_pdf G (fst p)) 0 (snd p)) l) v /\
    ~ is_maximum (fun d => 0 < d) (fun d => likelihood (chi2_pdf G d) l) v.
Proof.
  intros G fit c l df s HG Hne Hp Hm Hf Ha. destruct (chi2_not_max G fit c l df s HG Hne Hp Hm Hf Ha) as (v & Hv & N). exists v. split; [trivial|]. split; [|trivial].
  pose proof Ha as ((Hd & Hs) & _). cbn [fst snd] in *. destruct HG as (HG & _). rewrite (chi2_value G fit c l df s) in Hv by trivial. injection Hv as <-. exact (attains_max _ _ _ Ha).
Qed.
(** Weibull: the scale is optimal for the shape that is returned *)
Lemma C69_weibull_scale_partial_holds : forall root c l, c <> KList -> l <> [] -> (forall x, In x l -> 0 < x) -> 0 < root l -> weibull_g l 0.1 * weibull_g l 10 <= 0 ->
  exists v, lf_weibull root c l = Ok (Val v) /\ is_maximum (fun lam => 0 < lam) (fun lam => likelihood (weibull_pdf (root l) lam) l) v.
Proof.
  intros root c l Hc Hne Hp Hk Hg. eexists. split; [now apply weibull_value|]. split; [exists (wlam (root l) l); split; [apply exp_pos|reflexivity]|].
  intros lam Hl. now apply weibull_profile.
Qed.
(** ... but the equation for the shape is not the likelihood equation: for samples of values above 1, whatever root of the
    equation of the code is found, the returned value is not the maximum *)
Lemma C69_weibull_refuted_holds : forall root c l, c <> KList -> l <> [] -> (forall x, In x l -> 1 < x) -> 0 < root l -> weibull_g l (root l) = 0 ->
  exists v, lf_weibull root c l = Ok (Val v) /\ ~ is_maximum (fun p : R * R => 0 < fst p /\ 0 < snd p) (fun p => likelihood (weibull_pdf (fst p) (snd p)) l) v.
Proof. exact weibull_not_max. Qed.
(** *** C70 *)
(** the order of likelihoods: numbers as usual, infinity above every number, nan in no relation *)
Definition larger_likelihood (a b : likval) : Prop :=
  (exists x y, a = Val x /\ b = Val y /\ y < x) \/ (a = PlusInf /\ exists y, b = Val y).
Lemma exceeds_iff a b : exceeds a b = true <-> larger_likelihood a b.
Proof.
  unfold larger_likelihood. destruct a as [x| |], b as [y| |]; simpl; split; intros H; try discriminate; try (destruct H as [(u & w & E1 & E2 & _)|(E1 & u & E2)]; discriminate).
  - left. exists x, y. destruct (Rltb_spec y x); [auto|discriminate].
  - destruct H as [(u & w & E1 & E2 & H)|(E1 & _)]; [|discriminate]. injection E1 as ->. injection E2 as ->. destruct (Rltb_spec w u); [reflexivity|lra].
  - right. split; [reflexivity|now exists y].
  - reflexivity.
Qed.
(** the loop itself is right: for any list of functions that all return, the name that comes back belongs to a function whose
    value is positive and not exceeded by any other; None comes back exactly when no value is positive *)
Lemma C70_selection_loop_holds : forall D (functions : list (string * (D -> result likval))) d r, find_max functions d = Ok r ->
  (forall n f, In (n, f) functions -> exists v, f d = Ok v) /\
  match r with
  | Some name => exists f v, In (name, f) functions /\ f d = Ok v /\ larger_likelihood v (Val 0) /\ (forall n' f' v', In (n', f') functions -> f' d = Ok v' -> ~ larger_likelihood v' v)
  | None => forall n' f' v', In (n', f') functions -> f' d = Ok v' -> ~ larger_likelihood v' (Val 0)
  end.
Proof.
  intros D fs d r H. unfold find_max in H. destruct (max_loop fs d (None, Val 0)) as [b|] eqn:E; [|discriminate]. cbn [bind] in H. injection H as <-.
  split; [exact (max_loop_all_ok _ _ _ _ E)|]. destruct (max_loop_spec _ _ _ _ E) as ([-> | (n & f & Hin & Hf & Hn & He)] & H2); cbn [fst snd] in *.
  - intros n' f' v' I E'. rewrite <- exceeds_iff, (H2 _ _ _ I E'). discriminate.
  - rewrite Hn. exists f, (snd b). rewrite <- exceeds_iff. repeat split; auto. intros n' f' v' I E'. rewrite <- exceeds_iff, (H2 _ _ _ I E'). discriminate.
Qed.
(** ... but the module also contains functions of another signature: no call ever returns, whatever the data and whatever scipy computes *)
Lemma C70_find_max_refuted_holds : forall S d, ~ exists r, find_max_probability_function S d = Ok r.
Proof. intros S d (r & H). exact (module_never_ok S d r H). Qed.
Lemma C70_find_result_refuted_holds : forall S d, ~ exists r, find_result_of_likelihood_function S d = Ok r.
Proof.
  intros S (k, l) (r & H). unfold find_result_of_likelihood_function in H. cbn [snd] in H. destruct l as [|x [|y l]]; try discriminate. destruct (Reqb x 0); [discriminate|].
  destruct (find_max_probability_function S (k, [x])) as [q|] eqn:E; [exact (module_never_ok _ _ _ E)|discriminate].
Qed.
(** the data that the documentation calls valid, lists of several numbers, are refused: the truth value of the array is ambiguous *)
Lemma C70_several_values_refuted_holds : forall S k x y l, find_result_of_likelihood_function S (k, x :: y :: l) = Raise ValueError.
Proof. reflexivity. Qed.
Lemma C70_import_refuted_holds : import_maximum_likelihood false = Raise ModuleNotFoundError.
Proof. reflexivity. Qed.
