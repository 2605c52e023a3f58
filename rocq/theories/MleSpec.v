(** Textbook densities, the likelihood of a sample, and what it means to maximise it. *)
From Coq Require Import ZArith.
From Verif Require Import Base.
Local Open Scope R_scope.

(** the likelihood: the product of the density over the observations *)
Definition likelihood (density : R -> R) (sample : list R) : R := fold_right (fun x acc => density x * acc) 1 sample.
(** [v] is attained by an admissible parameter and exceeded by none *)
Definition is_maximum {P} (admissible : P -> Prop) (L : P -> R) (v : R) : Prop :=
  (exists p, admissible p /\ L p = v) /\ forall p, admissible p -> L p <= v.
(** the likelihood has no upper bound *)
Definition unbounded {P} (admissible : P -> Prop) (L : P -> R) : Prop := forall v, exists p, admissible p /\ v < L p.

Definition uniform_pdf (a b x : R) : R := if Rleb a x && Rleb x b then 1 / (b - a) else 0.
Definition normal_pdf (mu var x : R) : R := exp (- (x - mu) ^ 2 / (2 * var)) / sqrt (2 * PI * var).
Definition lognormal_pdf (mu var x : R) : R := if Rltb 0 x then normal_pdf mu var (ln x) / x else 0.
Definition exponential_pdf (rate x : R) : R := if Rleb 0 x then rate * exp (- rate * x) else 0.
Definition pareto_pdf (alpha xm x : R) : R := if Rleb xm x then alpha * Rpower xm alpha / Rpower x (alpha + 1) else 0.
Definition laplace_pdf (mu b x : R) : R := exp (- (Rabs (x - mu) / b)) / (2 * b).
Definition rayleigh_pdf (s x : R) : R := if Rleb 0 x then x / s ^ 2 * exp (- x ^ 2 / (2 * s ^ 2)) else 0.
Definition weibull_pdf (k lam x : R) : R := if Rltb 0 x then k / lam * Rpower (x / lam) (k - 1) * exp (- Rpower (x / lam) k) else 0.
Definition wigner_pdf (r x : R) : R := if Rleb (Rabs x) r then 2 / (PI * r ^ 2) * sqrt (r ^ 2 - x ^ 2) else 0.
(** gamma, beta and chi-square densities for a given function [Gamma] *)
Definition gamma_pdf (Gamma : R -> R) (shape scale x : R) : R :=
  if Rltb 0 x then Rpower (x / scale) (shape - 1) * exp (- (x / scale)) / (Gamma shape * scale) else 0.
Definition chi2_pdf (Gamma : R -> R) (df x : R) : R :=
  if Rltb 0 x then Rpower x (df / 2 - 1) * exp (- (x / 2)) / (Rpower 2 (df / 2) * Gamma (df / 2)) else 0.
Definition beta_pdf (Gamma : R -> R) (a b x : R) : R :=
  if Rltb 0 x && Rltb x 1 then Gamma (a + b) / (Gamma a * Gamma b) * Rpower x (a - 1) * Rpower (1 - x) (b - 1) else 0.
(** discrete distributions on the integers, as functions of a real argument *)
Definition integer (x : R) : Prop := exists z, x = IZR z.
Definition discrete_uniform_pmf (a b : Z) (x : R) : R :=
  if Rleb (IZR a) x && Rleb x (IZR b) && Reqb (IZR (Int_part x)) x then 1 / (IZR b - IZR a + 1) else 0.
Definition bernoulli_pmf (p x : R) : R := if Reqb x 1 then p else if Reqb x 0 then 1 - p else 0.
Definition binomial_pmf (n : nat) (p x : R) : R :=
  let k := Z.to_nat (Int_part x) in
  if Rleb 0 x && Rleb x (INR n) && Reqb (INR k) x then C n k * p ^ k * (1 - p) ^ (n - k) else 0.
Definition poisson_pmf (lam x : R) : R :=
  let k := Z.to_nat (Int_part x) in
  if Rleb 0 x && Reqb (INR k) x then lam ^ k / INR (fact k) * exp (- lam) else 0.
Definition geometric_pmf (p x : R) : R :=
  let k := Z.to_nat (Int_part x) in
  if Rleb 1 x && Reqb (INR k) x then p * (1 - p) ^ (k - 1) else 0.
Definition cauchy_pdf (loc scale x : R) : R := 1 / (PI * scale * (1 + ((x - loc) / scale) ^ 2)).
(** the location-scale family of a standard density *)
Definition location_scale (f : R -> R) (loc scale x : R) : R := f ((x - loc) / scale) / scale.
(** [p] is an admissible maximiser *)
Definition attains {P} (admissible : P -> Prop) (L : P -> R) (p : P) : Prop := admissible p /\ forall q, admissible q -> L q <= L p.
(** positive on the positive reals, with the functional equation of the gamma function *)
Definition gamma_like (Gamma : R -> R) : Prop := (forall x, 0 < x -> 0 < Gamma x) /\ forall x, 0 < x -> Gamma (x + 1) = x * Gamma x.
(** more than one value *)
Definition varied (l : list R) : Prop := exists x y, In x l /\ In y l /\ x <> y.
(** all values equal to [a] *)
Definition constant (a : R) (l : list R) : Prop := l <> [] /\ forall x, In x l -> x = a.
(** numbers of successes in [n] trials *)
Definition counts (n : nat) (l : list R) : Prop := forall x, In x l -> exists k, (k <= n)%nat /\ x = INR k.
