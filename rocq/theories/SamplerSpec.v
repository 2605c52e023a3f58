(** Documented laws: distribution functions of the families with the parameters in the roles that
    distribution/distributions.py gives them. *)
From Verif Require Import Base.

(** a variable obtained from a uniform number u by X = Q u has distribution function F:
    {X <= x} is the event {u <= F x} *)
Definition follows (Q F : R -> R) : Prop := forall u x, 0 < u < 1 -> (Q u <= x <-> u <= F x).

(** uniform on [a,b] *)
Definition uniform_law (a b x : R) : R := if Rleb x a then 0 else if Rleb b x then 1 else (x - a) / (b - a).
(** rate lam *)
Definition exponential_law (lam x : R) : R := if Rleb x 0 then 0 else 1 - exp (- (lam * x)).
(** location t, scale s *)
Definition cauchy_law (t s x : R) : R := 1 / 2 + atan ((x - t) / s) / PI.
Definition gumbel_law (mu beta x : R) : R := exp (- exp (- ((x - mu) / beta))).
Definition laplace_law (t s x : R) : R :=
  if Rleb x t then exp ((x - t) / s) / 2 else 1 - exp (- ((x - t) / s)) / 2.
Definition logistic_law (t s x : R) : R := / (1 + exp (- ((x - t) / s))).
(** shape eta, scale b *)
Definition gompertz_law (eta b x : R) : R := if Rleb x 0 then 0 else 1 - exp (- (eta * (exp (x / b) - 1))).
(** scale lam, shape k *)
Definition weibull_law (lam k x : R) : R := if Rleb x 0 then 0 else 1 - exp (- Rpower (x / lam) k).
(** mean and variance; Phi is the standard normal distribution function *)
Definition normal_law (Phi : R -> R) (mean var x : R) : R := Phi ((x - mean) / sqrt var).
Definition lognormal_law (Phi : R -> R) (mu s x : R) : R := if Rleb x 0 then 0 else Phi ((ln x - mu) / s).
(** rate beta; G is the standard gamma distribution function of the shape *)
Definition gamma_law (G : R -> R) (beta x : R) : R := G (beta * x).
(** the standard normal distribution function: continuous, strictly increasing, values inside (0,1) *)
Definition normal_like (Phi : R -> R) : Prop :=
  (forall x y, x < y -> Phi x < Phi y) /\ forall x, 0 < Phi x < 1.
