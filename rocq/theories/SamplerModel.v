(** Model of core/distributions/*.py: what [generate_*] returns for one random number.

    [scipy.stats.X.rvs(shape, loc, scale)] returns [loc + scale * Z] with Z a standard variate of the
    family.  A standard variate is represented by its quantile function at a number u drawn uniformly from
    (0,1); the elementary quantile functions are written out, the others are arguments of the model.
    Keyword [size] only repeats the draw. *)
From Verif Require Import Base.

Definition rvs (Q : R -> R) (loc scale u : R) : R := loc + scale * Q u.

(** standard quantile functions (scipy documentation / inverse of the standard cdf) *)
Definition q_uniform (u : R) : R := u.
Definition q_expon (u : R) : R := - ln (1 - u).
Definition q_cauchy (u : R) : R := tan (PI * (u - 1/2)).
Definition q_gumbel_r (u : R) : R := - ln (- ln u).
Definition q_laplace (u : R) : R := if Rleb u (1/2) then ln (2 * u) else - ln (2 * (1 - u)).
Definition q_logistic (u : R) : R := ln (u / (1 - u)).
Definition q_gompertz (c u : R) : R := ln (1 - ln (1 - u) / c).
Definition q_exponweib (a c u : R) : R := Rpower (- ln (1 - Rpower u (/ a))) (/ c).
(** lognorm: exp of a normal with standard deviation s *)
Definition q_lognorm (q_norm : R -> R) (s u : R) : R := exp (s * q_norm u).
(** truncnorm: [a], [b] bound the standardised variable *)
Definition q_truncnorm (q_norm Phi : R -> R) (a b u : R) : R := q_norm (Phi a + u * (Phi b - Phi a)).

(** core/distributions/uniform.py:43-44 *)
Definition generate_uniform (a b : R) := rvs q_uniform a (b - a).
(** expon.py:43-44, cdf 83-84 *)
Definition generate_expon (lam : R) := rvs q_expon 0 (1 / lam).
Definition cdf_expon (lam x : R) : R :=
  let y := x / (1 / lam) in if Rleb y 0 then 0 else 1 - exp (- y).
(** cauchy.py:45, gumbel.py:45, laplace.py:46, logistic.py:46, gompertz.py:45, weibull.py:37, 63 *)
Definition generate_cauchy (t s : R) := rvs q_cauchy t s.
Definition generate_gumbel (mu beta : R) := rvs q_gumbel_r mu beta.
Definition generate_laplace (t s : R) := rvs q_laplace t s.
Definition generate_logistic (t s : R) := rvs q_logistic t s.
Definition generate_gompertz (eta b : R) := rvs (q_gompertz eta) 0 b.
Definition generate_weibull (a k : R) := rvs (q_exponweib a k) 0 1.
Definition generate_weibull_cdf (a k x : R) : R :=
  if Rleb x 0 then 0 else Rpower (1 - exp (- Rpower x k)) a.
(** norm.py:44 (cdf 80), lognormal.py:47-48, truncnormal.py:50; [q_norm], [Phi]: standard normal *)
Definition generate_norm (q_norm : R -> R) (mean var : R) := rvs q_norm mean (sqrt var).
Definition cdf_norm (Phi : R -> R) (mean var x : R) : R := Phi ((x - mean) / sqrt var).
Definition generate_lognorm (q_norm : R -> R) (mu s : R) := rvs (q_lognorm q_norm s) 0 (exp mu).
Definition generate_truncnorm (q_norm Phi : R -> R) (mean var a b : R) :=
  rvs (q_truncnorm q_norm Phi a b) mean (sqrt var).
(** gamma.py:46-47; [q_gamma alfa]: standard gamma with shape alfa *)
Definition generate_gamma (q_gamma : R -> R -> R) (alfa beta : R) := rvs (q_gamma alfa) 0 (1 / beta).
(** invgauss.py:47; [q_invgauss mu]: scipy's standard inverse Gaussian with shape parameter mu *)
Definition generate_invgauss (q_invgauss : R -> R -> R) (mu lam : R) := rvs (q_invgauss mu) 0 lam.
(** rice.py:46 with scipy's own sampler: t = b/sqrt 2 + (z1, z2), result sqrt(t1^2 + t2^2) *)
Definition generate_rice (nu sigma z1 z2 : R) : R :=
  0 + sigma * sqrt ((nu / sqrt 2 + z1) ^ 2 + (nu / sqrt 2 + z2) ^ 2).
(** lo_con_norm.py:47-52, mix_con_norm.py:50-55, scale_con_norm.py:49-54: the choice is 0 when the
    selecting uniform number v is below p *)
Definition lo_con_norm_item (q_norm : R -> R) (p a v u : R) : R :=
  if Rltb v p then rvs q_norm a 1 u else rvs q_norm 0 1 u.
Definition mix_con_norm_item (q_norm : R -> R) (p a b v u : R) : R :=
  if Rltb v p then rvs q_norm a b u else rvs q_norm 0 1 u.
Definition scale_con_norm_item (q_norm : R -> R) (p b v u : R) : R :=
  if Rltb v p then rvs q_norm 0 b u else rvs q_norm 0 1 u.
