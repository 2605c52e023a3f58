(** Model of the helper functions of core/distributions that are not samplers of C78: moments, the
    density and the logarithms of distribution functions, and the remaining samplers.

    Library behaviour is taken from the scipy documentation: [scipy.stats.moment(a, order, center=c)] is the
    mean of (x - c)^order, with the sample mean for c when [center] is None, and nan for an empty sample;
    [logcdf] and [logsf] are the logarithms of [cdf] and of its complement, minus infinity for zero.
    Orders are natural numbers, samples are one-dimensional. *)
From Verif Require Import Base SamplerModel.

(** scipy.stats.moment *)
Definition scipy_moment (a : list R) (order : nat) (center : option R) : npval :=
  match a with
  | [] => NonFinite
  | _ => let c := match center with Some c => c | None => mean a end in
         Fin (mean (map (fun x => (x - c) ^ order) a))
  end.
(** core/distributions/sample.py:5-38 *)
Definition moment (a : list R) (mom : nat) (center : option R) : npval := scipy_moment a mom center.
(** core/distributions/sample.py:41-48 *)
Definition central_moment (a : list R) (mom : nat) : npval :=
  let mu := mean a in scipy_moment a mom (Some mu).

(** scipy.stats.norm.pdf with loc and scale *)
Definition scipy_norm_pdf (loc scale x : R) : R :=
  let y := (x - loc) / scale in exp (- y ^ 2 / 2) / sqrt (2 * PI) / scale.
(** core/distributions/norm.py:83-115 *)
Definition pdf_norm (mean var x : R) : R := scipy_norm_pdf mean (sqrt var) x.

(** logarithm with minus infinity at zero *)
Definition np_log (x : R) : npval := if Rleb x 0 then NonFinite else Fin (ln x).
(** core/distributions/weibull.py:66-90 *)
Definition generate_weibull_logcdf (a k x : R) : npval := np_log (generate_weibull_cdf a k x).
(** core/distributions/weibull.py:93-120 *)
Definition generate_weibull_logsf (a k x : R) : npval := np_log (1 - generate_weibull_cdf a k x).

(** quantile function of Tukey's lambda law (scipy.special: boxcox(p, lam) - boxcox(1-p, lam)) *)
Definition q_tukey (lam u : R) : R :=
  if Reqb lam 0 then ln (u / (1 - u)) else (Rpower u lam - Rpower (1 - u) lam) / lam.
(** core/distributions/tukey.py:40 *)
Definition generate_tukey (lam : R) : R -> R := rvs (q_tukey lam) 0 1.
(** core/distributions/beta.py:44, chi2.py:42, student.py:42; the standard quantile functions are arguments *)
Definition generate_beta (q_beta : R -> R -> R -> R) (a b : R) : R -> R := rvs (q_beta a b) 0 1.
Definition generate_chi2 (q_chi2 : R -> R -> R) (df : R) : R -> R := rvs (q_chi2 df) 0 1.
Definition generate_t (q_t : R -> R -> R) (df : R) : R -> R := rvs (q_t df) 0 1.
