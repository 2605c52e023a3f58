(** Royston's approximation of expected normal order statistics (algorithm AS 177, subroutine NSCOR2), independent of
    the model. *)
From Verif Require Import Base NormFormSpec.
Local Open Scope R_scope.

(** (epsilon, gamma, lambda, delta1, delta2) of the ranks 1, 2, 3 and of all others *)
Definition royston_score_row (rank : nat) : R * R * R * R * R :=
  match rank with
  | 1%nat => (0.419885, 0.474798, 0.282765, 0.112063, 0.080122)
  | 2%nat => (0.450536, 0.469051, 0.304856, 0.12177, 0.111348)
  | 3%nat => (0.456936, 0.208597, 0.407708, 0.239299, -0.211867)
  | _ => (0.468488, 0.259784, 0.414093 - 0.283833 / (INR rank - 0.106136), 0.215159, -0.115049)
  end.
(** the tail area at the expected value of the order statistic of a rank among n observations, before correction *)
Definition royston_tail (n rank : nat) : R :=
  let '(eps, gam, lam, d1, d2) := royston_score_row rank in
  let q := (INR rank - eps) / (INR n + gam) in
  q + (d1 * Rpower q lam + d2 * Rpower q lam ^ 2) / INR n.
(** the correction of the rank among n observations in millionths; ranks and sizes 1*4, 2*2 and 4*1 share one value *)
Definition royston_correction (n rank : nat) : R :=
  if (rank * n =? 4)%nat then 19
  else if ((1 <=? rank) && (rank <=? 7) && (n <=? royston_limit rank))%nat
  then let '(c1, c2, c3) := nth (rank - 1) royston_corrections (0, 0, 0) in c1 + c2 / INR n ^ 2 + c3 / INR n ^ 4
  else 0.
