(** The asymptotic law of the three medcouples of a normal sample (Brys, Hubert and Struyf, "Goodness-of-fit tests
    based on a robust measure of skewness", 2008): mean and covariance matrix of the medcouple, the left medcouple and
    the right medcouple.  Independent of the model. *)
From Verif Require Import Base.
Local Open Scope R_scope.

(** the medcouple of the normal law is 0, those of its halves, away from the centre, are this *)
Definition tail_medcouple : R := 198828 / 10 ^ 6.
(** [covariance (z1, z2, z3)]: the covariance matrix applied to a vector *)
Definition covariance (z : R * R * R) : R * R * R :=
  let '(z1, z2, z3) := z in
  ((124581 * z1 + 32291.8 * z2 - 32291.8 * z3) / 10 ^ 5,
   (32291.8 * z1 + 262068 * z2 - 1234.55 * z3) / 10 ^ 5,
   (- 32291.8 * z1 - 1234.55 * z2 + 262068 * z3) / 10 ^ 5).
Definition inner (u v : R * R * R) : R :=
  let '(u1, u2, u3) := u in let '(v1, v2, v3) := v in u1 * v1 + u2 * v2 + u3 * v3.
(** [squared_distance e d]: [d] is the squared Mahalanobis distance of deviations [e] *)
Definition squared_distance (e : R * R * R) (d : R) : Prop := exists z, covariance z = e /\ d = inner e z.
(** deviations of a medcouple, of the medcouple of the lower half and of that of the upper half *)
Definition deviations (mc lower upper : R) : R * R * R := (mc, - lower - tail_medcouple, upper - tail_medcouple).
