(** The distance computed from the medcouples (C114). *)
From Verif Require Import Base DecModel EdfModel GraphModel NormalLaw ExpModel NormModel BhsModel BhsSpec BhsDistSpec BhsDistClaims.
From Coq Require Import Lra Lia.
Local Open Scope R_scope.

(** *** C114 *)
(** the value combined from three medcouples is the number of observations times the squared Mahalanobis distance of
    the medcouples from their values for the normal law, up to the rounding of the inverse covariance matrix *)
Theorem C114_distance : forall n mc lower upper d, squared_distance (deviations mc lower upper) d ->
  Rabs (bhs_value n mc lower upper - INR n * d) <= INR n * d / 10 ^ 13.
Proof. exact C114_distance_holds. Qed.
Print Assumptions C114_distance.
(** the distance exists, is unique and vanishes for the medcouples of the normal law only *)
Theorem C114_distance_exists : forall e, exists d, squared_distance e d /\ 0 <= d /\ (d = 0 <-> e = (0, 0, 0)) /\
  forall d', squared_distance e d' -> d' = d.
Proof. exact C114_distance_exists_holds. Qed.
Print Assumptions C114_distance_exists.
(** it is comparable with the sum of squares of the deviations, hence not negative, zero for the medcouples of the
    normal law only, and grows with the number of observations for any others *)
Theorem C114_bounds : forall n mc lower upper,
  let s := mc ^ 2 + (lower + tail_medcouple) ^ 2 + (upper - tail_medcouple) ^ 2 in
  INR n * s / 4 <= bhs_value n mc lower upper <= 1.1 * INR n * s.
Proof. exact C114_bounds_holds. Qed.
Print Assumptions C114_bounds.
(** exchanging the tails changes the value by rounding errors of the matrix only *)
Theorem C114_tails_exchanged : forall n mc lower upper,
  Rabs (bhs_value n (- mc) (- upper) (- lower) - bhs_value n mc lower upper) <= bhs_value n mc lower upper / 10 ^ 13.
Proof. exact C114_tails_exchanged_holds. Qed.
Print Assumptions C114_tails_exchanged.
(** a returned number comes from three medcouples, of the sample and of its halves, and is not negative *)
Theorem C114_statistic : forall rvs v, returns (fun fuel => bhs fuel rvs) (Ok (Some (Fin v))) ->
  exists mc lower upper d, squared_distance (deviations mc lower upper) d /\ 0 <= v /\
    Rabs (v - INR (length rvs) * d) <= INR (length rvs) * d / 10 ^ 13 /\
    (exists it, returns (fun fuel => mc_c_d fuel 1000 rvs) (Ok (mc, it))) /\
    (exists it0 it, returns (fun fuel => mc_c_d fuel it0 (firstn ((length rvs + 1) / 2) (rsort rvs))) (Ok (lower, it))) /\
    exists it0 it, returns (fun fuel => mc_c_d fuel it0 (skipn ((length rvs + 1) / 2) (rsort rvs))) (Ok (upper, it)).
Proof. exact C114_statistic_holds. Qed.
Print Assumptions C114_statistic.
(** the medcouples of the normal law give 0, and without deviation in the tails a medcouple of 1/2 among eight
    observations gives 1.7143781645891764 *)
Example C114_nonvacuous : bhs_value 8 0 (- tail_medcouple) tail_medcouple = 0 /\
  bhs_value 8 (1 / 2) (- tail_medcouple) tail_medcouple = 1.7143781645891764 /\
  bhs_value 8 0 (1 / 2 - tail_medcouple) tail_medcouple = 0.7889634659681068.
Proof. exact C114_nonvacuous_holds. Qed.
