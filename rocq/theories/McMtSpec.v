(** Monte-Carlo p-values of several tests handed to a multiple-testing correction. *)
From Verif Require Import Base ProbSpec DecModel DecSpec.

(** the p-values of m tests; the first entry of [Z i w] is the observed statistic of test i, the others are its simulated ones *)
Definition mc_p_values {Om} (m : nat) (alt : nat -> alternative) (Z : nat -> Om -> list R) (w : Om) : list R :=
  map (fun i => p_value_of (alt i) (tl (Z i w)) (hd 0 (Z i w))) (seq 0 m).
