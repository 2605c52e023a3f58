(** Consistency of the Kolmogorov-Smirnov test: how far apart two laws are, and the outcome of a whole test run. *)
From Verif Require Import Base ProbSpec DecModel DecSpec EdfModel EdfSpec SizeSpec ConvSpec.

(** a continuous distribution function with limits 0 and 1: every probability is attained *)
Definition full_cdf (F : R -> R) : Prop := continuous_cdf F /\ forall p, 0 < p < 1 -> exists x, F x = p.
(** the laws differ nowhere by more than [eta] *)
Definition laws_within (eta : R) (H F : R -> R) : Prop := forall x, Rabs (H x - F x) <= eta.
(** somewhere they differ by [gap], in the direction the alternative speaks of *)
Definition laws_apart (gap : R) (alt : alternative) (H F : R -> R) : Prop :=
  exists x, gap <= match alt with TWO_TAILED => Rabs (H x - F x) | RIGHT => H x - F x | LEFT => F x - H x end.
(** a result as a number *)
Definition outcome (r : result R) : R := match r with Ok d => d | Raise _ => 0 end.
(** the test with the Kolmogorov-Smirnov statistic for F, m simulated samples and one observed sample *)
Definition ks_statistic (F : R -> R) (alt : alternative) : statistic := {| st_alternative := alt; st_execute := ks_stat F alt |}.
Definition ks_test_rejects (meth : resolver -> decision_method) (F : R -> R) (alt : alternative) (level : R)
  (simulated : list (list R)) (observed : list R) : bool :=
  match gof_test (meth (limit_is (map (fun s => outcome (ks_stat F alt s)) simulated))) (ks_statistic F alt) observed level with
  | Ok r => tr_rejected r | Raise _ => false end.
(** the simulated samples of a run *)
Definition simulated_samples {Om} (m n : nat) (Y : nat -> nat -> Om -> R) (w : Om) : list (list R) :=
  map (fun i => draws n (Y i) w) (seq 0 m).
(** the same with any statistic *)
Definition run_rejects (meth : resolver -> decision_method) (st : statistic) (level : R) (simulated : list (list R)) (observed : list R) : bool :=
  match gof_test (meth (limit_is (map (fun s => outcome (st_execute st s)) simulated))) st observed level with
  | Ok r => tr_rejected r | Raise _ => false end.
