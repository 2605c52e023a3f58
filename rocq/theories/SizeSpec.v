(** The size of a Monte-Carlo test: the probability that it rejects when the observed statistic and the
    simulated ones are exchangeable, as they are under the hypothesis. *)
From Verif Require Import Base ProbSpec DecModel DecSpec.

(** the resolver returns these simulated values *)
Definition limit_is (simulated : list R) : resolver := fun _ _ => Ok (Some simulated).
(** does the test reject? *)
Definition test_rejects (m : resolver -> decision_method) (st : statistic) (level : R) (k : nat)
  (simulated : list R) (observed : R) : bool :=
  match decide (m (limit_is simulated)) st observed level k with Ok r => tr_rejected r | Raise _ => false end.
(** the observed value comes first, the simulated ones follow *)
Definition size_of_test {Om} (E : (Om -> R) -> R) (Z : Om -> list R) (m : resolver -> decision_method)
  (st : statistic) (level : R) (k : nat) : R :=
  Pr E (fun w => test_rejects m st level k (tl (Z w)) (hd 0 (Z w))).
(** a statistic with this alternative *)
Definition tests (st : statistic) (alt : alternative) : Prop := st_alternative st = alt.
Definition one_sided (st : statistic) : Prop := st_alternative st <> TWO_TAILED.
