(** Tests of composite hypotheses (a family of laws with unknown location or unit) whose critical values are simulated
    from one member of the family. *)
From Verif Require Import Base ProbSpec DecModel DecSpec SizeSpec.
From Coq Require Import Permutation.

(** a sample in another unit and with another origin *)
Definition affine (a b : R) (l : list R) : list R := map (fun x => a + b * x) l.
(** exchangeable random samples: permuting them changes the expectation of no bounded function *)
Definition exchangeable_samples {Om} (E : (Om -> R) -> R) (m : nat) (S : Om -> list (list R)) : Prop :=
  (forall w, length (S w) = m) /\
  forall (pi : list nat), Permutation pi (seq 0 m) ->
  forall f : list (list R) -> R, (exists M, forall z, Rabs (f z) <= M) ->
    E (fun w => f (map (fun i => nth i (S w) []) pi)) = E (fun w => f (S w)).
(** the number returned by a statistic, if it is one *)
Definition measured (r : result (option npval)) : result R :=
  match r with Ok (Some (Fin v)) => Ok v | Ok _ => Raise TypeError | Raise e => Raise e end.
(** a statistic with this alternative and these values *)
Definition statistic_with (alt : alternative) (value : list R -> result (option npval)) : statistic :=
  {| st_alternative := alt; st_execute := fun l => measured (value l) |}.
(** every sample has a value, and they differ *)
Definition different_values (st : statistic) (samples : list (list R)) : Prop :=
  (forall s, In s samples -> exists v, st_execute st s = Ok v) /\
  forall i j, (i < length samples)%nat -> (j < length samples)%nat -> st_execute st (nth i samples []) = st_execute st (nth j samples []) -> i = j.
