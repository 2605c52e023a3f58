(** Notions used in the statements about exponentiality statistics. *)
From Coq Require Import String.
From Verif Require Import Base DecModel RegistryModel.
Local Open Scope string_scope.
Local Open Scope R_scope.

Definition positive (l : list R) : Prop := forall x, In x l -> 0 < x.
Definition rescaled (c : R) (l : list R) : list R := map (Rmult c) l.
(** classes with a fully specified hypothesis and the two Hegazy-Green statistics *)
Definition unit_dependent : list string := [
  "KolmogorovSmirnovExponentialityGofStatistic"; "CramerVonMisesExponentialityGofStatistic";
  "HegazyGreen1ExponentialityGofStatistic"; "HegazyGreen2ExponentialityGofStatistic"].
(** classes whose [execute_statistic] calls [rvs.sort()] *)
Definition sorting_classes : list string := [
  "EpsteinExponentialityGofStatistic"; "FroziniExponentialityGofStatistic"; "KimberMichaelExponentialityGofStatistic";
  "KocharExponentialityGofStatistic"; "LorenzExponentialityGofStatistic"; "ShapiroWilkExponentialityGofStatistic";
  "HegazyGreen2ExponentialityGofStatistic"].
(** average distance of two different observations *)
Definition mean_difference (l : list R) : R :=
  Rsum (map (fun x => Rsum (map (fun y => Rabs (x - y)) l)) l) / (len l * (len l - 1)).
(** the alternative declared by the class [name] *)
Definition declares (name : string) (a : alternative) : Prop :=
  exists c, In c stat_classes /\ sc_name c = name /\ sc_alt c = Fixed a.
(** the exact quantiles of the standard exponential law at i/(n+1) *)
Definition exponential_quantiles (n : nat) (q : list R) : Prop :=
  length q = n /\ forall i, (i < n)%nat -> 1 - exp (- nth i q 0) = INR (S i) / (INR n + 1).
