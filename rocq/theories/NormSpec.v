(** Notions used in the statements about normality statistics. *)
From Coq Require Import String.
From Verif Require Import Base DecModel.
Local Open Scope string_scope.

(** classes for the fully specified hypothesis *)
Definition simple_normal : list string := [
  "KolmogorovSmirnovNormalityGofStatistic"; "CramerVonMiseNormalityGofStatistic"].
(** directed statistics: they tell the left tail from the right tail *)
Definition directed_normal : list string := [
  "KolmogorovSmirnovNormalityGofStatistic"; "SkewNormalityGofStatistic"; "CabanaCabana1NormalityGofStatistic";
  "CabanaCabana2NormalityGofStatistic"; "ZhangQNormalityGofStatistic"; "ZhangQStarNormalityGofStatistic"].
(** classes whose [execute_statistic] calls [rvs.sort()] *)
Definition sorting_normal : list string := ["Hosking3NormalityGofStatistic"; "Hosking4NormalityGofStatistic"].
Definition opposite (a : alternative) : alternative :=
  match a with LEFT => RIGHT | RIGHT => LEFT | TWO_TAILED => TWO_TAILED end.
