(** Notions used in the statements about ranges of the normality statistics. *)
From Coq Require Import String.
From Verif Require Import Base NormalLaw.
Local Open Scope string_scope.
Local Open Scope R_scope.

(** the normal distribution function with the sample mean and the sample standard deviation *)
Definition sample_sd (l : list R) : R := sqrt (Rsum (map (fun x => (x - mean l) ^ 2) l) / (len l - 1)).
Definition fitted_normal (l : list R) (x : R) : R := norm_cdf ((x - mean l) / sample_sd l).
(** squared correlations and correlations with expected order statistics *)
Definition w_statistics : list string := [
  "ShapiroWilkNormalityGofStatistic"; "SFNormalityGofStatistic"; "SWRGNormalityGofStatistic";
  "FilliNormalityGofStatistic"; "LooneyGulledgeNormalityGofStatistic"].
(** the list is an increasing (or decreasing) affine image of the scores *)
Definition increasing_affine_image (x scores : list R) : Prop := exists a b, 0 < b /\ x = map (fun t => a + b * t) scores.
Definition affine_image (x scores : list R) : Prop := exists a b, b <> 0 /\ x = map (fun t => a + b * t) scores.
(** finite for every sample of ten different values except under an extra condition *)
Definition conditional_normal : list string := [
  "ShapiroWilkNormalityGofStatistic"; "KurtosisNormalityGofStatistic"; "DAPNormalityGofStatistic";
  "CoinNormalityGofStatistic"; "DesgagneLafayeNormalityGofStatistic"].
(** statistics that return nothing for samples of up to three values *)
Definition silent_normal : list string := [
  "Hosking1NormalityGofStatistic"; "Hosking3NormalityGofStatistic"; "Hosking4NormalityGofStatistic";
  "ZhangWuCNormalityGofStatistic"; "ZhangWuANormalityGofStatistic"; "GlenLeemisBarrNormalityGofStatistic";
  "BontempsMeddahi1NormalityGofStatistic"; "BontempsMeddahi2NormalityGofStatistic"; "BonettSeierNormalityGofStatistic";
  "MartinezIglewiczNormalityGofStatistic"; "CabanaCabana1NormalityGofStatistic"; "CabanaCabana2NormalityGofStatistic";
  "ChenShapiroNormalityGofStatistic"; "ZhangQNormalityGofStatistic"; "ZhangQStarNormalityGofStatistic"; "CoinNormalityGofStatistic";
  "DagostinoNormalityGofStatistic"; "SWRGNormalityGofStatistic"; "GMGNormalityGofStatistic";
  "SpiegelhalterNormalityGofStatistic"; "DesgagneLafayeNormalityGofStatistic"].
(** statistics that measure a distance from normality *)
Definition nonnegative_normal : list string := [
  "JBNormalityGofStatistic"; "DAPNormalityGofStatistic"; "Hosking1NormalityGofStatistic"; "Hosking2NormalityGofStatistic";
  "Hosking3NormalityGofStatistic"; "Hosking4NormalityGofStatistic"; "ZhangWuCNormalityGofStatistic";
  "DoornikHansenNormalityGofStatistic"; "RobustJarqueBeraNormalityGofStatistic"; "BontempsMeddahi1NormalityGofStatistic";
  "BontempsMeddahi2NormalityGofStatistic"; "MartinezIglewiczNormalityGofStatistic"; "CabanaCabana1NormalityGofStatistic";
  "CabanaCabana2NormalityGofStatistic"; "CoinNormalityGofStatistic"].
