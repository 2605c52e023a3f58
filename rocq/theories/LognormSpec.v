(** Notions used in the statements about log-normal statistics. *)
From Coq Require Import String.
From Verif Require Import Base.
Local Open Scope string_scope.
Local Open Scope R_scope.

Definition all_positive (l : list R) : Prop := forall x, In x l -> 0 < x.
(** the standard normal observations behind a log-normal sample with shape s and scale *)
Definition standardised_logs (s scale : R) (l : list R) : list R := map (fun x => ln (x / scale) / s) l.
(** another unit and another exponent: a log-normal sample stays log-normal *)
Definition power_change (c b : R) (l : list R) : list R := map (fun x => c * Rpower x b) l.
(** the log-normal class derived from a class of normal.py *)
Definition log_named (name name' : string) : Prop :=
  exists p, name = p ++ "NormalityGofStatistic" /\ name' = p ++ "LogNormalGofStatistic".
(** classes for the fully specified hypothesis *)
Definition simple_lognormal : list string := [
  "KolmogorovSmirnovLogNormalGofStatistic"; "CramerVonMiseLogNormalGofStatistic"; "QuesenberryMillerLogNormalGofStatistic"].
(** directed statistics, see [directed_normal] *)
Definition directed_lognormal : list string := [
  "KolmogorovSmirnovLogNormalGofStatistic"; "SkewLogNormalGofStatistic"; "CabanaCabana1LogNormalGofStatistic";
  "CabanaCabana2LogNormalGofStatistic"; "ZhangQLogNormalGofStatistic"; "ZhangQStarLogNormalGofStatistic"].
(** see [conditional_normal] *)
Definition conditional_lognormal : list string := [
  "ShapiroWilkLogNormalGofStatistic"; "KurtosisLogNormalGofStatistic"; "DAPLogNormalGofStatistic";
  "CoinLogNormalGofStatistic"; "DesgagneLafayeLogNormalGofStatistic"].
