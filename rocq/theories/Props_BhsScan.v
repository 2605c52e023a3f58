(** Search in the medcouple table *)
From Verif Require Import Base BhsModel BhsSpec BhsScanSpec BhsScanClaims.
From Coq Require Import Lra Lia.
Local Open Scope R_scope.

(** an iteration counts the table values above, and not below, its trial value, and narrows the table or stops accordingly *)
Theorem C122_iteration : forall x start h1 h2 fuel knew s s', falling h1 h2 (cell x start h1) -> mc_iteration x start h1 h2 fuel knew s = Some s' ->
  let t := mc_trial s' in let table := entries h1 h2 (cell x start h1) in
  let up := above_count (t + bhs_tol t) table in let reach := reach_count (t - bhs_tol t) table in
  ((knew <= up)%nat -> mc_found s' = false /\ mc_nr s' = up /\ mc_nl s' = mc_nl s /\ list_sum (mc_right s') = up) /\
  ((up < knew <= reach)%nat -> mc_found s' = true) /\
  ((up < knew)%nat -> (reach < knew)%nat -> mc_found s' = false /\ mc_nl s' = reach /\ mc_nr s' = mc_nr s).
Proof. exact C122_iteration_holds. Qed.
Print Assumptions C122_iteration.
(** the value an iteration stops at has fewer than knew table values above it and at least knew not below it *)
Theorem C122_found : forall x start h1 h2 fuel knew s s', falling h1 h2 (cell x start h1) -> mc_iteration x start h1 h2 fuel knew s = Some s' -> mc_found s' = true ->
  let t := mc_trial s' in let table := entries h1 h2 (cell x start h1) in
  (above_count (t + bhs_tol t) table < knew <= reach_count (t - bhs_tol t) table)%nat.
Proof. exact C122_found_holds. Qed.
Print Assumptions C122_found.
(** the kernel table of a sorted sample is falling *)
Theorem C122_table : forall x start h1 h2,
  (forall k k', (1 <= k <= k')%nat -> (k' <= h1)%nat -> nth k' x 0 <= nth k x 0) ->
  (forall i i', (1 <= i <= i')%nat -> (i' <= h2)%nat -> nth (start + i' - 1) x 0 <= nth (start + i - 1) x 0) ->
  (forall k, (1 <= k <= h1)%nat -> 0 <= nth k x 0) -> (forall i, (1 <= i <= h2)%nat -> nth (start + i - 1) x 0 <= 0) ->
  (forall k i, (1 <= k <= h1)%nat -> (1 <= i <= h2)%nat -> 2 * bhs_eps1 <= nth k x 0 - nth (start + i - 1) x 0) ->
  falling h1 h2 (cell x start h1).
Proof. exact C122_table_holds. Qed.
Print Assumptions C122_table.
(** the table of the sample -1, 1 *)
Example C122_nonvacuous : falling 1 1 (cell [0; 1; -1] 2 1) /\ exists s', mc_iteration [0; 1; -1] 2 1 1 1 1 one_cell = Some s' /\ mc_found s' = true /\ mc_trial s' = 0.
Proof. exact C122_nonvacuous_holds. Qed.
