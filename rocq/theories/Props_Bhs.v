(** The Brys-Hubert-Struyf statistic (C54, C60, C98, C99). *)
From Verif Require Import Base DecModel EdfModel GraphModel NormalLaw ExpModel NormModel BhsModel BhsSpec BhsProofs BhsStatProofs BhsRangeProofs BhsClaims.
From Coq Require Import Lra Lia.
Local Open Scope R_scope.

(** *** C54 *)
(** the order of the observations is irrelevant *)
Theorem C54_bhs : forall rvs rvs' v, Permutation rvs rvs' ->
  (returns (fun fuel => bhs fuel rvs) v <-> returns (fun fuel => bhs fuel rvs') v).
Proof. exact C54_bhs_holds. Qed.
Print Assumptions C54_bhs.
(** *** C60 *)
(** nor do origin and unit matter, as long as neither sample nor its halves come within rounding errors of the
    median *)
Theorem C60_bhs_partial : forall a b rvs y v, 0 < b -> Permutation rvs y -> decreasing y ->
  (forall z, z = y \/ z = skipn (length y / 2) y \/ z = firstn (length y / 2) y ->
     (length z < 3)%nat \/ (clear_of_centre z /\ clear_of_centre (map (fun u => a + b * u) z))) ->
  (returns (fun fuel => bhs fuel (map (fun u => a + b * u) rvs)) v <-> returns (fun fuel => bhs fuel rvs) v).
Proof. exact C60_bhs_partial_holds. Qed.
Print Assumptions C60_bhs_partial.
(** *** C98 *)
(** a call has at most one result, and it is not an exception *)
Theorem C98_result : forall rvs v, returns (fun fuel => bhs fuel rvs) v ->
  (forall e, v <> Raise e) /\ forall v', returns (fun fuel => bhs fuel rvs) v' -> v' = v.
Proof. exact C98_result_holds. Qed.
Print Assumptions C98_result.
(** it returns None up to three observations *)
Theorem C98_small : forall rvs, (length rvs <= 3)%nat -> returns (fun fuel => bhs fuel rvs) (Ok None).
Proof. exact C98_small_holds. Qed.
Print Assumptions C98_small.
(** it never returns for a sample of at least five observations whose upper quarter is farther from the median than
    its lower quarter *)
Theorem C98_returns_refuted : forall rvs y, Permutation rvs y -> decreasing y -> (5 <= length y)%nat ->
  clear_of_centre y -> leans_up y -> never_returns (fun fuel => bhs fuel rvs).
Proof. exact C98_returns_refuted_holds. Qed.
Print Assumptions C98_returns_refuted.
(** nor for a symmetric sample of different observations *)
Theorem C98_symmetric_refuted : forall rvs y, Permutation rvs y -> decreasing y -> NoDup y -> (5 <= length y)%nat ->
  clear_of_centre y -> symmetric y -> never_returns (fun fuel => bhs fuel rvs).
Proof. exact C98_symmetric_refuted_holds. Qed.
Print Assumptions C98_symmetric_refuted.
(** nor for any sample of five to sixteen different observations *)
Theorem C98_different_refuted : forall rvs y, Permutation rvs y -> decreasing y -> NoDup y -> (5 <= length y <= 16)%nat ->
  clear_of_centre y -> clear_of_centre (skipn (length y / 2) y) -> never_returns (fun fuel => bhs fuel rvs).
Proof. exact C98_different_refuted_holds. Qed.
Print Assumptions C98_different_refuted.
(** *** C99 *)
(** a medcouple that may iterate is between -1 and 1 *)
Theorem C99_medcouple_range : forall y fuel max_it v it, decreasing y -> clear_of_centre y -> (3 <= length y)%nat ->
  (1 <= max_it)%nat -> mc_c_d fuel max_it y = Some (Ok (v, it)) -> -1 <= v <= 1.
Proof. exact C99_medcouple_range_holds. Qed.
Print Assumptions C99_medcouple_range.
(** the call for the lower half is allowed as many iterations as the call before it made: none if more than half of the
    observations are equal to the largest, and then the medcouple of the lower half is -2 whatever the observations *)
Theorem C99_shared_iterations_refuted : (forall y fuel, decreasing y -> clear_of_centre y -> (5 <= length y)%nat -> mc_c_d fuel 0 y = Some (Ok (-2, 0%nat))) /\
  (forall rvs y, Permutation rvs y -> decreasing y -> (9 <= length y)%nat -> nth (length y / 2) y 0 = nth 0 y 0 ->
     clear_of_centre (skipn (length y / 2) y) ->
     returns (fun fuel => bhs fuel rvs) (Ok (Some (Fin (bhs_value (length y) (-1) (-2) (-1)))))).
Proof. exact C99_shared_iterations_refuted_holds. Qed.
Print Assumptions C99_shared_iterations_refuted.
(** every sample of four observations has the same value *)
Theorem C99_four_refuted : forall rvs y, Permutation rvs y -> decreasing y -> clear_of_centre y -> length y = 4%nat ->
  returns (fun fuel => bhs fuel rvs) (Ok (Some (Fin (bhs_value 4 0 0 0)))).
Proof. exact C99_four_refuted_holds. Qed.
Print Assumptions C99_four_refuted.
Example C98_nonvacuous : (let y := [5; 4; 3; 2; 1] in decreasing y /\ NoDup y /\ clear_of_centre y /\ leans_up y /\ symmetric y /\
     clear_of_centre (skipn (length y / 2) y)) /\
  (let y := [20; 19; 16; 14; 13; 8; 6; 5; 2] in decreasing y /\ NoDup y /\ clear_of_centre y /\ ~ leans_up y /\
     clear_of_centre (skipn (length y / 2) y)).
Proof. exact C98_nonvacuous_holds. Qed.
Example C99_nonvacuous : (let y := [5; 5; 5; 5; 5; 5; 4; 3; 2; 1] in decreasing y /\ nth (length y / 2) y 0 = nth 0 y 0 /\
     clear_of_centre (skipn (length y / 2) y)) /\
  (let y := [9; 4; 3; 2] in decreasing y /\ clear_of_centre y) /\
  bhs_value 4 0 0 0 <> bhs_value 10 (-1) (-2) (-1).
Proof. exact C99_nonvacuous_holds. Qed.
