(** Proofs of the theorems in Props_Bhs.v. *)
From Coq Require Import Sorted Permutation Lia Lra.
From Verif Require Import Base DecModel EdfModel GraphModel NormalLaw ExpModel NormModel BhsModel BhsSpec BhsProofs BhsStatProofs BhsRangeProofs.
Local Open Scope R_scope.

(** *** C54 *)
(** the order of the observations is irrelevant *)
Lemma C54_bhs_holds : forall rvs rvs' v, Permutation rvs rvs' ->
  (returns (fun fuel => bhs fuel rvs) v <-> returns (fun fuel => bhs fuel rvs') v).
Proof. intros rvs rvs' v H. split; intros [f E]; exists f; rewrite <- E; [symmetry|]; now apply bhs_perm. Qed.

(** *** C60 *)
(** nor do origin and unit matter, as long as neither sample nor its halves come within rounding errors of the
    median *)
Lemma C60_bhs_partial_holds : forall a b rvs y v, 0 < b -> Permutation rvs y -> decreasing y ->
  (forall z, z = y \/ z = skipn (length y / 2) y \/ z = firstn (length y / 2) y ->
     (length z < 3)%nat \/ (clear_of_centre z /\ clear_of_centre (map (fun u => a + b * u) z))) ->
  (returns (fun fuel => bhs fuel (map (fun u => a + b * u) rvs)) v <-> returns (fun fuel => bhs fuel rvs) v).
Proof.
  intros a b rvs y v Hb HP Hd Hz.
  assert (Hz' : forall z, z = y \/ z = skipn (length y / 2) y \/ z = firstn (length y / 2) y ->
    clear_part z /\ clear_part (map (fun u => a + b * u) z)).
  { intros z H. unfold clear_part. rewrite map_length. destruct (Hz z H) as [G|[G1 G2]]; [split; now left|split; now right]. }
  split; intros [f E]; exists f; rewrite <- E; [symmetry|]; now apply (bhs_aff a b f rvs y).
Qed.

(** *** C98 *)
(** a call has at most one result, and it is not an exception *)
Lemma C98_result_holds : forall rvs v, returns (fun fuel => bhs fuel rvs) v ->
  (forall e, v <> Raise e) /\ forall v', returns (fun fuel => bhs fuel rvs) v' -> v' = v.
Proof.
  intros rvs v H. split.
  - intros e ->. destruct H as [f H]. now apply bhs_no_raise in H.
  - intros v' H'. now apply (bhs_unique rvs).
Qed.
(** it returns None up to three observations *)
Lemma C98_small_holds : forall rvs, (length rvs <= 3)%nat -> returns (fun fuel => bhs fuel rvs) (Ok None).
Proof. intros rvs H. exists 0%nat. unfold bhs. destruct (Nat.ltb_spec 3 (length rvs)); [lia|reflexivity]. Qed.
(** it never returns for a sample of at least five observations whose upper quarter is farther from the median than
    its lower quarter *)
Lemma C98_returns_refuted_holds : forall rvs y, Permutation rvs y -> decreasing y -> (5 <= length y)%nat ->
  clear_of_centre y -> leans_up y -> never_returns (fun fuel => bhs fuel rvs).
Proof. intros rvs y HP Hd Hn Hc Hu fuel. now apply (bhs_stuck fuel rvs y). Qed.
(** nor for a symmetric sample of different observations *)
Lemma C98_symmetric_refuted_holds : forall rvs y, Permutation rvs y -> decreasing y -> NoDup y -> (5 <= length y)%nat ->
  clear_of_centre y -> symmetric y -> never_returns (fun fuel => bhs fuel rvs).
Proof. intros rvs y HP Hd Hn Hl Hc Hs fuel. apply (bhs_stuck fuel rvs y); auto. now apply symmetric_leans_up. Qed.
(** nor for any sample of five to sixteen different observations *)
Lemma C98_different_refuted_holds : forall rvs y, Permutation rvs y -> decreasing y -> NoDup y -> (5 <= length y <= 16)%nat ->
  clear_of_centre y -> clear_of_centre (skipn (length y / 2) y) -> never_returns (fun fuel => bhs fuel rvs).
Proof.
  intros rvs y HP Hd Hn Hl Hc Hc2 fuel. destruct (bhs_stuck_small fuel rvs y) as [H|[e H]]; auto.
  now apply bhs_no_raise in H.
Qed.

(** *** C99 *)
(** a medcouple that may iterate is between -1 and 1 *)
Lemma C99_medcouple_range_holds : forall y fuel max_it v it, decreasing y -> clear_of_centre y -> (3 <= length y)%nat ->
  (1 <= max_it)%nat -> mc_c_d fuel max_it y = Some (Ok (v, it)) -> -1 <= v <= 1.
Proof. intros y fuel max_it v it Hd Hc Hn Hm H. destruct max_it as [|r]; [lia|]. now apply mc_range in H. Qed.
(** the call for the lower half is allowed as many iterations as the call before it made: none if more than half of the
    observations are equal to the largest, and then the medcouple of the lower half is -2 whatever the observations *)
Lemma C99_shared_iterations_refuted_holds :
  (forall y fuel, decreasing y -> clear_of_centre y -> (5 <= length y)%nat -> mc_c_d fuel 0 y = Some (Ok (-2, 0%nat))) /\
  (forall rvs y, Permutation rvs y -> decreasing y -> (9 <= length y)%nat -> nth (length y / 2) y 0 = nth 0 y 0 ->
     clear_of_centre (skipn (length y / 2) y) ->
     returns (fun fuel => bhs fuel rvs) (Ok (Some (Fin (bhs_value (length y) (-1) (-2) (-1)))))).
Proof.
  split; [intros y fuel; apply mc_no_iterations|].
  intros rvs y HP Hd Hn Ht Hc. exists 0%nat. now apply bhs_top.
Qed.
(** every sample of four observations has the same value *)
Lemma C99_four_refuted_holds : forall rvs y, Permutation rvs y -> decreasing y -> clear_of_centre y -> length y = 4%nat ->
  returns (fun fuel => bhs fuel rvs) (Ok (Some (Fin (bhs_value 4 0 0 0)))).
Proof. intros rvs y HP Hd Hc Hn. exists 0%nat. now apply (bhs_four 0 rvs y). Qed.

(** the hypotheses are satisfiable *)
Ltac conjs := match goal with |- _ /\ _ => split; conjs | _ => idtac end.
Ltac dec_tac := unfold decreasing; repeat (apply SSorted_cons; [|apply Forall_forall; simpl; intros v Hv; repeat (destruct Hv as [<-|Hv]; [lra|]); destruct Hv]); apply SSorted_nil.
Ltac nodup_tac := repeat (apply NoDup_cons; [simpl; intros G; repeat (destruct G as [G|G]; [lra|]); destruct G|]); apply NoDup_nil.
Ltac clear_tac c := unfold clear_of_centre, spread;
  match goal with |- context [centre ?y] => replace (centre y) with c by (unfold centre; simpl; lra) end;
  rewrite (Rabs_pos_eq c) by lra; cbv zeta; simpl length; intros i Hi;
  repeat first [lia | destruct i as [|i]; [split; intros G; simpl in G; try lia; simpl nth; lra|]].
Lemma C98_nonvacuous_holds :
  (let y := [5; 4; 3; 2; 1] in decreasing y /\ NoDup y /\ clear_of_centre y /\ leans_up y /\ symmetric y /\
     clear_of_centre (skipn (length y / 2) y)) /\
  (let y := [20; 19; 16; 14; 13; 8; 6; 5; 2] in decreasing y /\ NoDup y /\ clear_of_centre y /\ ~ leans_up y /\
     clear_of_centre (skipn (length y / 2) y)).
Proof.
  cbv zeta. conjs.
  - dec_tac.
  - nodup_tac.
  - clear_tac 3.
  - unfold leans_up, centre. simpl. lra.
  - intros i Hi. unfold centre. simpl in Hi. repeat first [lia | destruct i as [|i]; [simpl; lra|]].
  - simpl skipn. clear_tac 2.
  - dec_tac.
  - nodup_tac.
  - clear_tac 13.
  - unfold leans_up, centre. simpl. lra.
  - simpl skipn. clear_tac 6.
Qed.
Lemma C99_nonvacuous_holds :
  (let y := [5; 5; 5; 5; 5; 5; 4; 3; 2; 1] in decreasing y /\ nth (length y / 2) y 0 = nth 0 y 0 /\
     clear_of_centre (skipn (length y / 2) y)) /\
  (let y := [9; 4; 3; 2] in decreasing y /\ clear_of_centre y) /\
  bhs_value 4 0 0 0 <> bhs_value 10 (-1) (-2) (-1).
Proof.
  cbv zeta. conjs.
  - dec_tac.
  - reflexivity.
  - simpl skipn. clear_tac 3.
  - dec_tac.
  - clear_tac (7 / 2).
  - unfold bhs_value, dot, bhs_inv, bhs_omega. simpl. lra.
Qed.
