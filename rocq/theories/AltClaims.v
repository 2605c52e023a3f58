(** Property C124: the alternative given to a Kolmogorov-Smirnov statistic. *)
From Verif Require Import Base DecModel EdfModel EdfProofs AltModel.
From Coq Require Import Lra Lia List.
Import ListNotations.
Local Open Scope R_scope.

(** the three members are kept apart, everything else is refused *)
Lemma C124_get_alternative_holds : (forall a, exists c, get_alternative (Member a) = Ok c /\ type_of c = a) /\ get_alternative OtherValue = Raise ValueError /\
  (forall arg c, get_alternative arg = Ok c -> arg = Member (type_of c)).
Proof. split; [|split; [reflexivity|]]. - intros []; eexists; split; reflexivity. - intros [[]|] c H; try discriminate; injection H as <-; reflexivity. Qed.
(** with a member the statistic and the test take the same side *)
Lemma C124_same_side_holds : forall meth res F a rvs level v limit k, let o := new_ks F (Member a) in
  ks_stat F a rvs = Ok v -> res (ks_value o) (length rvs) = Ok (limit, k) ->
  run_test meth res o rvs level = Ok (gof_test (meth (fun _ _ => Ok limit)) {| st_alternative := a; st_execute := ks_stat F a |} rvs level, S k).
Proof.
  intros meth res F a rvs level v limit k o Hv Hr. assert (E : forall l, ks_value o l = ks_stat F a l) by (intros l; destruct a; reflexivity).
  unfold run_test. rewrite E, Hv. cbn [bind]. rewrite Hr. cbn [bind fst snd]. unfold gof_test. cbn [st_execute]. rewrite Hv. cbn [bind ks_argument o new_ks].
  f_equal. f_equal. destruct a; cbn [get_alternative bind type_of]; reflexivity.
Qed.
(** any other value: the statistic has the two-sided value on every sample, and every test fails after all its simulations *)
Lemma C124_other_value_holds : forall F rvs, ks_value (new_ks F OtherValue) rvs = ks_stat F TWO_TAILED rvs.
Proof. reflexivity. Qed.
Lemma C124_late_error_holds : forall meth res F rvs level limit k, rvs <> [] -> let o := new_ks F OtherValue in
  res (ks_value o) (length rvs) = Ok (limit, k) -> run_test meth res o rvs level = Ok (Raise ValueError, S k).
Proof.
  intros meth res F rvs level limit k Hne o Hr. unfold run_test. change (ks_value o rvs) with (ks_stat F TWO_TAILED rvs).
  destruct (ks_stat F TWO_TAILED rvs) as [v|e] eqn:E; [cbn [bind]; now rewrite Hr|exfalso].
  revert E. unfold ks_stat, cdf_vals, ks_do_execute. pose proof (rsort_length rvs). destruct (rsort rvs) as [|x l]; [destruct rvs; [congruence|discriminate]|]. discriminate.
Qed.
Lemma C124_nonvacuous_holds : run_test PValueMethod (fun _ _ => Ok (Some [1; 2; 3], 3%nat)) (new_ks (fun x => x) OtherValue) [1 / 2] (1 / 20) = Ok (Raise ValueError, 4%nat).
Proof. apply (C124_late_error_holds PValueMethod _ (fun x => x) [1 / 2] (1 / 20) (Some [1; 2; 3]) 3); [discriminate|reflexivity]. Qed.
