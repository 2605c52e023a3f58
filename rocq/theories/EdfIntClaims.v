(** Proofs of the theorems stated in [Props_EdfInt]. *)
From Verif Require Import Base DecModel EdfModel EdfSpec EdfProofs EdfRotProofs EdfIntProofs.
From Coquelicot Require Import Coquelicot.
From Coq Require Import Lra Lia.

(** *** C49 *)
Lemma C49_cvm_is_integrated_squared_distance_holds : forall v, v <> [] -> (forall x, In x v -> 0 <= x <= 1) ->
  exists w, cvm_stat (fun t => t) v = Ok w /\ w = INR (length v) * RInt (fun t => (edf v t - t) ^ 2) 0 1 /\
  ex_RInt (fun t => (edf v t - t) ^ 2) 0 1.
Proof.
  intros v Hv H01. unfold cvm_stat, cdf_vals. rewrite map_id, cvm_eval by apply rsort_ne, Hv.
  pose proof (cvm_int01 v Hv H01) as I. eexists. split; [reflexivity|]. split.
  - rewrite (is_RInt_unique _ _ _ _ I). rewrite len_rsort. change (INR (length v)) with (len v).
    pose proof (len_pos v Hv). field. lra.
  - eexists. exact I.
Qed.
(** in the scale of the data, for a distribution with continuous density f *)
Lemma C49_cvm_integral_over_data_holds : forall F f rvs,
  (forall x, is_derive F x (f x)) -> (forall x, continuous f x) -> is_lim F m_infty 0 -> is_lim F p_infty 1 ->
  rvs <> [] ->
  exists w, cvm_stat F rvs = Ok w /\
    is_RInt_gen (fun x => (edf rvs x - F x) ^ 2 * f x) (Rbar_locally m_infty) (Rbar_locally p_infty) (w / INR (length rvs)).
Proof.
  intros F f rvs Hd Hc Hm Hp Hne. unfold cvm_stat, cdf_vals. rewrite cvm_eval by apply map_ne, rsort_ne, Hne.
  eexists. split; [reflexivity|].
  pose proof (cvm_int F f Hd Hc rvs Hne Hm Hp) as I.
  match type of I with is_RInt_gen _ _ _ ?a => match goal with |- is_RInt_gen _ _ _ ?b => assert (E : @eq R a b) end end.
  { rewrite len_map, len_rsort. change (INR (length rvs)) with (len rvs). pose proof (len_pos rvs Hne). field. lra. }
  rewrite <- E. exact I.
Qed.
Lemma C49_nonvacuous_holds : [1/2; 0; 1] <> [] /\ (forall x, In x [1/2; 0; 1] -> 0 <= x <= 1).
Proof. split; [discriminate|]. intros x [<-|[<-|[<-|[]]]]; lra. Qed.

(** the logistic distribution function meets the hypotheses of the second theorem *)
Lemma C49_nonvacuous_data_holds :
  let F x := / (1 + exp (- x)) in let f x := exp (- x) / (1 + exp (- x)) ^ 2 in
  (forall x, is_derive F x (f x)) /\ (forall x, continuous f x) /\ is_lim F m_infty 0 /\ is_lim F p_infty 1.
Proof.
  intros F f. assert (P : forall x, 0 < 1 + exp (- x)) by (intros x; pose proof (exp_pos (- x)); lra).
  split; [|split; [|split]].
  - intros x. unfold F, f. auto_derive; [specialize (P x); lra|]. specialize (P x). field. lra.
  - intros x. apply (ex_derive_continuous f). unfold f. auto_derive. specialize (P x). repeat split; try lra.
    assert (0 < (1 + exp (- x)) * ((1 + exp (- x)) * 1)) by nra. lra.
  - assert (L : is_lim (fun x => 1 + exp (- x)) m_infty p_infty).
    { apply is_lim_plus with (Finite 1) p_infty; [apply is_lim_const| |reflexivity].
      apply (is_lim_comp exp (fun x => - x) m_infty p_infty p_infty); [apply is_lim_exp_p| |exists 0; intros; discriminate].
      apply (is_lim_opp (fun x => x) m_infty m_infty). apply is_lim_id. }
    apply (is_lim_inv _ _ _ L). discriminate.
  - assert (L : is_lim (fun x => 1 + exp (- x)) p_infty 1).
    { apply is_lim_plus with (Finite 1) (Finite 0); [apply is_lim_const| |unfold is_Rbar_plus; simpl; f_equal; f_equal; lra].
      apply (is_lim_comp exp (fun x => - x) p_infty 0 m_infty); [apply is_lim_exp_m| |exists 0; intros; discriminate].
      apply (is_lim_opp (fun x => x) p_infty p_infty). apply is_lim_id. }
    pose proof (is_lim_inv _ _ _ L) as G. unfold Rbar_inv in G. rewrite Rinv_1 in G. apply G. intros E. injection E. lra.
Qed.
