(** Lemmas about the Stein statistic with censoring. *)
From Coq Require Import String ZArith.
From Coquelicot Require Import Coquelicot.
From Verif Require Import Base DecModel EdfModel EdfSpec GraphModel RegistryModel ExpModel NormModel UniformModel UniformSpec
  EdfProofs ExpProofs ExpRangeProofs NormProofs NormRangeProofs UniformProofs UniformStatProofs.
From Coq Require Import Lra Lia.
Local Open Scope R_scope.

Definition earlier (p q : R * bool) : Prop := fst p < fst q.
Lemma time_insert_perm p l : Permutation (p :: l) (time_insert p l).
Proof.
  induction l as [|q l IH]; [reflexivity|]. cbn [time_insert]. destruct (Rltb (fst q) (fst p)); [|reflexivity].
  rewrite perm_swap. now constructor.
Qed.
Lemma time_sort_perm l : Permutation l (time_sort l).
Proof. induction l as [|p l IH]; [reflexivity|]. cbn. rewrite <- time_insert_perm. now constructor. Qed.
Lemma time_insert_sorted p l : StronglySorted earlier l -> ~ In (fst p) (map fst l) -> StronglySorted earlier (time_insert p l).
Proof.
  induction 1 as [|q l S IH F]; intros N; [repeat constructor|]. cbn [time_insert]. cbn [map In] in N.
  destruct (Rltb_spec (fst q) (fst p)) as [L|L].
  - constructor; [apply IH; tauto|]. rewrite Forall_forall in *. intros r Hr. apply (Permutation_in r (Permutation_sym (time_insert_perm p l))) in Hr. destruct Hr as [<-|Hr]; [exact L|auto].
  - assert (Q : fst p < fst q) by (destruct L as [L|L]; [trivial|exfalso; apply N; left; now symmetry]).
    constructor; [now constructor|]. constructor; [exact Q|]. rewrite Forall_forall in *. intros r Hr. specialize (F r Hr). unfold earlier in *. lra.
Qed.
Lemma time_sort_sorted l : NoDup (map fst l) -> StronglySorted earlier (time_sort l).
Proof.
  induction l as [|p l IH]; intros N; [constructor|]. cbn [map] in N. inversion N as [|? ? H1 H2]; subst. cbn. apply time_insert_sorted; [now apply IH|].
  intros I. apply H1. apply (Permutation_in _ (Permutation_map fst (Permutation_sym (time_sort_perm l)))). exact I.
Qed.
Lemma filter_length_le {A} (f : A -> bool) l : (length (filter f l) <= length l)%nat.
Proof. induction l as [|x l IH]; simpl; trivial. destruct (f x); simpl; lia. Qed.
Lemma filter_all {A} (f : A -> bool) l : (forall x, In x l -> f x = true) -> filter f l = l.
Proof. induction l as [|x l IH]; intros H; trivial. cbn. rewrite H by now left. f_equal. apply IH. intros; apply H; now right. Qed.
Lemma filter_none {A} (f : A -> bool) l : (forall x, In x l -> f x = false) -> filter f l = [].
Proof. induction l as [|x l IH]; intros H; trivial. cbn. rewrite H by now left. apply IH. intros; apply H; now right. Qed.
Lemma pl_cons p s t : StronglySorted earlier (p :: s) -> fst p <= t ->
  product_limit (p :: s) t = (if snd p then 1 - 1 / INR (length (p :: s)) else 1) * product_limit s t.
Proof.
  intros S Ht. inversion S as [|? ? S' F]; subst. rewrite Forall_forall in F. unfold product_limit.
  assert (E : forall q, In q (filter (fun p => snd p && Rleb (fst p) t) s) ->
     1 - 1 / INR (length (filter (fun r => Rleb (fst q) (fst r)) (p :: s))) = 1 - 1 / INR (length (filter (fun r => Rleb (fst q) (fst r)) s))).
  { intros q Hq. apply filter_In in Hq as [Hq _]. specialize (F q Hq). unfold earlier in F. cbn [filter]. now rewrite (proj2 (Rleb_false _ _)) by lra. }
  set (fac := fun q => 1 - 1 / INR (length (filter (fun r => Rleb (fst q) (fst r)) (p :: s)))).
  assert (A : fac p = 1 - 1 / INR (length (p :: s))).
  { unfold fac. rewrite filter_all; [reflexivity|]. intros q [<-|Hq]; apply Rleb_true; [lra|]. specialize (F q Hq). unfold earlier in F. lra. }
  change (fold_right Rmult 1 (map fac (filter (fun p => snd p && Rleb (fst p) t) (p :: s))) = (if snd p then 1 - 1 / INR (length (p :: s)) else 1) *
    fold_right Rmult 1 (map (fun q => 1 - 1 / INR (length (filter (fun r => Rleb (fst q) (fst r)) s))) (filter (fun p => snd p && Rleb (fst p) t) s))).
  rewrite <- (map_ext_in _ _ _ E). fold fac. cbn [filter]. rewrite (proj2 (Rleb_true (fst p) t) Ht), andb_true_r. destruct (snd p).
  - cbn [map fold_right]. now rewrite A.
  - now rewrite Rmult_1_l.
Qed.
Lemma pl_late s t : (forall p, In p s -> t < fst p) -> product_limit s t = 1.
Proof.
  intros H. unfold product_limit. rewrite filter_none; [reflexivity|]. intros p Hp. rewrite (proj2 (Rleb_false (fst p) t)) by now apply H. apply andb_false_r.
Qed.
Lemma km_sorted s t : StronglySorted earlier s -> forall c,
  nth (length (filter (fun p => Rleb (fst p) t) s)) (km_curve (length s) c (map snd s)) 0 = c * product_limit s t.
Proof.
  induction 1 as [|p s S IH F]; intros c; [cbn; ring|]. cbn [filter]. destruct (Rleb_spec (fst p) t) as [L|L].
  - cbn [length map km_curve nth]. rewrite pl_cons by (trivial; now constructor). replace (Datatypes.S (length s) - 1)%nat with (length s) by lia. rewrite IH.
    destruct (snd p); cbn [length]; ring.
  - rewrite Forall_forall in F. unfold earlier in F. assert (K : forall q, In q s -> t < fst q) by (intros q Hq; specialize (F q Hq); lra).
    rewrite filter_none by (intros q Hq; apply Rleb_false; now apply K). rewrite pl_late by (intros q [<-|Hq]; auto). cbn [length map km_curve nth]. ring.
Qed.
Lemma Rprod_perm l l' : Permutation l l' -> fold_right Rmult 1 l = fold_right Rmult 1 l'.
Proof. induction 1; cbn; trivial; [now rewrite IHPermutation|ring|congruence]. Qed.
Lemma filter_perm {A} (f : A -> bool) l l' : Permutation l l' -> Permutation (filter f l) (filter f l').
Proof.
  induction 1; cbn; trivial.
  - destruct (f x); [now constructor|trivial].
  - destruct (f x), (f y); trivial. constructor. 
  - etransitivity; eauto.
Qed.
Lemma pl_perm l l' t : Permutation l l' -> product_limit l t = product_limit l' t.
Proof.
  intros P. unfold product_limit. rewrite (Rprod_perm _ _ (Permutation_map _ (filter_perm _ _ _ P))). f_equal. apply map_ext. intros p.
  now rewrite (Permutation_length (filter_perm _ _ _ P)).
Qed.
Lemma km_product_limit obs t : NoDup (map fst obs) -> kaplan_meier obs t = product_limit obs t.
Proof.
  intros N. unfold kaplan_meier. rewrite (pl_perm _ _ t (time_sort_perm obs)), (Permutation_length (time_sort_perm obs)). rewrite km_sorted by now apply time_sort_sorted. ring.
Qed.
Lemma factor_range (obs : list (R * bool)) p : In p obs -> 0 <= 1 - 1 / INR (length (filter (fun q => Rleb (fst p) (fst q)) obs)) <= 1.
Proof.
  intros H. assert (L : (1 <= length (filter (fun q => Rleb (fst p) (fst q)) obs))%nat).
  { assert (I : In p (filter (fun q => Rleb (fst p) (fst q)) obs)) by (apply filter_In; split; trivial; apply Rleb_true; lra). destruct (filter _ obs); [easy|simpl; lia]. }
  apply le_INR in L. cbn [INR] in L. set (m := INR _) in *. assert (0 < / m <= 1) by (split; [apply Rinv_0_lt_compat; lra|rewrite <- Rinv_1; apply Rinv_le_contravar; lra]). unfold Rdiv. lra.
Qed.
Lemma prod_range {A} (f : A -> R) l : (forall x, In x l -> 0 <= f x <= 1) -> 0 <= fold_right Rmult 1 (map f l) <= 1.
Proof.
  induction l as [|x l IH]; intros H; cbn; [lra|]. assert (0 <= fold_right Rmult 1 (map f l) <= 1) by (apply IH; intros; apply H; now right). specialize (H x (or_introl eq_refl)). nra.
Qed.
Lemma prod_filter_mono {A} (f : A -> R) (p q : A -> bool) l : (forall x, In x l -> 0 <= f x <= 1) -> (forall x, In x l -> p x = true -> q x = true) ->
  fold_right Rmult 1 (map f (filter q l)) <= fold_right Rmult 1 (map f (filter p l)).
Proof.
  induction l as [|x l IH]; intros H I; cbn; [lra|]. assert (IH' : fold_right Rmult 1 (map f (filter q l)) <= fold_right Rmult 1 (map f (filter p l))) by (apply IH; [intros y Hy; apply H; now right|intros y Hy; apply I; now right]).
  pose proof (H x (or_introl eq_refl)) as H0. pose proof (I x (or_introl eq_refl)) as H1.
  assert (Hq : 0 <= fold_right Rmult 1 (map f (filter q l)) <= 1) by (apply prod_range; intros y Hy; apply filter_In in Hy; apply H; now right).
  destruct (p x) eqn:Ep; [rewrite H1 by trivial; cbn; nra|]. destruct (q x); cbn; nra.
Qed.
Lemma pl_range obs t : 0 <= product_limit obs t <= 1.
Proof. apply prod_range. intros p Hp. apply filter_In in Hp. now apply factor_range. Qed.
Lemma pl_mono obs s t : s <= t -> product_limit obs t <= product_limit obs s.
Proof.
  intros H. apply prod_filter_mono; [intros; now apply factor_range|]. intros p _. rewrite !andb_true_iff, !Rleb_true. intros [A B]. split; trivial. lra.
Qed.
(** ** the weighted statistic *)
Definition uncensored (obs : list (R * bool)) : list R := map fst (filter (fun p => negb (snd p)) obs).
Lemma weighted_ext km km' obs : (forall t, km t = km' t) -> weighted_u km obs = weighted_u km' obs.
Proof.
  intros H. unfold weighted_u. cbv zeta. rewrite (sum_pairs_ext (fun x y => censor_weight km x * censor_weight km y * stein_h x y) (fun x y => censor_weight km' x * censor_weight km' y * stein_h x y)); [reflexivity|].
  intros x y. unfold censor_weight. now rewrite !H.
Qed.
Lemma weighted_perm km l l' : Permutation l l' -> weighted_u km l = weighted_u km l'.
Proof.
  intros P. unfold weighted_u. cbv zeta. assert (Q : Permutation (map fst (filter (fun p => negb (snd p)) l)) (map fst (filter (fun p => negb (snd p)) l'))) by now apply Permutation_map, filter_perm.
  rewrite (sum_pairs_perm (fun _ _ => 1) _ _ Q), (sum_pairs_perm _ _ _ Q); trivial. intros x y. rewrite (stein_h_sym x y). ring.
Qed.
Lemma weighted_km_perm l l' : NoDup (map fst l) -> Permutation l l' -> weighted_u (kaplan_meier l) l = weighted_u (kaplan_meier l') l'.
Proof.
  intros N P. rewrite (weighted_perm _ _ _ P). apply weighted_ext. intros t. rewrite !km_product_limit; trivial; [now apply pl_perm|].
  apply (Permutation_NoDup (Permutation_map fst P)), N.
Qed.
Lemma sum_pairs_ext_in f g l : (forall x y, In x l -> In y l -> f x y = g x y) -> sum_pairs f l = sum_pairs g l.
Proof. intros H. apply Rle_antisym; apply sum_pairs_le; intros x y Hx Hy; rewrite H by trivial; lra. Qed.
Lemma ten10 : 0 < / 10 ^ 10 < 1.
Proof. assert (1 < 10 ^ 10) by (apply Rlt_pow_R1; [lra|lia]). split; [apply Rinv_0_lt_compat; lra|]. rewrite <- Rinv_1. apply Rinv_lt_contravar; lra. Qed.
Lemma weight_one km x : km x = 1 -> censor_weight km x = 1.
Proof. intros H. unfold censor_weight. rewrite H, Rmax_left by (pose proof ten10; lra). field. Qed.
(** observations with weight one: twice the Stein statistic *)
Lemma weighted_unweighted km obs : (forall x, In x (uncensored obs) -> km x = 1) -> weighted_u km obs = 2 * stein_of (uncensored obs).
Proof.
  intros H. unfold weighted_u. fold (uncensored obs). set (z := uncensored obs) in *. cbv zeta.
  rewrite (sum_pairs_ext_in (fun x y => censor_weight km x * censor_weight km y * stein_h x y) stein_h) by (intros x y Hx Hy; rewrite !weight_one by auto; ring). rewrite sum_pairs_const. unfold stein_of.
  destruct (Nat.ltb_spec 1 (length z)) as [L|L].
  - assert (2 <= len z) by (unfold len; apply (le_INR 2); lia). rewrite (proj2 (Rltb_true _ _)) by nra. field. nra.
  - destruct z as [|x [|y z]]; [| |simpl in L; lia]; unfold len; simpl; rewrite (proj2 (Rltb_false _ _)) by lra; ring.
Qed.
Lemma uncensored_all z n : (length z <= n)%nat -> uncensored (combine z (repeat false n)) = z.
Proof.
  revert n. induction z as [|x z IH]; intros n H; [reflexivity|]. destruct n as [|n]; [simpl in H; lia|]. cbn. unfold uncensored in IH. rewrite IH; [reflexivity|simpl in H; lia].
Qed.
Lemma combine_false (z : list R) n : forall p, In p (combine z (repeat false n)) -> snd p = false.
Proof. intros [x d] H. apply in_combine_r in H. now apply repeat_spec in H. Qed.
Lemma km_none (obs : list (R * bool)) t : (forall p, In p obs -> snd p = false) -> kaplan_meier obs t = 1.
Proof.
  intros H. unfold kaplan_meier. assert (K : forall n c d k, (forall b, In b d -> b = false) -> (k <= length d)%nat -> nth k (km_curve n c d) 0 = c).
  { intros n c d. revert n c. induction d as [|b d IH]; intros n c k Hb Hk; [simpl in Hk; now replace k with 0%nat by lia|]. destruct k as [|k]; [reflexivity|].
    cbn [km_curve nth]. rewrite (Hb b (or_introl eq_refl)). apply IH; [intros; apply Hb; now right|simpl in Hk; lia]. }
  apply K.
  - intros b Hb. apply in_map_iff in Hb as (p & <- & Hp). apply H. exact (Permutation_in _ (Permutation_sym (time_sort_perm obs)) Hp).
  - rewrite map_length. apply filter_length_le.
Qed.
(** only the last observation is censored *)
Lemma km_before (obs : list (R * bool)) t : (forall p, In p obs -> snd p = true -> t < fst p) -> NoDup (map fst obs) -> kaplan_meier obs t = 1.
Proof.
  intros H N. rewrite km_product_limit by trivial. unfold product_limit. rewrite filter_none; [reflexivity|]. intros p Hp. destruct (snd p) eqn:E; [|reflexivity].
  cbn [andb]. apply Rleb_false. auto.
Qed.
