(** Proofs of the theorems stated in [Props_Graph]. *)
From Coq Require Import ZArith.
From Verif Require Import Base GraphModel GraphSpec GraphProofs GraphConnProofs GraphLineProofs GraphInvProofs EdfModel.

(** *** C55: threshold, edges, degrees *)
(** the threshold is a tenth of the range, divided by the mean or the variance for the two families *)
Lemma C55_threshold_holds : forall rvs lo hi, In lo rvs -> In hi rvs -> (forall v, In v rvs -> lo <= v <= hi) ->
  dist_base rvs = Ok ((hi - lo) / 10) /\
  (mean rvs <> 0 -> dist_exponential rvs = Ok ((hi - lo) / 10 / mean rvs)) /\
  (np_var rvs <> 0 -> dist_normal rvs = Ok ((hi - lo) / 10 / np_var rvs)).
Proof.
  intros rvs lo hi Hlo Hhi H. assert (N : rvs <> []) by (intros ->; destruct Hlo).
  assert (E : dist_base rvs = Ok ((hi - lo) / 10)).
  { rewrite dist_base_eval by exact N. do 2 f_equal. f_equal.
    - apply Rmaxl_unique; auto. intros v Hv. apply H, Hv.
    - apply Rminl_unique; auto. intros v Hv. apply H, Hv. }
  split; [exact E|]. unfold dist_exponential, dist_normal. rewrite E. simpl.
  split; intros Hn; apply Reqb_false in Hn; rewrite Hn; reflexivity.
Qed.
Lemma C55_edges_holds : forall D rvs d, D rvs = Ok d ->
  exists k, edges_stat D rvs = Ok k /\ edge_count_is rvs d k.
Proof.
  intros D rvs d H. unfold edges_stat, graph_execute. rewrite H. eexists. split; [reflexivity|].
  apply edges_number_correct.
Qed.
Lemma C55_max_degree_holds : forall D rvs d, D rvs = Ok d -> rvs <> [] ->
  exists k, max_degree_stat D rvs = Ok k /\
    (exists i, (i < length rvs)%nat /\ degree_is rvs d i k) /\
    (forall i m, (i < length rvs)%nat -> degree_is rvs d i m -> (m <= k)%nat).
Proof.
  intros D rvs d H N. unfold max_degree_stat, graph_execute. rewrite H. simpl. rewrite max_degree_eval by exact N.
  eexists. split; [reflexivity|]. split.
  - assert (I : In (max_nat (map (degree rvs d) (seq 0 (length rvs)))) (map (degree rvs d) (seq 0 (length rvs)))).
    { apply max_nat_in. destruct rvs; [congruence|discriminate]. }
    apply in_map_iff in I. destruct I as (i & E & Hi). apply in_seq in Hi. exists i. split; [lia|].
    rewrite <- E. apply degree_spec. lia.
  - intros i m Hi Hm. rewrite (counts_unique _ _ _ Hm (degree_spec rvs d i Hi)). apply max_nat_ge, in_map, in_seq. lia.
Qed.
(** handshake: the average degree is twice the number of edges over the number of vertices *)
Lemma C55_average_degree_holds : forall D rvs d, D rvs = Ok d -> rvs <> [] ->
  exists k, edge_count_is rvs d k /\ average_degree_stat D rvs = Ok (Fin (2 * INR k / len rvs)).
Proof.
  intros D rvs d H N. exists (length (edge_list rvs d)). split.
  - exists (edge_list rvs d). split; [apply edge_list_nodup|]. split; [reflexivity|]. apply edge_list_in.
  - unfold average_degree_stat, graph_execute. rewrite H. simpl. rewrite average_degree_eval by exact N. reflexivity.
Qed.
(** every non-empty sample has a threshold; the empty sample is refused *)
Lemma C55_defined_holds : forall D, D = dist_base \/ D = dist_exponential \/ D = dist_normal ->
  (forall rvs, rvs <> [] -> exists d, D rvs = Ok d) /\ edges_stat D [] = Raise ValueError.
Proof.
  intros D T. split; [intros rvs; apply threshold_total, T|]. unfold edges_stat, graph_execute.
  rewrite threshold_empty by exact T. reflexivity.
Qed.
Lemma range_sample : In 0 [0; 1; 10; 1.5] /\ In 10 [0; 1; 10; 1.5] /\
  forall v, In v [0; 1; 10; 1.5] -> 0 <= v <= 10.
Proof. split; [simpl; auto|]. split; [simpl; auto|]. intros v H. repeat (destruct H as [<-|H]; [lra|]). destruct H. Qed.
Lemma C55_nonvacuous_holds : dist_base [0; 1; 10; 1.5] = Ok 1 /\ edges_stat dist_base [0; 1; 10; 1.5] = Ok 1%nat.
Proof.
  assert (E : dist_base [0; 1; 10; 1.5] = Ok 1).
  { destruct (C55_threshold_holds [0; 1; 10; 1.5] 0 10) as [H _]; try apply range_sample. rewrite H. f_equal. lra. }
  split; [exact E|]. unfold edges_stat, graph_execute. rewrite E. simpl bind. f_equal.
  assert (A : forall i j, Rabs (nth i [0; 1; 10; 1.5] 0 - nth j [0; 1; 10; 1.5] 0) =
     Rabs (nth i [0; 1; 10; 1.5] 0 - nth j [0; 1; 10; 1.5] 0)) by reflexivity.
  apply (counts_unique _ _ _ (edges_number_correct [0; 1; 10; 1.5] 1)). exists [(1, 3)%nat].
  split; [constructor; [simpl; tauto|constructor]|]. split; [reflexivity|]. intros [i j]. simpl. split.
  - intros [H|[]]. inversion H; subst. split; [lia|]. unfold adjacent. simpl.
    repeat split; try lia. rewrite Rabs_left; lra.
  - intros [L (Hi & Hj & _ & H)]. simpl in Hi, Hj.
    destruct i as [|[|[|[|i]]]], j as [|[|[|[|j]]]]; try lia; simpl in H; auto; exfalso; revert H;
      unfold Rabs; destruct Rcase_abs; lra.
Qed.

(** *** C56: connected components *)
Lemma C56_components_holds : forall D rvs d, D rvs = Ok d ->
  exists k, components_stat D rvs = Ok (Some k) /\ component_count_is rvs d k /\
    forall m, component_count_is rvs d m -> m = k.
Proof.
  intros D rvs d H. destruct (connected_components_correct rvs d) as (k & E & C). exists k.
  unfold components_stat, graph_execute. rewrite H. simpl. rewrite E. repeat split; auto.
  intros m M. eapply component_count_unique; eauto.
Qed.
(** in one dimension: one more than the number of gaps of the sorted sample that reach the threshold *)
Lemma C56_components_are_gaps_holds : forall D rvs d, D rvs = Ok d -> rvs <> [] ->
  components_stat D rvs = Ok (Some (S (length (filter (Rleb d) (diff (rsort rvs)))))).
Proof.
  intros D rvs d H N. unfold components_stat, graph_execute. rewrite H. simpl. rewrite components_gaps by exact N.
  reflexivity.
Qed.
Lemma sort_sample : rsort [0; 1; 10; 1.5] = [0; 1; 1.5; 10].
Proof. simpl. repeat (rcase; simpl). reflexivity. Qed.
Lemma C56_nonvacuous_holds : components_stat dist_base [0; 1; 10; 1.5] = Ok (Some 3%nat).
Proof.
  rewrite (C56_components_are_gaps_holds dist_base _ 1); [|apply C55_nonvacuous_holds|discriminate].
  rewrite sort_sample. simpl. repeat (rcase; simpl). reflexivity.
Qed.

(** *** C57: clique number *)
(** [0, 1] has no two observations closer than 0.1, but the statistic is 2 *)
Lemma C57_clique_refuted_holds : exists rvs d, dist_base rvs = Ok d /\ clique_number_is rvs d 1 /\
  exists xs, clique_stat dist_base rvs = Ok (xs, 2%Z).
Proof.
  exists [0; 1], ((1 - 0) / 10). assert (E : dist_base [0; 1] = Ok ((1 - 0) / 10)).
  { apply (proj1 (C55_threshold_holds [0; 1] 0 1 (or_introl eq_refl) (or_intror (or_introl eq_refl))
      ltac:(intros v [<-|[<-|[]]]; lra))). }
  split; [exact E|]. split.
  - split.
    + exists [0%nat]. split; [|reflexivity]. split; [split; [constructor; [tauto|constructor]|]|].
      * intros i [<-|[]]. simpl. lia.
      * intros i j [<-|[]] [<-|[]]. tauto.
    + intros s [[N B] C]. destruct s as [|i [|j s]]; simpl; try lia. exfalso.
      assert (A : adjacent [0; 1] ((1 - 0) / 10) i j).
      { apply C; simpl; auto. intros ->. inversion N; subst. apply H1. simpl; auto. }
      destruct A as (Hi & Hj & Hn & A). simpl in Hi, Hj.
      destruct i as [|[|i]], j as [|[|j]]; try lia; simpl in A; revert A; unfold Rabs; destruct Rcase_abs; lra.
  - unfold clique_stat. rewrite E. simpl. eexists. f_equal. f_equal.
    repeat (rcase; simpl). reflexivity.
Qed.
(** what it computes: the clique number, or one more than the size of the window ending at the largest
    observation if that is larger; never more than one too many *)
Lemma C57_clique_value_holds : forall D rvs d omega, D rvs = Ok d -> rvs <> [] -> 0 < d -> clique_number_is rvs d omega ->
  exists xs v, clique_stat D rvs = Ok (xs, Z.of_nat v) /\
    v = Nat.max omega (S (length (filter (fun y => Rltb (Rmaxl 0 rvs - d) y) rvs))) /\
    (omega <= v <= S omega)%nat.
Proof.
  intros D rvs d om H N Hd C. unfold clique_stat. rewrite H. simpl.
  assert (N' : rsort rvs <> []).
  { intros E. apply N. apply Permutation_nil. rewrite <- E. apply rsort_perm. }
  assert (EO : om = omega (rsort rvs) d).
  { apply (largest_unique (is_clique rvs d)); auto. apply (clique_number_perm (rsort rvs)); [apply rsort_perm|].
    apply omega_correct; auto. apply rsort_sorted. }
  assert (ET : top (rsort rvs) d = length (filter (fun y => Rltb (Rmaxl 0 rvs - d) y) rvs)).
  { unfold top. rewrite (Rmaxl_perm 0 _ _ (rsort_perm rvs)). apply count_perm, rsort_perm. }
  eexists _, _. split; [rewrite clique_for_value by (auto; apply rsort_sorted); reflexivity|].
  rewrite <- EO, ET. split; [reflexivity|].
  assert (T := top_le_omega (rsort rvs) d (rsort_sorted rvs) N' Hd). rewrite <- EO, ET in T. lia.
Qed.
(** the largest clique is found whenever it is not the one at the largest observation *)
Lemma C57_clique_when_not_on_top_partial_holds : forall D rvs d omega, D rvs = Ok d -> rvs <> [] -> 0 < d ->
  clique_number_is rvs d omega -> (length (filter (fun y => Rltb (Rmaxl 0 rvs - d) y) rvs) < omega)%nat ->
  exists xs, clique_stat D rvs = Ok (xs, Z.of_nat omega).
Proof.
  intros D rvs d om H N Hd C L. destruct (C57_clique_value_holds D rvs d om H N Hd C) as (xs & v & E & V & _).
  exists xs. rewrite E, V. repeat f_equal. lia.
Qed.
(** constant samples: threshold 0, a clique of one vertex, statistic 0 *)
Lemma C57_constant_sample_refuted_holds : forall c n, (0 < n)%nat ->
  dist_base (repeat c n) = Ok 0 /\ clique_number_is (repeat c n) 0 1 /\
  exists xs, clique_stat dist_base (repeat c n) = Ok (xs, 0%Z).
Proof.
  intros c n Hn. assert (N : repeat c n <> []) by (destruct n; [lia|discriminate]).
  assert (E : dist_base (repeat c n) = Ok 0).
  { assert (Hin : In c (repeat c n)) by (destruct n; [lia|simpl; auto]).
    destruct (C55_threshold_holds (repeat c n) c c Hin Hin) as [H _].
    - intros v Hv. apply repeat_spec in Hv. subst. lra.
    - rewrite H. f_equal. lra. }
  split; [exact E|]. split.
  - split.
    + exists [0%nat]. split; [|reflexivity]. split; [split; [constructor; [tauto|constructor]|]|].
      * intros i [<-|[]]. rewrite repeat_length. exact Hn.
      * intros i j [<-|[]] [<-|[]]. tauto.
    + intros s [[Nd B] C]. destruct s as [|i [|j s]]; simpl; try lia. exfalso.
      assert (A : adjacent (repeat c n) 0 i j).
      { apply C; simpl; auto. intros ->. inversion Nd; subst. apply H1. simpl; auto. }
      destruct A as (_ & _ & _ & A). assert (P := Rabs_pos (nth i (repeat c n) 0 - nth j (repeat c n) 0)). lra.
  - unfold clique_stat. rewrite E. simpl. eexists. f_equal. f_equal.
    apply clique_for_low; try lia; [apply rsort_sorted|lra].
Qed.
Lemma C57_nonvacuous_holds : clique_number_is [0; 0; 0; 10] 1 3 /\ dist_base [0; 0; 0; 10] = Ok 1 /\
  length (filter (fun y => Rltb (Rmaxl 0 [0; 0; 0; 10] - 1) y) [0; 0; 0; 10]) = 1%nat.
Proof.
  assert (S : rsort [0; 0; 0; 10] = [0; 0; 0; 10]) by (simpl; repeat (rcase; simpl); reflexivity).
  assert (HS : sortedR [0; 0; 0; 10]) by (rewrite <- S; apply rsort_sorted).
  assert (M : Rmaxl 0 [0; 0; 0; 10] = 10).
  { apply Rmaxl_unique; [simpl; auto|]. intros v H. repeat (destruct H as [<-|H]; [lra|]). destruct H. }
  split; [|split].
  - replace 3%nat with (omega [0; 0; 0; 10] 1); [apply omega_correct; auto; lra|].
    unfold omega, window, below, count. cbn [length seq map nth filter].
    repeat (rcase; cbn [length]). reflexivity.
  - destruct (C55_threshold_holds [0; 0; 0; 10] 0 10) as [H _]; [simpl; auto|simpl; auto| |rewrite H; f_equal; lra].
    intros v H. repeat (destruct H as [<-|H]; [lra|]). destruct H.
  - rewrite M. simpl. repeat (rcase; simpl). reflexivity.
Qed.

(** turning the sample around changes the statistic though not the graph: [0,0,0,10] gives 3, its
    negative 4 *)
Lemma C57_clique_reflection_refuted_holds : exists rvs, 
  (let! r := clique_stat dist_base rvs in Ok (snd r)) = Ok 3%Z /\
  (let! r := clique_stat dist_base (map Ropp rvs) in Ok (snd r)) = Ok 4%Z.
Proof.
  exists [0; 0; 0; 10]. assert (E := proj1 (proj2 C57_nonvacuous_holds)).
  assert (E' : dist_base (map Ropp [0; 0; 0; 10]) = Ok 1).
  { replace (map Ropp [0; 0; 0; 10]) with (map (affine 0 (-1)) [0; 0; 0; 10])
      by (apply map_ext; intros; unfold affine; ring).
    rewrite (dist_base_affine 0 (-1) _ 1 E). f_equal. rewrite Rabs_left; lra. }
  split; unfold clique_stat; rewrite ?E, ?E'; simpl; f_equal; repeat (rcase; simpl); reflexivity.
Qed.
Lemma independence_list D v rvs d : D (v :: rvs) = Ok d ->
  independence_stat PyList D (v :: rvs) = Ok (rsort (v :: rvs), independence_of (rsort (v :: rvs)) d).
Proof. intros H. unfold independence_stat, py_not, bind. cbv iota. rewrite H. reflexivity. Qed.
(** *** C58: independence number, on Python lists *)
Lemma C58_independence_number_holds : forall D rvs d, D rvs = Ok d ->
  exists xs k, independence_stat PyList D rvs = Ok (xs, k) /\ independence_number_is rvs d k.
Proof.
  intros D rvs d H. exists (match rvs with [] => [] | _ => rsort rvs end), (independence_of (rsort rvs) d).
  split; [|apply independence_correct]. destruct rvs; [reflexivity|]. apply independence_list, H.
Qed.
(** on numpy arrays with two or more observations the emptiness test raises, and a single zero is taken
    for an empty sample *)
Lemma C58_arrays_refuted_holds : forall D a b rvs,
  independence_stat NdArray D (a :: b :: rvs) = Raise ValueError /\
  independence_stat NdArray D [0] = Ok ([0], 0%nat) /\ independence_number_is [0] 0 1.
Proof.
  intros D a b rvs. split; [reflexivity|]. split.
  - unfold independence_stat. simpl. rewrite (proj2 (Reqb_true 0 0) eq_refl). reflexivity.
  - assert (H := independence_correct [0] 0). exact H.
Qed.
Lemma C58_nonvacuous_holds : independence_stat PyList dist_base [0; 1; 10; 1.5] = Ok ([0; 1; 1.5; 10], 3%nat).
Proof.
  rewrite (independence_list _ _ _ 1) by apply C55_nonvacuous_holds. rewrite sort_sample. f_equal. f_equal.
  simpl. repeat (rcase; simpl). reflexivity.
Qed.

Lemma perm_nil_cons (a : R) l : ~ Permutation [] (a :: l).
Proof. intros P. apply Permutation_nil in P. discriminate. Qed.
(** *** C54: the order of the observations does not matter *)
Lemma C54_graph_permutation_holds : forall D rvs rvs',
  D = dist_base \/ D = dist_exponential \/ D = dist_normal -> Permutation rvs rvs' ->
  edges_stat D rvs = edges_stat D rvs' /\ max_degree_stat D rvs = max_degree_stat D rvs' /\
  average_degree_stat D rvs = average_degree_stat D rvs' /\ components_stat D rvs = components_stat D rvs' /\
  clique_stat D rvs = clique_stat D rvs' /\
  (let! r := independence_stat PyList D rvs in Ok (snd r)) = (let! r := independence_stat PyList D rvs' in Ok (snd r)).
Proof.
  intros D rvs rvs' T P. unfold edges_stat, max_degree_stat, average_degree_stat, components_stat, clique_stat,
    independence_stat, graph_execute. rewrite (threshold_perm D _ _ T P).
  destruct (D rvs') as [d|e]; simpl.
  - rewrite (edges_perm _ _ d P), (max_degree_perm _ _ d P), (average_degree_perm _ _ d P), (components_perm _ _ d P),
      (rsort_perm_eq _ _ P). repeat (split; [reflexivity|]).
    destruct rvs as [|a rvs], rvs' as [|b rvs']; try reflexivity; exfalso; eapply perm_nil_cons; eauto using Permutation_sym.
  - repeat (split; [reflexivity|]).
    destruct rvs as [|a rvs], rvs' as [|b rvs']; try reflexivity; exfalso; eapply perm_nil_cons; eauto using Permutation_sym.
Qed.
Lemma C54_gamma_graph_permutation_holds : forall A F (stat : list R -> result A) rvs rvs',
  Permutation rvs rvs' -> gamma_graph F stat rvs = gamma_graph F stat rvs'.
Proof.
  intros A F stat rvs rvs' P. unfold gamma_graph. rewrite (rsort_perm_eq _ _ P).
  destruct rvs as [|a rvs], rvs' as [|b rvs']; try reflexivity; exfalso; eapply perm_nil_cons; eauto using Permutation_sym.
Qed.
(** *** C59, C60: change of unit *)
(** with the plain threshold all graph statistics are unit free (clique: for increasing maps) *)
Lemma C60_plain_graph_affine_holds : forall a b rvs, b <> 0 ->
  let rvs' := map (fun v => a + b * v) rvs in
  edges_stat dist_base rvs' = edges_stat dist_base rvs /\
  max_degree_stat dist_base rvs' = max_degree_stat dist_base rvs /\
  average_degree_stat dist_base rvs' = average_degree_stat dist_base rvs /\
  components_stat dist_base rvs' = components_stat dist_base rvs /\
  (let! r := independence_stat PyList dist_base rvs' in Ok (snd r))
    = (let! r := independence_stat PyList dist_base rvs in Ok (snd r)) /\
  (0 < b -> (let! r := clique_stat dist_base rvs' in Ok (snd r)) = (let! r := clique_stat dist_base rvs in Ok (snd r))).
Proof.
  intros a b rvs Hb. simpl. change (fun v => a + b * v) with (affine a b).
  destruct rvs as [|v0 rvs0]; [repeat split|].
  remember (v0 :: rvs0) as rvs eqn:ER. assert (N : rvs <> []) by (subst; discriminate).
  assert (E := dist_base_eval rvs N). assert (E' := dist_base_affine a b rvs _ E).
  set (d := (Rmaxl 0 rvs - Rminl 0 rvs) / 10) in *.
  unfold edges_stat, max_degree_stat, average_degree_stat, components_stat, graph_execute, clique_stat.
  rewrite E', E. cbn [bind]. rewrite affine_adjacency by exact Hb. repeat (split; [reflexivity|]). split.
  - assert (E2 := E). assert (E2' := E'). rewrite ER in E2, E2'. cbn [map] in E2'. rewrite ER. cbn [map].
    rewrite (independence_list _ _ _ _ E2), (independence_list _ _ _ _ E2'). cbn [bind snd]. f_equal.
    change (affine a b v0 :: map (affine a b) rvs0) with (map (affine a b) (v0 :: rvs0)).
    apply independence_affine, Hb.
  - intros Hp. f_equal. cbn [snd]. rewrite rsort_affine by exact Hp. rewrite map_length, Rabs_right by lra.
    apply clique_for_affine; auto.
Qed.
(** and with the normality threshold they are free of the origin *)
Lemma C60_graph_normality_location_holds : forall a rvs,
  let rvs' := map (fun v => a + v) rvs in
  edges_stat dist_normal rvs' = edges_stat dist_normal rvs /\
  max_degree_stat dist_normal rvs' = max_degree_stat dist_normal rvs /\
  average_degree_stat dist_normal rvs' = average_degree_stat dist_normal rvs /\
  components_stat dist_normal rvs' = components_stat dist_normal rvs.
Proof.
  intros a rvs. simpl. replace (map (fun v => a + v) rvs) with (map (affine a 1) rvs)
    by (apply map_ext; intros v; unfold affine; ring).
  unfold edges_stat, max_degree_stat, average_degree_stat, components_stat, graph_execute.
  rewrite dist_normal_shift. destruct (dist_normal rvs) as [d|e]; [|repeat split]. simpl.
  assert (H := affine_adjacency a 1 rvs d ltac:(lra)). rewrite Rabs_R1, Rmult_1_l in H. rewrite H. repeat split.
Qed.
(** dividing the threshold by the variance (a squared unit) makes it depend on the unit *)
Lemma dist_two x y : x < y -> dist_base [x; y] = Ok ((y - x) / 10).
Proof.
  intros H. apply (proj1 (C55_threshold_holds [x; y] x y (or_introl eq_refl) (or_intror (or_introl eq_refl))
      ltac:(intros v [<-|[<-|[]]]; lra))).
Qed.
Lemma edges_two_far d x y : d <= Rabs (y - x) -> edges_number (make_adjacency_list [x; y] d) = 0%nat.
Proof.
  intros H. unfold make_adjacency_list, adj_outer, adj_inner. simpl.
  rewrite (proj2 (Rltb_false _ _)) by exact H. reflexivity.
Qed.
Lemma edges_two_near d x y : Rabs (y - x) < d -> edges_number (make_adjacency_list [x; y] d) = 1%nat.
Proof.
  intros H. unfold make_adjacency_list, adj_outer, adj_inner. simpl.
  rewrite (proj2 (Rltb_true _ _)) by exact H. reflexivity.
Qed.
Lemma C60_graph_normality_scale_refuted_holds : exists rvs b, 0 < b /\
  edges_stat dist_normal rvs = Ok 0%nat /\ edges_stat dist_normal (map (fun v => b * v) rvs) = Ok 1%nat.
Proof.
  exists [0; 1], (1 / 10). split; [lra|].
  assert (V1 : np_var [0; 1] = 1 / 4) by (unfold np_var, mean, len; simpl; lra).
  assert (V2 : np_var [1 / 10 * 0; 1 / 10 * 1] = 1 / 400) by (unfold np_var, mean, len; simpl; lra).
  split.
  - unfold edges_stat, graph_execute, dist_normal. rewrite dist_two by lra. simpl bind.
    rewrite (proj2 (Reqb_false _ _)) by lra. rewrite edges_two_far; [reflexivity|]. rewrite V1, Rabs_right; lra.
  - simpl map. unfold edges_stat, graph_execute, dist_normal. rewrite dist_two by lra. simpl bind.
    rewrite (proj2 (Reqb_false _ _)) by lra. rewrite edges_two_near; [reflexivity|]. rewrite V2, Rabs_right; lra.
Qed.
(** likewise dividing the range by the mean makes the exponentiality threshold a pure number *)
Lemma C59_graph_exponentiality_scale_refuted_holds : exists rvs b, 0 < b /\ (forall v, In v rvs -> 0 < v) /\
  edges_stat dist_exponential rvs = Ok 0%nat /\
  edges_stat dist_exponential (map (fun v => b * v) rvs) = Ok 1%nat.
Proof.
  exists [1; 2], (1 / 100). split; [lra|]. split; [intros v [<-|[<-|[]]]; lra|].
  assert (V1 : mean [1; 2] = 3 / 2) by (unfold mean, len; simpl; lra).
  assert (V2 : mean [1 / 100 * 1; 1 / 100 * 2] = 3 / 200) by (unfold mean, len; simpl; lra).
  split.
  - unfold edges_stat, graph_execute, dist_exponential. rewrite dist_two by lra. simpl bind.
    rewrite (proj2 (Reqb_false _ _)) by lra. rewrite edges_two_far; [reflexivity|]. rewrite V1, Rabs_right; lra.
  - simpl map. unfold edges_stat, graph_execute, dist_exponential. rewrite dist_two by lra. simpl bind.
    rewrite (proj2 (Reqb_false _ _)) by lra. rewrite edges_two_near; [reflexivity|]. rewrite V2, Rabs_right; lra.
Qed.
(** *** C64: the caller's data *)
(** clique and independence leave the caller's list sorted: it is unchanged exactly when it was sorted *)
Lemma C64_graph_sorts_in_place_refuted_holds : forall D rvs d, D rvs = Ok d ->
  (exists v, clique_stat D rvs = Ok (rsort rvs, v)) /\
  (rvs <> [] -> exists v, independence_stat PyList D rvs = Ok (rsort rvs, v)) /\
  (rsort rvs = rvs <-> sortedR rvs) /\ exists rvs', rsort rvs' <> rvs'.
Proof.
  intros D rvs d H. split; [unfold clique_stat; rewrite H; eexists; reflexivity|]. split; [|split].
  - intros N. destruct rvs; [congruence|]. eexists. apply independence_list, H.
  - split; [intros <-; apply rsort_sorted|apply rsort_id].
  - exists [1; 0]. simpl. rcase. intros E. inversion E. lra.
Qed.
