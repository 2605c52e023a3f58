(** Properties C54 - C60, C63 and C64 for the graph based statistics. *)
From Coq Require Import ZArith.
From Verif Require Import Base GraphModel GraphSpec GraphProofs GraphConnProofs GraphLineProofs GraphInvProofs EdfModel GraphClaims.

(** *** C55: threshold, edges, degrees *)
(** the threshold is a tenth of the range, divided by the mean or the variance for the two families *)
Theorem C55_threshold : forall rvs lo hi, In lo rvs -> In hi rvs -> (forall v, In v rvs -> lo <= v <= hi) ->
  dist_base rvs = Ok ((hi - lo) / 10) /\
  (mean rvs <> 0 -> dist_exponential rvs = Ok ((hi - lo) / 10 / mean rvs)) /\
  (np_var rvs <> 0 -> dist_normal rvs = Ok ((hi - lo) / 10 / np_var rvs)).
Proof. exact C55_threshold_holds. Qed.
Print Assumptions C55_threshold.
Theorem C55_edges : forall D rvs d, D rvs = Ok d ->
  exists k, edges_stat D rvs = Ok k /\ edge_count_is rvs d k.
Proof. exact C55_edges_holds. Qed.
Print Assumptions C55_edges.
Theorem C55_max_degree : forall D rvs d, D rvs = Ok d -> rvs <> [] ->
  exists k, max_degree_stat D rvs = Ok k /\
    (exists i, (i < length rvs)%nat /\ degree_is rvs d i k) /\
    (forall i m, (i < length rvs)%nat -> degree_is rvs d i m -> (m <= k)%nat).
Proof. exact C55_max_degree_holds. Qed.
Print Assumptions C55_max_degree.
(** handshake: the average degree is twice the number of edges over the number of vertices *)
Theorem C55_average_degree : forall D rvs d, D rvs = Ok d -> rvs <> [] ->
  exists k, edge_count_is rvs d k /\ average_degree_stat D rvs = Ok (Fin (2 * INR k / len rvs)).
Proof. exact C55_average_degree_holds. Qed.
Print Assumptions C55_average_degree.
(** every non-empty sample has a threshold; the empty sample is refused *)
Theorem C55_defined : forall D, D = dist_base \/ D = dist_exponential \/ D = dist_normal ->
  (forall rvs, rvs <> [] -> exists d, D rvs = Ok d) /\ edges_stat D [] = Raise ValueError.
Proof. exact C55_defined_holds. Qed.
Print Assumptions C55_defined.

Example C55_nonvacuous : dist_base [0; 1; 10; 1.5] = Ok 1 /\ edges_stat dist_base [0; 1; 10; 1.5] = Ok 1%nat.
Proof. exact C55_nonvacuous_holds. Qed.

(** *** C56: connected components *)
Theorem C56_components : forall D rvs d, D rvs = Ok d ->
  exists k, components_stat D rvs = Ok (Some k) /\ component_count_is rvs d k /\
    forall m, component_count_is rvs d m -> m = k.
Proof. exact C56_components_holds. Qed.
Print Assumptions C56_components.
(** in one dimension: one more than the number of gaps of the sorted sample that reach the threshold *)
Theorem C56_components_are_gaps : forall D rvs d, D rvs = Ok d -> rvs <> [] ->
  components_stat D rvs = Ok (Some (S (length (filter (Rleb d) (diff (rsort rvs)))))).
Proof. exact C56_components_are_gaps_holds. Qed.
Print Assumptions C56_components_are_gaps.
Example C56_nonvacuous : components_stat dist_base [0; 1; 10; 1.5] = Ok (Some 3%nat).
Proof. exact C56_nonvacuous_holds. Qed.

(** *** C57: clique number *)
(** [0, 1] has no two observations closer than 0.1, but the statistic is 2 *)
Theorem C57_clique_refuted : exists rvs d, dist_base rvs = Ok d /\ clique_number_is rvs d 1 /\
  exists xs, clique_stat dist_base rvs = Ok (xs, 2%Z).
Proof. exact C57_clique_refuted_holds. Qed.
Print Assumptions C57_clique_refuted.
(** what it computes: the clique number, or one more than the size of the window ending at the largest
    observation if that is larger; never more than one too many *)
Theorem C57_clique_value : forall D rvs d omega, D rvs = Ok d -> rvs <> [] -> 0 < d -> clique_number_is rvs d omega ->
  exists xs v, clique_stat D rvs = Ok (xs, Z.of_nat v) /\
    v = Nat.max omega (S (length (filter (fun y => Rltb (Rmaxl 0 rvs - d) y) rvs))) /\
    (omega <= v <= S omega)%nat.
Proof. exact C57_clique_value_holds. Qed.
Print Assumptions C57_clique_value.
(** the largest clique is found whenever it is not the one at the largest observation *)
Theorem C57_clique_when_not_on_top_partial : forall D rvs d omega, D rvs = Ok d -> rvs <> [] -> 0 < d ->
  clique_number_is rvs d omega -> (length (filter (fun y => Rltb (Rmaxl 0 rvs - d) y) rvs) < omega)%nat ->
  exists xs, clique_stat D rvs = Ok (xs, Z.of_nat omega).
Proof. exact C57_clique_when_not_on_top_partial_holds. Qed.
Print Assumptions C57_clique_when_not_on_top_partial.
(** constant samples: threshold 0, a clique of one vertex, statistic 0 *)
Theorem C57_constant_sample_refuted : forall c n, (0 < n)%nat ->
  dist_base (repeat c n) = Ok 0 /\ clique_number_is (repeat c n) 0 1 /\
  exists xs, clique_stat dist_base (repeat c n) = Ok (xs, 0%Z).
Proof. exact C57_constant_sample_refuted_holds. Qed.
Print Assumptions C57_constant_sample_refuted.
Example C57_nonvacuous : clique_number_is [0; 0; 0; 10] 1 3 /\ dist_base [0; 0; 0; 10] = Ok 1 /\
  length (filter (fun y => Rltb (Rmaxl 0 [0; 0; 0; 10] - 1) y) [0; 0; 0; 10]) = 1%nat.
Proof. exact C57_nonvacuous_holds. Qed.

(** turning the sample around changes the statistic though not the graph: [0,0,0,10] gives 3, its
    negative 4 *)
Theorem C57_clique_reflection_refuted : exists rvs, 
  (let! r := clique_stat dist_base rvs in Ok (snd r)) = Ok 3%Z /\
  (let! r := clique_stat dist_base (map Ropp rvs) in Ok (snd r)) = Ok 4%Z.
Proof. exact C57_clique_reflection_refuted_holds. Qed.
Print Assumptions C57_clique_reflection_refuted.

(** *** C58: independence number, on Python lists *)
Theorem C58_independence_number : forall D rvs d, D rvs = Ok d ->
  exists xs k, independence_stat PyList D rvs = Ok (xs, k) /\ independence_number_is rvs d k.
Proof. exact C58_independence_number_holds. Qed.
Print Assumptions C58_independence_number.
(** on numpy arrays with two or more observations the emptiness test raises, and a single zero is taken
    for an empty sample *)
Theorem C58_arrays_refuted : forall D a b rvs,
  independence_stat NdArray D (a :: b :: rvs) = Raise ValueError /\
  independence_stat NdArray D [0] = Ok ([0], 0%nat) /\ independence_number_is [0] 0 1.
Proof. exact C58_arrays_refuted_holds. Qed.
Print Assumptions C58_arrays_refuted.
Example C58_nonvacuous : independence_stat PyList dist_base [0; 1; 10; 1.5] = Ok ([0; 1; 1.5; 10], 3%nat).
Proof. exact C58_nonvacuous_holds. Qed.

(** *** C54: the order of the observations does not matter *)
Theorem C54_graph_permutation : forall D rvs rvs',
  D = dist_base \/ D = dist_exponential \/ D = dist_normal -> Permutation rvs rvs' ->
  edges_stat D rvs = edges_stat D rvs' /\ max_degree_stat D rvs = max_degree_stat D rvs' /\
  average_degree_stat D rvs = average_degree_stat D rvs' /\ components_stat D rvs = components_stat D rvs' /\
  clique_stat D rvs = clique_stat D rvs' /\
  (let! r := independence_stat PyList D rvs in Ok (snd r)) = (let! r := independence_stat PyList D rvs' in Ok (snd r)).
Proof. exact C54_graph_permutation_holds. Qed.
Print Assumptions C54_graph_permutation.
Theorem C54_gamma_graph_permutation : forall A F (stat : list R -> result A) rvs rvs',
  Permutation rvs rvs' -> gamma_graph F stat rvs = gamma_graph F stat rvs'.
Proof. exact C54_gamma_graph_permutation_holds. Qed.
Print Assumptions C54_gamma_graph_permutation.

(** *** C59, C60: change of unit *)
(** with the plain threshold all graph statistics are unit free (clique: for increasing maps) *)
Theorem C60_plain_graph_affine : forall a b rvs, b <> 0 ->
  let rvs' := map (fun v => a + b * v) rvs in
  edges_stat dist_base rvs' = edges_stat dist_base rvs /\
  max_degree_stat dist_base rvs' = max_degree_stat dist_base rvs /\
  average_degree_stat dist_base rvs' = average_degree_stat dist_base rvs /\
  components_stat dist_base rvs' = components_stat dist_base rvs /\
  (let! r := independence_stat PyList dist_base rvs' in Ok (snd r))
    = (let! r := independence_stat PyList dist_base rvs in Ok (snd r)) /\
  (0 < b -> (let! r := clique_stat dist_base rvs' in Ok (snd r)) = (let! r := clique_stat dist_base rvs in Ok (snd r))).
Proof. exact C60_plain_graph_affine_holds. Qed.
Print Assumptions C60_plain_graph_affine.
(** and with the normality threshold they are free of the origin *)
Theorem C60_graph_normality_location : forall a rvs,
  let rvs' := map (fun v => a + v) rvs in
  edges_stat dist_normal rvs' = edges_stat dist_normal rvs /\
  max_degree_stat dist_normal rvs' = max_degree_stat dist_normal rvs /\
  average_degree_stat dist_normal rvs' = average_degree_stat dist_normal rvs /\
  components_stat dist_normal rvs' = components_stat dist_normal rvs.
Proof. exact C60_graph_normality_location_holds. Qed.
Print Assumptions C60_graph_normality_location.
(** dividing the threshold by the variance (a squared unit) makes it depend on the unit *)
Theorem C60_graph_normality_scale_refuted : exists rvs b, 0 < b /\
  edges_stat dist_normal rvs = Ok 0%nat /\ edges_stat dist_normal (map (fun v => b * v) rvs) = Ok 1%nat.
Proof. exact C60_graph_normality_scale_refuted_holds. Qed.
Print Assumptions C60_graph_normality_scale_refuted.
(** likewise dividing the range by the mean makes the exponentiality threshold a pure number *)
Theorem C59_graph_exponentiality_scale_refuted : exists rvs b, 0 < b /\ (forall v, In v rvs -> 0 < v) /\
  edges_stat dist_exponential rvs = Ok 0%nat /\
  edges_stat dist_exponential (map (fun v => b * v) rvs) = Ok 1%nat.
Proof. exact C59_graph_exponentiality_scale_refuted_holds. Qed.
Print Assumptions C59_graph_exponentiality_scale_refuted.

(** *** C64: the caller's data *)
(** clique and independence leave the caller's list sorted: it is unchanged exactly when it was sorted *)
Theorem C64_graph_sorts_in_place_refuted : forall D rvs d, D rvs = Ok d ->
  (exists v, clique_stat D rvs = Ok (rsort rvs, v)) /\
  (rvs <> [] -> exists v, independence_stat PyList D rvs = Ok (rsort rvs, v)) /\
  (rsort rvs = rvs <-> sortedR rvs) /\ exists rvs', rsort rvs' <> rvs'.
Proof. exact C64_graph_sorts_in_place_refuted_holds. Qed.
Print Assumptions C64_graph_sorts_in_place_refuted.
