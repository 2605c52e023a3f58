(** Permutation and affine invariance of the graph statistics. *)
From Coq Require Import ZArith.
From Verif Require Import Base GraphModel GraphSpec GraphProofs GraphConnProofs GraphLineProofs EdfModel.

(** ** Degrees in terms of values *)
Lemma count_eqb i n : (i < n)%nat -> count (Nat.eqb i) (seq 0 n) = 1%nat.
Proof.
  intros H. replace n with (i + S (n - S i))%nat by lia. rewrite seq_app, count_app. cbn [seq plus].
  rewrite count_cons, Nat.eqb_refl, !count_zero; [reflexivity| |].
  - intros j Hj. apply in_seq in Hj. apply Nat.eqb_neq. lia.
  - intros j Hj. apply in_seq in Hj. apply Nat.eqb_neq. lia.
Qed.
Lemma count_andb_const {A} (P : A -> bool) (b : bool) l :
  count (fun a => P a && b) l = if b then count P l else 0%nat.
Proof.
  destruct b; [apply count_ext|apply count_zero]; intros a _; destruct (P a); reflexivity.
Qed.
Definition close_count (x : list R) (d v : R) : nat := count (fun y => Rltb (Rabs (v - y)) d) x.
Lemma degree_close x d i : (i < length x)%nat ->
  close_count x d (nth i x 0) = (degree x d i + (if Rltb 0 d then 1 else 0))%nat.
Proof.
  intros H. unfold close_count, degree.
  transitivity (count (fun y => Rltb (Rabs (nth i x 0 - y)) d) (map (fun j => nth j x 0) (seq 0 (length x))));
    [rewrite map_nth_seq; reflexivity|]. rewrite count_map.
  replace (if Rltb 0 d then 1 else 0)%nat with (count (fun j => Nat.eqb i j && Rltb 0 d) (seq 0 (length x)))
    by (rewrite count_andb_const, count_eqb by exact H; reflexivity).
  rewrite <- !sum_nat_b2n, <- sum_nat_map_plus. apply sum_nat_map_ext. intros j _. unfold near.
  destruct (Nat.eqb_spec i j) as [->|N]; simpl.
  - unfold Rminus; rewrite Rplus_opp_r, Rabs_R0. destruct (Rltb 0 d); reflexivity.
  - destruct (Rltb _ d); reflexivity.
Qed.
Lemma degrees_by_value x d :
  map (degree x d) (seq 0 (length x)) = map (fun v => (close_count x d v - (if Rltb 0 d then 1 else 0))%nat) x.
Proof.
  transitivity (map (fun v => (close_count x d v - (if Rltb 0 d then 1 else 0))%nat)
                  (map (fun i => nth i x 0) (seq 0 (length x)))); [|rewrite map_nth_seq; reflexivity].
  rewrite map_map. apply map_ext_in. intros i Hi. apply in_seq in Hi.
  rewrite degree_close by lia. lia.
Qed.
Lemma degrees_perm x y d : Permutation x y ->
  Permutation (map (degree x d) (seq 0 (length x))) (map (degree y d) (seq 0 (length y))).
Proof.
  intros P. rewrite !degrees_by_value. etransitivity; [apply Permutation_map, P|].
  erewrite map_ext; [reflexivity|]. intros v. simpl. unfold close_count. rewrite (count_perm _ _ _ P). reflexivity.
Qed.

Lemma edges_perm x y d : Permutation x y ->
  edges_number (make_adjacency_list x d) = edges_number (make_adjacency_list y d).
Proof.
  intros P. unfold edges_number. rewrite !lengths_of_adjacency, (sum_nat_perm _ _ (degrees_perm x y d P)). reflexivity.
Qed.
Lemma perm_nil_iff (x y : list R) : Permutation x y -> (x = [] <-> y = []).
Proof.
  intros P. split; intros ->; [apply Permutation_nil, P|apply Permutation_nil, Permutation_sym, P].
Qed.
Lemma max_degree_perm x y d : Permutation x y ->
  max_degree (make_adjacency_list x d) = max_degree (make_adjacency_list y d).
Proof.
  intros P. destruct (list_eq_dec Req_EM_T x []) as [->|N].
  - apply Permutation_nil in P. subst. reflexivity.
  - rewrite !max_degree_eval, (max_nat_perm _ _ (degrees_perm _ _ d P)); auto.
    intros E. apply N. apply (perm_nil_iff x y P), E.
Qed.
Lemma average_degree_perm x y d : Permutation x y ->
  average_degree (make_adjacency_list x d) = average_degree (make_adjacency_list y d).
Proof.
  intros P. destruct (list_eq_dec Req_EM_T x []) as [->|N].
  - apply Permutation_nil in P. subst. reflexivity.
  - rewrite !average_degree_eval; auto; [|intros E; apply N, (perm_nil_iff x y P), E].
    assert (E : length (edge_list x d) = length (edge_list y d)).
    { assert (H := edges_perm x y d P). unfold edges_number in H.
      rewrite !lengths_of_adjacency, !handshake, !(Nat.mul_comm 2), !Nat.div_mul in H by lia. exact H. }
    rewrite E. unfold len. rewrite (Permutation_length P). reflexivity.
Qed.
Lemma components_perm x y d : Permutation x y ->
  connected_components (make_adjacency_list x d) = connected_components (make_adjacency_list y d).
Proof.
  intros P. destruct (connected_components_correct x d) as (k & E & C).
  destruct (connected_components_correct y d) as (m & E' & C'). rewrite E, E'. f_equal.
  apply (component_count_unique y d); auto. apply (component_count_perm x y d k P C).
Qed.

Lemma mean_perm x y : Permutation x y -> mean x = mean y.
Proof. intros P. unfold mean, len. rewrite (Rsum_perm _ _ P), (Permutation_length P). reflexivity. Qed.
Lemma np_var_perm x y : Permutation x y -> np_var x = np_var y.
Proof.
  intros P. unfold np_var. rewrite (mean_perm x y P). apply mean_perm, Permutation_map, P.
Qed.
Lemma dist_base_perm x y : Permutation x y -> dist_base x = dist_base y.
Proof.
  intros P. assert (HM := Rmaxl_perm 0 _ _ P). assert (Hm := Rminl_perm 0 _ _ P).
  destruct x as [|a x], y as [|b y].
  - reflexivity.
  - apply Permutation_nil in P. discriminate.
  - apply Permutation_sym, Permutation_nil in P. discriminate.
  - unfold dist_base. rewrite HM, Hm. reflexivity.
Qed.
Lemma dist_exponential_perm x y : Permutation x y -> dist_exponential x = dist_exponential y.
Proof. intros P. unfold dist_exponential. rewrite (dist_base_perm x y P), (mean_perm x y P). reflexivity. Qed.
Lemma dist_normal_perm x y : Permutation x y -> dist_normal x = dist_normal y.
Proof. intros P. unfold dist_normal. rewrite (dist_base_perm x y P), (np_var_perm x y P). reflexivity. Qed.

Definition threshold (D : list R -> result R) : Prop :=
  D = dist_base \/ D = dist_exponential \/ D = dist_normal.
Lemma threshold_perm D x y : threshold D -> Permutation x y -> D x = D y.
Proof.
  intros [->|[->| ->]] P; [apply dist_base_perm|apply dist_exponential_perm|apply dist_normal_perm]; exact P.
Qed.
Lemma threshold_total D x : threshold D -> x <> [] -> exists d, D x = Ok d.
Proof.
  intros T H. destruct x as [|a x]; [congruence|].
  destruct T as [->|[->| ->]]; unfold dist_exponential, dist_normal, dist_base, bind; eexists; reflexivity.
Qed.
Lemma threshold_empty D : threshold D -> D [] = Raise ValueError.
Proof. intros [->|[->| ->]]; reflexivity. Qed.

(** ** Affine maps *)
Definition affine (a b v : R) : R := a + b * v.
Lemma nth_affine a b x i : (i < length x)%nat -> nth i (map (affine a b) x) 0 = affine a b (nth i x 0).
Proof. intros H. rewrite nth_indep with (d' := affine a b 0) by (rewrite map_length; exact H). apply map_nth. Qed.
Lemma affine_gap a b u v : Rabs (affine a b u - affine a b v) = Rabs b * Rabs (u - v).
Proof. unfold affine. rewrite <- Rabs_mult. f_equal. ring. Qed.
Lemma affine_near a b x d i j : b <> 0 -> (i < length x)%nat -> (j < length x)%nat ->
  near (map (affine a b) x) (Rabs b * d) i j = near x d i j.
Proof.
  intros Hb Hi Hj. unfold near. rewrite !nth_affine, affine_gap by assumption. f_equal.
  assert (P := Rabs_pos_lt b Hb).
  destruct (Rltb_spec (Rabs (nth i x 0 - nth j x 0)) d); [apply Rltb_true|apply Rltb_false]; nra.
Qed.
Lemma filter_ext_in' {A} (P Q : A -> bool) l : (forall a, In a l -> P a = Q a) -> filter P l = filter Q l.
Proof.
  intros H. induction l as [|a l IH]; [reflexivity|]. simpl. rewrite (H a) by (simpl; auto).
  rewrite IH; [reflexivity|]. intros; apply H; simpl; auto.
Qed.
Lemma affine_adjacency a b x d : b <> 0 ->
  make_adjacency_list (map (affine a b) x) (Rabs b * d) = make_adjacency_list x d.
Proof.
  intros Hb. rewrite !make_adjacency_spec, map_length. apply map_ext_in. intros i Hi. apply in_seq in Hi.
  apply filter_ext_in'. intros j Hj. apply in_seq in Hj. apply affine_near; auto; lia.
Qed.
Lemma affine_adjacent a b x d i j : b <> 0 ->
  adjacent (map (affine a b) x) (Rabs b * d) i j <-> adjacent x d i j.
Proof.
  intros Hb. unfold adjacent. rewrite map_length.
  assert (H := near_true (map (affine a b) x) (Rabs b * d) i j). assert (H2 := near_true x d i j).
  split; intros (A & B & C & E).
  - rewrite affine_near in H by auto. tauto.
  - rewrite affine_near in H by auto. tauto.
Qed.
Lemma Rmaxl_affine a b x : x <> [] -> 0 <= b -> Rmaxl 0 (map (affine a b) x) = affine a b (Rmaxl 0 x).
Proof.
  intros H Hb. apply Rmaxl_unique; [apply in_map, Rmaxl_in, H|]. intros y Hy. apply in_map_iff in Hy.
  destruct Hy as (v & <- & Hv). apply (Rmaxl_ge 0) in Hv. unfold affine. nra.
Qed.
Lemma Rminl_affine a b x : x <> [] -> 0 <= b -> Rminl 0 (map (affine a b) x) = affine a b (Rminl 0 x).
Proof.
  intros H Hb. apply Rminl_unique; [apply in_map, Rminl_in, H|]. intros y Hy. apply in_map_iff in Hy.
  destruct Hy as (v & <- & Hv). apply (Rminl_le 0) in Hv. unfold affine. nra.
Qed.
Lemma Rmaxl_affine_neg a b x : x <> [] -> b <= 0 -> Rmaxl 0 (map (affine a b) x) = affine a b (Rminl 0 x).
Proof.
  intros H Hb. apply Rmaxl_unique; [apply in_map, Rminl_in, H|]. intros y Hy. apply in_map_iff in Hy.
  destruct Hy as (v & <- & Hv). apply (Rminl_le 0) in Hv. unfold affine. nra.
Qed.
Lemma Rminl_affine_neg a b x : x <> [] -> b <= 0 -> Rminl 0 (map (affine a b) x) = affine a b (Rmaxl 0 x).
Proof.
  intros H Hb. apply Rminl_unique; [apply in_map, Rmaxl_in, H|]. intros y Hy. apply in_map_iff in Hy.
  destruct Hy as (v & <- & Hv). apply (Rmaxl_ge 0) in Hv. unfold affine. nra.
Qed.
Lemma dist_base_eval x : x <> [] -> dist_base x = Ok ((Rmaxl 0 x - Rminl 0 x) / 10).
Proof. destruct x; [congruence|reflexivity]. Qed.
Lemma map_ne' {A B} (f : A -> B) l : l <> [] -> map f l <> [].
Proof. destruct l; [congruence|discriminate]. Qed.
Lemma dist_base_affine a b x d : dist_base x = Ok d -> dist_base (map (affine a b) x) = Ok (Rabs b * d).
Proof.
  intros H. destruct (list_eq_dec Req_EM_T x []) as [->|N]; [discriminate|].
  rewrite dist_base_eval in * by (auto using map_ne'). inversion H; subst. f_equal.
  destruct (Rle_lt_dec 0 b).
  - rewrite Rmaxl_affine, Rminl_affine, Rabs_right by (auto; lra). unfold affine. field.
  - rewrite Rmaxl_affine_neg, Rminl_affine_neg, Rabs_left by (auto; lra). unfold affine. field.
Qed.

Lemma mean_shift a x : x <> [] -> mean (map (affine a 1) x) = a + mean x.
Proof.
  intros H. unfold mean. unfold len at 1. rewrite map_length. fold (len x).
  assert (len x <> 0). { unfold len. apply not_0_INR. destruct x; [congruence|simpl; lia]. }
  unfold affine. rewrite Rsum_map_plus, Rsum_map_const, Rsum_map_scal, map_id. fold (len x). field. assumption.
Qed.
Lemma np_var_shift a x : x <> [] -> np_var (map (affine a 1) x) = np_var x.
Proof.
  intros H. unfold np_var. rewrite mean_shift by exact H. rewrite map_map. f_equal. apply map_ext.
  intros v. unfold affine. f_equal. ring.
Qed.
Lemma dist_normal_shift a x : dist_normal (map (affine a 1) x) = dist_normal x.
Proof.
  destruct (list_eq_dec Req_EM_T x []) as [->|N]; [reflexivity|]. unfold dist_normal.
  assert (H := dist_base_eval x N). rewrite (dist_base_affine a 1 x _ H), H, np_var_shift by exact N.
  rewrite Rabs_R1, Rmult_1_l. reflexivity.
Qed.

(** ** Sorting after an increasing affine map *)
Lemma rsort_affine a b x : 0 < b -> rsort (map (affine a b) x) = map (affine a b) (rsort x).
Proof. intros H. apply rsort_map_mono. intros u v. unfold affine. nra. Qed.
Lemma below_affine a b xs t : 0 < b -> below (map (affine a b) xs) (affine a b t) = below xs t.
Proof.
  intros H. unfold below. rewrite count_map. apply count_ext. intros y _. unfold affine.
  destruct (Rltb_spec y t); [apply Rltb_true|apply Rltb_false]; nra.
Qed.
Lemma clique_while_affine a b xs d left : 0 < b -> (left < length xs)%nat -> forall fuel right,
  clique_while fuel (map (affine a b) xs) (b * d) left right = clique_while fuel xs d left right.
Proof.
  intros Hb Hl. induction fuel as [|fuel IH]; intros right; simpl; [reflexivity|]. rewrite map_length.
  destruct (Nat.ltb_spec right (length xs)) as [L|L]; simpl; [|reflexivity].
  rewrite !nth_affine by assumption.
  assert (E : Rltb (affine a b (nth right xs 0)) (affine a b (nth left xs 0) + b * d) =
              Rltb (nth right xs 0) (nth left xs 0 + d)).
  { unfold affine. destruct (Rltb_spec (nth right xs 0) (nth left xs 0 + d)); [apply Rltb_true|apply Rltb_false]; nra. }
  rewrite E, IH. reflexivity.
Qed.
Lemma clique_for_affine a b xs d : 0 < b -> forall todo left right c, (left + todo = length xs)%nat ->
  clique_for todo (map (affine a b) xs) (b * d) left right c = clique_for todo xs d left right c.
Proof.
  intros Hb. induction todo as [|todo IH]; intros left right c H; simpl; [reflexivity|].
  rewrite map_length, clique_while_affine by (auto; lia). destruct (Nat.eqb _ _); [reflexivity|]. apply IH. lia.
Qed.
Lemma indep_for_affine a b rest d last stat : 0 < b ->
  indep_for (map (affine a b) rest) (b * d) (affine a b last) stat = indep_for rest d last stat.
Proof.
  intros Hb. revert last stat. induction rest as [|x rest IH]; intros last stat; simpl; [reflexivity|].
  assert (E : Rleb (affine a b last + b * d) (affine a b x) = Rleb (last + d) x).
  { unfold affine. destruct (Rleb_spec (last + d) x); [apply Rleb_true|apply Rleb_false]; nra. }
  rewrite E. destruct (Rleb (last + d) x); apply IH.
Qed.
Lemma independence_affine a b x d : b <> 0 ->
  independence_of (rsort (map (affine a b) x)) (Rabs b * d) = independence_of (rsort x) d.
Proof.
  intros Hb. apply (largest_unique (is_independent x d)); [|apply independence_correct].
  destruct (independence_correct (map (affine a b) x) (Rabs b * d)) as [(s & [V I] & L) M].
  split.
  - exists s. split; [|exact L]. split; [destruct V as [V1 V2]; split; [exact V1|intros i Hi; apply V2 in Hi; rewrite map_length in Hi; exact Hi]|].
    intros i j Hi Hj A. apply (I i j Hi Hj). apply affine_adjacent; auto.
  - intros t [W J]. apply M. split; [destruct W as [V1 V2]; split; [exact V1|intros i Hi; rewrite map_length; apply V2, Hi]|].
    intros i j Hi Hj A. apply (J i j Hi Hj). apply affine_adjacent in A; auto.
Qed.
