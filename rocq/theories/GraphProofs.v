(** Proofs about proximity graphs: adjacency lists, degrees, edges. *)
From Coq Require Import ZArith.
From Verif Require Import Base GraphModel GraphSpec.

(** ** Adjacency list *)
Definition near (x : list R) (d : R) (i j : nat) : bool :=
  negb (Nat.eqb i j) && Rltb (Rabs (nth i x 0 - nth j x 0)) d.

Lemma near_sym x d i j : near x d i j = near x d j i.
Proof. unfold near. rewrite (Nat.eqb_sym i j), (Rabs_minus_sym (nth i x 0)). reflexivity. Qed.
Lemma near_irrefl x d i : near x d i i = false.
Proof. unfold near. rewrite Nat.eqb_refl. reflexivity. Qed.
Lemma near_true x d i j : near x d i j = true <-> i <> j /\ Rabs (nth i x 0 - nth j x 0) < d.
Proof.
  unfold near. rewrite andb_true_iff, negb_true_iff, Nat.eqb_neq, Rltb_true. reflexivity.
Qed.
Lemma near_adjacent x d i j : (i < length x)%nat -> (j < length x)%nat ->
  near x d i j = true <-> adjacent x d i j.
Proof. intros Hi Hj. rewrite near_true. unfold adjacent. tauto. Qed.
Lemma adjacent_sym x d i j : adjacent x d i j -> adjacent x d j i.
Proof. unfold adjacent. rewrite Rabs_minus_sym. intuition. Qed.

Lemma upd_app_l {A} (l1 l2 : list A) i v : (i < length l1)%nat -> upd (l1 ++ l2) i v = upd l1 i v ++ l2.
Proof.
  revert i; induction l1 as [|a l1 IH]; intros [|i] H; simpl in *; try lia; auto.
  rewrite IH by lia. reflexivity.
Qed.
Lemma upd_app_r {A} (l1 : list A) a v : upd (l1 ++ [a]) (length l1) v = l1 ++ [v].
Proof. induction l1 as [|b l1 IH]; simpl; [reflexivity|]. rewrite IH. reflexivity. Qed.
Lemma nth_upd {A} (l : list A) i j v d : (i < length l)%nat ->
  nth j (upd l i v) d = if Nat.eqb i j then v else nth j l d.
Proof.
  intros H. destruct (Nat.eqb_spec i j) as [->|N]; [apply upd_nth_same; auto|apply upd_nth_other; auto].
Qed.
Lemma nth_map_seq {A} (f : nat -> A) n i d : (i < n)%nat -> nth i (map f (seq 0 n)) d = f i.
Proof.
  intros H. rewrite nth_indep with (d' := f 0%nat) by (rewrite map_length, seq_length; exact H).
  rewrite map_nth, seq_nth by exact H. reflexivity.
Qed.

Lemma push_last L row k w : length L = k -> push (L ++ [row]) k w = L ++ [row ++ [w]].
Proof.
  intros <-. unfold push. rewrite upd_app_r, app_nth2, Nat.sub_diag by lia. reflexivity.
Qed.

Lemma adj_inner_fold x d k m : (m <= k)%nat ->
  fold_left (adj_inner x d k) (seq 0 m) (map (fun i => filter (near x d i) (seq 0 k)) (seq 0 k) ++ [[]])
  = map (fun i => filter (near x d i) (seq 0 k) ++ (if Nat.ltb i m && near x d k i then [k] else [])) (seq 0 k)
    ++ [filter (near x d k) (seq 0 m)].
Proof.
  induction m as [|m IH]; intros Hm.
  - simpl. f_equal. apply map_ext. intros i. rewrite app_nil_r. reflexivity.
  - rewrite seq_S, fold_left_app, IH by lia. clear IH. cbn [plus fold_left].
    set (L := map _ (seq 0 k)).
    assert (HL : length L = k) by (unfold L; rewrite map_length, seq_length; reflexivity).
    rewrite filter_app. cbn [filter]. unfold adj_inner.
    assert (Hne : near x d k m = Rltb (Rabs (nth k x 0 - nth m x 0)) d).
    { unfold near. replace (Nat.eqb k m) with false by (symmetry; apply Nat.eqb_neq; lia). reflexivity. }
    destruct (Rltb (Rabs (nth k x 0 - nth m x 0)) d) eqn:E; rewrite Hne.
    + rewrite push_last by exact HL.
      unfold push. rewrite app_nth1 by lia. rewrite upd_app_l by lia. f_equal.
      apply nth_ext_R with (d := []).
      * rewrite upd_length, HL, map_length, seq_length. reflexivity.
      * intros i Hi. rewrite upd_length in Hi. rewrite nth_upd by lia.
        rewrite nth_map_seq by lia. unfold L. rewrite !nth_map_seq by lia.
        destruct (Nat.eqb_spec m i) as [->|N].
        -- replace (Nat.ltb i i) with false by (symmetry; apply Nat.ltb_ge; lia).
           replace (Nat.ltb i (S i)) with true by (symmetry; apply Nat.ltb_lt; lia).
           rewrite Hne. cbn. rewrite app_nil_r. reflexivity.
        -- f_equal. replace (Nat.ltb i (S m)) with (Nat.ltb i m); [reflexivity|].
           destruct (Nat.ltb_spec i m), (Nat.ltb_spec i (S m)); auto; lia.
    + rewrite app_nil_r. f_equal. unfold L. apply map_ext_in. intros i Hi. apply in_seq in Hi. f_equal.
      destruct (Nat.eqb_spec i m) as [->|N]; [rewrite Hne, !andb_false_r; reflexivity|].
      replace (Nat.ltb i (S m)) with (Nat.ltb i m); [reflexivity|].
      destruct (Nat.ltb_spec i m), (Nat.ltb_spec i (S m)); auto; lia.
Qed.

Lemma adj_fold x d k :
  fold_left (adj_outer x d) (seq 0 k) [] = map (fun i => filter (near x d i) (seq 0 k)) (seq 0 k).
Proof.
  induction k as [|k IH]; [reflexivity|].
  rewrite seq_S, fold_left_app, IH. cbn [plus fold_left]. unfold adj_outer.
  rewrite adj_inner_fold by lia. rewrite map_app. f_equal.
  - apply map_ext_in. intros i Hi. apply in_seq in Hi. rewrite filter_app. f_equal. cbn [filter].
    replace (Nat.ltb i k) with true by (symmetry; apply Nat.ltb_lt; lia).
    rewrite (near_sym x d k i). reflexivity.
  - cbn [map]. rewrite filter_app. cbn [filter]. rewrite near_irrefl, app_nil_r. reflexivity.
Qed.

(** the adjacency list: row i holds, in increasing order, the positions closer than d *)
Lemma make_adjacency_spec x d :
  make_adjacency_list x d = map (fun i => filter (near x d i) (seq 0 (length x))) (seq 0 (length x)).
Proof. apply adj_fold. Qed.
Lemma make_adjacency_length x d : length (make_adjacency_list x d) = length x.
Proof. rewrite make_adjacency_spec, map_length, seq_length. reflexivity. Qed.
Lemma make_adjacency_row x d i : (i < length x)%nat ->
  nth i (make_adjacency_list x d) [] = filter (near x d i) (seq 0 (length x)).
Proof. intros H. rewrite make_adjacency_spec.
  apply (nth_map_seq (fun i => filter (near x d i) (seq 0 (length x)))), H. Qed.
Lemma row_in x d i j : (i < length x)%nat ->
  In j (nth i (make_adjacency_list x d) []) <-> adjacent x d i j.
Proof.
  intros H. rewrite make_adjacency_row by exact H. rewrite filter_In, in_seq.
  split.
  - intros [Hj Hn]. apply near_adjacent; auto; lia.
  - intros A. assert (A' := A). destruct A as (_ & Hj & _). split; [lia|].
    apply near_adjacent; auto.
Qed.
Lemma row_nodup x d i : (i < length x)%nat -> NoDup (nth i (make_adjacency_list x d) []).
Proof. intros H. rewrite make_adjacency_row by exact H. apply NoDup_filter, seq_NoDup. Qed.

(** ** Degrees *)
Definition degree (x : list R) (d : R) (i : nat) : nat := count (near x d i) (seq 0 (length x)).
Lemma degree_spec x d i : (i < length x)%nat -> degree_is x d i (degree x d i).
Proof.
  intros H. exists (filter (near x d i) (seq 0 (length x))). split; [apply NoDup_filter, seq_NoDup|].
  split; [reflexivity|]. intros j. rewrite <- row_in, make_adjacency_row by exact H. reflexivity.
Qed.
Lemma counts_unique {A} (P : A -> Prop) k1 k2 : counts P k1 -> counts P k2 -> k1 = k2.
Proof.
  intros (l1 & N1 & <- & H1) (l2 & N2 & <- & H2). apply Permutation_length, NoDup_Permutation; auto.
  intros a. rewrite H1, H2. reflexivity.
Qed.
Lemma counts_ext {A} (P Q : A -> Prop) k : (forall a, P a <-> Q a) -> counts P k -> counts Q k.
Proof. intros H (l & N & L & I). exists l. repeat split; auto; intros; [apply H, I|apply I, H]; auto. Qed.

Lemma lengths_of_adjacency x d :
  map (@length nat) (make_adjacency_list x d) = map (degree x d) (seq 0 (length x)).
Proof. rewrite make_adjacency_spec, map_map. reflexivity. Qed.

Lemma sum_nat_app l1 l2 : sum_nat (l1 ++ l2) = (sum_nat l1 + sum_nat l2)%nat.
Proof. induction l1; simpl; lia. Qed.
Lemma sum_nat_perm l1 l2 : Permutation l1 l2 -> sum_nat l1 = sum_nat l2.
Proof. induction 1; simpl; lia. Qed.
Lemma sum_nat_map_plus {A} (f g : A -> nat) l :
  sum_nat (map (fun a => (f a + g a)%nat) l) = (sum_nat (map f l) + sum_nat (map g l))%nat.
Proof. induction l; simpl; lia. Qed.
Lemma sum_nat_map_ext {A} (f g : A -> nat) l :
  (forall a, In a l -> f a = g a) -> sum_nat (map f l) = sum_nat (map g l).
Proof. intros H. f_equal. apply map_ext_in, H. Qed.
Lemma sum_nat_b2n {A} (P : A -> bool) l : sum_nat (map (fun a => if P a then 1 else 0)%nat l) = count P l.
Proof. unfold count. induction l as [|a l IH]; simpl; [reflexivity|]. destruct (P a); simpl; lia. Qed.
Lemma sum_nat_swap {A B} (f : A -> B -> nat) la lb :
  sum_nat (map (fun a => sum_nat (map (f a) lb)) la) = sum_nat (map (fun b => sum_nat (map (fun a => f a b) la)) lb).
Proof.
  induction la as [|a la IH]; simpl.
  - induction lb; simpl; auto.
  - rewrite IH. clear IH. induction lb as [|b lb IH]; simpl; [reflexivity|]. lia.
Qed.

(** ** Edges *)
Definition edge_list (x : list R) (d : R) : list (nat * nat) :=
  flat_map (fun i => map (pair i) (filter (fun j => Nat.ltb i j && near x d i j) (seq 0 (length x))))
    (seq 0 (length x)).
Lemma edge_list_in x d p : In p (edge_list x d) <-> (fst p < snd p)%nat /\ adjacent x d (fst p) (snd p).
Proof.
  destruct p as [i j]. unfold edge_list. rewrite in_flat_map. simpl. split.
  - intros (i' & Hi & H). apply in_map_iff in H. destruct H as (j' & E & H). inversion E; subst.
    apply filter_In in H. destruct H as [Hj H]. apply andb_true_iff in H. destruct H as [Hl Hn].
    apply Nat.ltb_lt in Hl. apply in_seq in Hi, Hj. split; auto. apply near_adjacent; auto; lia.
  - intros [Hl A]. exists i. assert (A' := A). destruct A as (Hi & Hj & _). split; [apply in_seq; lia|].
    apply in_map. apply filter_In. split; [apply in_seq; lia|].
    apply andb_true_iff. split; [apply Nat.ltb_lt; lia|apply near_adjacent; auto].
Qed.
Lemma nodup_app {A} (l1 l2 : list A) : NoDup l1 -> NoDup l2 -> (forall a, In a l1 -> ~ In a l2) -> NoDup (l1 ++ l2).
Proof.
  induction l1 as [|a l1 IH]; intros N1 N2 D; simpl; auto. inversion N1; subst. constructor.
  - rewrite in_app_iff. intros [H|H]; [auto|]. apply (D a); simpl; auto.
  - apply IH; auto. intros b Hb. apply D. simpl; auto.
Qed.
Lemma edge_list_nodup x d : NoDup (edge_list x d).
Proof.
  unfold edge_list. generalize (seq_NoDup (length x) 0). generalize (seq 0 (length x)) at 1 3 as s.
  induction s as [|i s IH]; intros N; simpl; [constructor|]. inversion N; subst.
  apply nodup_app; auto.
  - apply FinFun.Injective_map_NoDup; [intros a b E; inversion E; auto|]. apply NoDup_filter, seq_NoDup.
  - intros [a b] Ha Hb. apply in_map_iff in Ha. destruct Ha as (j & E & _). inversion E; subst.
    apply in_flat_map in Hb. destruct Hb as (i' & Hi' & Hb). apply in_map_iff in Hb.
    destruct Hb as (j' & E' & _). inversion E'; subst. auto.
Qed.
Lemma edge_list_length x d : length (edge_list x d) =
  sum_nat (map (fun i => count (fun j => Nat.ltb i j && near x d i j) (seq 0 (length x))) (seq 0 (length x))).
Proof.
  unfold edge_list, count. generalize (seq 0 (length x)) at 2 4 as s.
  induction s as [|i s IH]; simpl; [reflexivity|]. rewrite app_length, map_length, IH. reflexivity.
Qed.

(** handshake lemma *)
Lemma handshake x d : sum_nat (map (degree x d) (seq 0 (length x))) = (2 * length (edge_list x d))%nat.
Proof.
  rewrite edge_list_length. set (s := seq 0 (length x)).
  set (up := fun i j : nat => (if Nat.ltb i j && near x d i j then 1 else 0)%nat).
  assert (E : sum_nat (map (degree x d) s) =
              (sum_nat (map (fun i => sum_nat (map (up i) s)) s) + sum_nat (map (fun i => sum_nat (map (fun j => up j i) s)) s))%nat).
  { rewrite <- sum_nat_map_plus. apply sum_nat_map_ext. intros i _. unfold degree.
    rewrite <- sum_nat_map_plus. rewrite <- sum_nat_b2n. apply sum_nat_map_ext. intros j _.
    unfold up. rewrite (near_sym x d j i). unfold near.
    destruct (Nat.ltb_spec i j), (Nat.ltb_spec j i), (Nat.eqb_spec i j); simpl; try lia;
      destruct (Rltb _ d); reflexivity. }
  rewrite E, <- (sum_nat_swap up s s).
  assert (E2 : sum_nat (map (fun i => sum_nat (map (up i) s)) s) =
               sum_nat (map (fun i => count (fun j => Nat.ltb i j && near x d i j) s) s)).
  { apply sum_nat_map_ext. intros i _. unfold up. apply sum_nat_b2n. }
  rewrite E2. lia.
Qed.

Lemma edges_number_correct x d : edge_count_is x d (edges_number (make_adjacency_list x d)).
Proof.
  unfold edges_number. rewrite lengths_of_adjacency, handshake, (Nat.mul_comm 2), Nat.div_mul by lia.
  exists (edge_list x d). split; [apply edge_list_nodup|]. split; [reflexivity|]. apply edge_list_in.
Qed.

(** ** Maximal and average degree *)
Lemma max_nat_ge l a : In a l -> (a <= max_nat l)%nat.
Proof. induction l as [|b l IH]; simpl; [tauto|]. intros [->|H]; [lia|]. apply IH in H. lia. Qed.
Lemma max_nat_in l : l <> [] -> In (max_nat l) l.
Proof.
  induction l as [|b l IH]; [congruence|]. intros _. destruct l as [|c l]; [simpl; lia|].
  assert (In (max_nat (c :: l)) (c :: l)) by (apply IH; discriminate).
  change (max_nat (b :: c :: l)) with (Nat.max b (max_nat (c :: l))).
  destruct (Nat.max_spec b (max_nat (c :: l))) as [[_ ->]|[_ ->]]; [right; auto|left; auto].
Qed.
Lemma max_nat_unique l m : In m l -> (forall a, In a l -> (a <= m)%nat) -> max_nat l = m.
Proof.
  intros H1 H2. apply Nat.le_antisymm; [|apply max_nat_ge, H1]. apply H2, max_nat_in.
  intros ->. destruct H1.
Qed.
Lemma max_nat_perm l1 l2 : Permutation l1 l2 -> max_nat l1 = max_nat l2.
Proof. induction 1; simpl; lia. Qed.

Lemma max_degree_eval x d : x <> [] ->
  max_degree (make_adjacency_list x d) = Ok (max_nat (map (degree x d) (seq 0 (length x)))).
Proof.
  intros H. unfold max_degree. rewrite lengths_of_adjacency.
  assert (L := make_adjacency_length x d). destruct (make_adjacency_list x d); [|reflexivity].
  destruct x; [congruence|discriminate].
Qed.
Lemma average_degree_eval x d : x <> [] ->
  average_degree (make_adjacency_list x d) = Fin (2 * INR (length (edge_list x d)) / len x).
Proof.
  intros H. unfold average_degree. assert (L := make_adjacency_length x d).
  destruct (make_adjacency_list x d) as [|row g] eqn:E; [destruct x; [congruence|discriminate]|].
  rewrite <- E in *. clear row g E. f_equal. unfold mean. unfold len at 1. rewrite map_length, L. unfold len.
  f_equal. rewrite <- (map_map (@length nat) INR), lengths_of_adjacency.
  replace (2 * INR (length (edge_list x d))) with (INR (2 * length (edge_list x d))) by (rewrite mult_INR; reflexivity).
  rewrite <- handshake. generalize (map (degree x d) (seq 0 (length x))). intros l.
  induction l as [|a l IH]; [reflexivity|]. cbn [map Rsum sum_nat fold_right]. rewrite IH. cbn [sum_nat fold_right].
  rewrite plus_INR. reflexivity.
Qed.
