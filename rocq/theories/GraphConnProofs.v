(** The depth first search of the connected components statistic. *)
From Verif Require Import Base GraphModel GraphSpec GraphProofs.

Lemma memb_true v s : memb v s = true <-> In v s.
Proof. unfold memb. destruct (in_dec Nat.eq_dec v s); split; intros; auto; discriminate. Qed.
Lemma memb_false v s : memb v s = false <-> ~ In v s.
Proof. unfold memb. destruct (in_dec Nat.eq_dec v s); split; intros; auto; try discriminate; tauto. Qed.

(** ** Reachability in an adjacency list *)
Inductive reach (g : list (list nat)) : nat -> nat -> Prop :=
| reach_refl v : reach g v v
| reach_step v w u : In w (nth v g []) -> reach g w u -> reach g v u.
Lemma reach_trans g u v w : reach g u v -> reach g v w -> reach g u w.
Proof. induction 1; auto. intros H1. eapply reach_step; eauto. Qed.

Lemma sum_nat_cons a l : sum_nat (a :: l) = (a + sum_nat l)%nat.
Proof. reflexivity. Qed.

(** work left: the stack plus the rows of the vertices not yet visited *)
Definition pending (g : list (list nat)) (visited : list nat) : nat :=
  sum_nat (map (fun v => if memb v visited then 0 else length (nth v g [])) (seq 0 (length g)))%nat.
Lemma pending_le g visited : (pending g visited <= sum_nat (map (@length nat) g))%nat.
Proof.
  unfold pending. rewrite <- (map_nth_seq g []) at 2. rewrite map_map.
  induction (seq 0 (length g)) as [|v s IH]; simpl; [lia|]. destruct (memb v visited); lia.
Qed.
Lemma pending_visit g visited v : (v < length g)%nat -> ~ In v visited ->
  pending g visited = (length (nth v g []) + pending g (v :: visited))%nat.
Proof.
  intros Hv Hn. unfold pending.
  assert (Hs : In v (seq 0 (length g))) by (apply in_seq; lia).
  assert (N := seq_NoDup (length g) 0). induction (seq 0 (length g)) as [|w s IH]; [destruct Hs|].
  inversion N as [|? ? Hw N']; subst. cbn [map]. rewrite !sum_nat_cons.
  destruct (Nat.eq_dec w v) as [->|D].
  - rewrite (proj2 (memb_false _ _) Hn), (proj2 (memb_true v (v :: visited))) by (left; auto).
    f_equal. rewrite Nat.add_0_l. apply sum_nat_map_ext. intros u Hu.
    assert (u <> v) by (intros ->; auto).
    destruct (memb u visited) eqn:E.
    + apply memb_true in E. rewrite (proj2 (memb_true _ _)) by (right; auto). reflexivity.
    + apply memb_false in E. rewrite (proj2 (memb_false _ _)); [reflexivity|]. simpl. intuition congruence.
  - destruct Hs as [->|Hs]; [congruence|]. rewrite IH by auto.
    destruct (memb w visited) eqn:E.
    + apply memb_true in E. rewrite (proj2 (memb_true _ _)) by (right; auto). lia.
    + apply memb_false in E. rewrite (proj2 (memb_false w (v :: visited))); [lia|]. simpl. intuition congruence.
Qed.

Lemma filter_len {A} (P : A -> bool) l : (length (filter P l) <= length l)%nat.
Proof. induction l; simpl; [lia|]. destruct (P a); simpl; lia. Qed.

(** every row mentions existing vertices only *)
Definition well_formed (g : list (list nat)) : Prop :=
  forall v w, (v < length g)%nat -> In w (nth v g []) -> (w < length g)%nat.

(** ** The fuel is sufficient *)
Lemma dfs_fuel g : well_formed g -> forall fuel visited stack,
  (forall v, In v stack -> (v < length g)%nat) ->
  (length stack + pending g visited <= fuel)%nat -> exists visited', dfs fuel g visited stack = Some visited'.
Proof.
  intros W. induction fuel as [|fuel IH]; intros visited stack Hs Hf.
  - destruct stack; [exists visited; reflexivity|simpl in Hf; lia].
  - destruct stack as [|v rest]; [exists visited; reflexivity|]. cbn [dfs].
    assert (Hv : (v < length g)%nat) by (apply Hs; simpl; auto).
    destruct (memb v visited) eqn:E.
    + apply IH; [intros; apply Hs; simpl; auto|simpl in Hf; lia].
    + apply memb_false in E. apply IH.
      * intros w Hw. apply in_app_iff in Hw. destruct Hw as [Hw|Hw]; [|apply Hs; simpl; auto].
        rewrite <- in_rev in Hw. apply filter_In in Hw. apply (W v w); tauto.
      * rewrite app_length, rev_length. rewrite (pending_visit g visited v) in Hf by auto. simpl in Hf.
        assert (L := filter_len (fun w => negb (memb w (v :: visited))) (nth v g [])). lia.
Qed.

(** ** What the search computes *)
Lemma dfs_correct g : forall fuel visited stack visited',
  dfs fuel g visited stack = Some visited' ->
  (forall v w, In v visited -> In w (nth v g []) -> In w visited \/ In w stack) ->
  incl visited visited' /\ incl stack visited' /\
  (forall v w, In v visited' -> In w (nth v g []) -> In w visited') /\
  (forall v, In v visited' -> In v visited \/ exists s, In s stack /\ reach g s v).
Proof.
  induction fuel as [|fuel IH]; intros visited stack visited' H I.
  - destruct stack; simpl in H; [|discriminate]. inversion H; subst.
    split; [apply incl_refl|]. split; [intros v []|]. split; [|auto].
    intros v w Hv Hw. destruct (I v w Hv Hw) as [|[]]; auto.
  - destruct stack as [|v rest]; simpl in H.
    + inversion H; subst. split; [apply incl_refl|]. split; [intros u []|]. split; [|auto].
      intros u w Hu Hw. destruct (I u w Hu Hw) as [|[]]; auto.
    + destruct (memb v visited) eqn:E.
      * apply memb_true in E. apply IH in H.
        -- destruct H as (A & B & C & D). split; [exact A|]. split; [|split; [exact C|]].
           ++ intros u [->|Hu]; auto.
           ++ intros u Hu. destruct (D u Hu) as [|(s & Hs & R)]; auto. right. exists s. simpl; auto.
        -- intros u w Hu Hw. destruct (I u w Hu Hw) as [|[->|]]; auto.
      * apply memb_false in E. apply IH in H.
        -- destruct H as (A & B & C & D). split; [|split; [|split; [exact C|]]].
           ++ intros u Hu. apply A. simpl; auto.
           ++ intros u [->|Hu]; [apply A; simpl; auto|]. apply B, in_app_iff. auto.
           ++ intros u Hu. destruct (D u Hu) as [[->|Hv]|(s & Hs & R)]; auto.
              ** right. exists u. split; [simpl; auto|constructor].
              ** right. apply in_app_iff in Hs. destruct Hs as [Hs|Hs].
                 --- rewrite <- in_rev in Hs. apply filter_In in Hs. exists v. split; [simpl; auto|].
                     eapply reach_step; [apply Hs|exact R].
                 --- exists s. simpl; auto.
        -- intros u w [->|Hu] Hw.
           ++ destruct (memb w (u :: visited)) eqn:M.
              ** left. apply memb_true, M.
              ** right. apply in_app_iff. left. rewrite <- in_rev. apply filter_In. rewrite M. auto.
           ++ destruct (I u w Hu Hw) as [|[->|]].
              ** left; right; auto.
              ** left; left; auto.
              ** right. apply in_app_iff. auto.
Qed.

(** ** Counting components: the set visited so far is a union of whole components *)
Definition symmetric_graph (g : list (list nat)) : Prop :=
  forall v w, (v < length g)%nat -> In w (nth v g []) -> In v (nth w g []).

Lemma closed_reach g s : (forall v w, In v s -> In w (nth v g []) -> In w s) ->
  forall v w, reach g v w -> In v s -> In w s.
Proof. intros C v w R. induction R; auto. intros Hv. apply IHR. eapply C; eauto. Qed.

Lemma row_out (g : list (list nat)) v : (length g <= v)%nat -> nth v g [] = [].
Proof. apply nth_overflow. Qed.
Lemma reach_sym g : symmetric_graph g -> well_formed g -> forall v w, reach g v w -> reach g w v.
Proof.
  intros S W v w R. induction R as [|v w u Hw R IH]; [constructor|].
  assert (Hv : (v < length g)%nat).
  { destruct (Nat.lt_ge_cases v (length g)) as [L|L]; auto. rewrite (row_out g v L) in Hw. destruct Hw. }
  eapply reach_trans; [exact IH|]. eapply reach_step; [apply S; eauto|constructor].
Qed.

Lemma cc_invariant g : well_formed g -> symmetric_graph g -> forall k, (k <= length g)%nat ->
  exists visited reps, fold_left (cc_step g) (seq 0 k) (Some ([], 0%nat)) = Some (visited, length reps) /\
    NoDup reps /\ (forall r, In r reps -> (r < k)%nat) /\
    (forall v w, In v visited -> In w (nth v g []) -> In w visited) /\
    (forall v, In v visited <-> exists r, In r reps /\ reach g v r) /\
    (forall r s, In r reps -> In s reps -> reach g r s -> r = s) /\
    (forall v, (v < k)%nat -> In v visited).
Proof.
  intros W S. induction k as [|k IH]; intros Hk.
  - exists [], []. simpl. repeat split; auto; try tauto; try constructor; try lia.
    intros (r & [] & _).
  - destruct IH as (visited & reps & E & N & Hr & C & V & P & A); [lia|].
    rewrite seq_S, fold_left_app, E. cbn [plus fold_left cc_step].
    destruct (memb k visited) eqn:M.
    + apply memb_true in M. exists visited, reps. repeat split; auto; try (apply V).
      * intros r H. apply Hr in H. lia.
      * intros v Hv. destruct (Nat.eq_dec v k) as [->|]; auto. apply A. lia.
    + apply memb_false in M.
      destruct (dfs_fuel g W (Datatypes.S (sum_nat (map (@length nat) g))) visited [k]) as [visited' F].
      { intros v [<-|[]]. lia. }
      { simpl. assert (L := pending_le g visited). lia. }
      rewrite F. exists visited', (k :: reps). split; [reflexivity|].
      apply dfs_correct in F; [|intros v w Hv Hw; left; eauto].
      destruct F as (F1 & F2 & F3 & F4).
      split; [constructor; auto; intros H; apply Hr in H; lia|].
      split; [intros r [<-|H]; [lia|apply Hr in H; lia]|].
      split; [exact F3|].
      split; [|split].
      * intros v. split.
        -- intros Hv. destruct (F4 v Hv) as [H|(s & [<-|[]] & R)].
           ++ apply V in H. destruct H as (r & Hr' & R). exists r. simpl; auto.
           ++ exists k. split; [simpl; auto|]. apply reach_sym; auto.
        -- intros (r & [<-|Hr'] & R).
           ++ apply (closed_reach g visited' F3 k v); [apply reach_sym; auto|]. apply F2. simpl; auto.
           ++ apply F1. apply V. eauto.
      * intros r s [<-|H1] [<-|H2] R; auto.
        -- exfalso. apply M. apply V. eauto.
        -- exfalso. apply M. apply V. exists r. split; auto. apply reach_sym; auto.
      * intros v Hv. destruct (Nat.eq_dec v k) as [->|]; [apply F2; simpl; auto|].
        apply F1, A. lia.
Qed.

(** ** Proximity graphs *)
Lemma prox_well_formed x d : well_formed (make_adjacency_list x d).
Proof.
  intros v w Hv Hw. rewrite make_adjacency_length in *. apply row_in in Hw; auto. destruct Hw as (_ & H & _). exact H.
Qed.
Lemma prox_symmetric x d : symmetric_graph (make_adjacency_list x d).
Proof.
  intros v w Hv Hw. rewrite make_adjacency_length in *. apply row_in in Hw; auto.
  apply row_in; [apply Hw|]. apply adjacent_sym, Hw.
Qed.
Lemma reach_connected x d v w : reach (make_adjacency_list x d) v w -> connected x d v w.
Proof.
  induction 1 as [|v w u Hw R IH]; [constructor|].
  assert (Hv : (v < length x)%nat).
  { destruct (Nat.lt_ge_cases v (length x)) as [L|L]; auto.
    rewrite row_out in Hw; [destruct Hw|]. rewrite make_adjacency_length. exact L. }
  eapply connected_step; [apply row_in; eauto|exact IH].
Qed.
Lemma connected_reach x d v w : connected x d v w -> reach (make_adjacency_list x d) v w.
Proof.
  induction 1 as [|i j k A C IH]; [constructor|]. eapply reach_step; [|exact IH].
  apply row_in; [apply A|exact A].
Qed.

Lemma connected_trans x d i j k : connected x d i j -> connected x d j k -> connected x d i k.
Proof. induction 1; auto. intros. econstructor; eauto. Qed.
Lemma connected_sym x d i j : connected x d i j -> connected x d j i.
Proof.
  induction 1 as [|i j k A C IH]; [constructor|]. eapply connected_trans; [exact IH|].
  econstructor; [apply adjacent_sym, A|constructor].
Qed.

Lemma connected_components_correct x d :
  exists k, connected_components (make_adjacency_list x d) = Some k /\ component_count_is x d k.
Proof.
  destruct (cc_invariant (make_adjacency_list x d) (prox_well_formed x d) (prox_symmetric x d)
              (length (make_adjacency_list x d)) (le_n _)) as (visited & reps & E & N & Hr & C & V & P & A).
  exists (length reps). split; [unfold connected_components; rewrite E; reflexivity|].
  rewrite make_adjacency_length in *. exists reps. repeat split; auto.
  - intros r s H1 H2 H. apply P; auto. apply connected_reach, H.
  - intros i Hi. apply A, V in Hi. destruct Hi as (r & H1 & H2). exists r. split; auto. apply reach_connected, H2.
Qed.

(** the number of components is determined *)
Lemma component_count_le x d k1 k2 : component_count_is x d k1 -> component_count_is x d k2 -> (k1 <= k2)%nat.
Proof.
  intros (r1 & N1 & <- & B1 & P1 & C1) (r2 & N2 & <- & B2 & P2 & C2).
  assert (F : forall l, NoDup l -> incl l r1 ->
    exists l', NoDup l' /\ length l' = length l /\ incl l' r2 /\ forall r, In r l' -> exists s, In s l /\ connected x d s r).
  { induction l as [|a l IH]; intros N I.
    - exists []. repeat split; auto; try constructor; intros r [].
    - inversion N as [|? ? Ha N']; subst. destruct IH as (l' & L1 & L2 & L3 & L4); auto.
      { intros b Hb. apply I. simpl; auto. }
      destruct (C2 a) as (b & Hb & R); [apply B1, I; simpl; auto|].
      exists (b :: l'). split; [constructor; auto|].
      + intros H. destruct (L4 b H) as (s & Hs & R').
        assert (a = s).
        { apply P1; [apply I; simpl; auto|apply I; simpl; auto|].
          eapply connected_trans; [exact R|]. apply connected_sym, R'. }
        subst. auto.
      + split; [simpl; lia|]. split; [intros c [<-|Hc]; auto|].
        intros r [<-|Hr]; [exists a; simpl; auto|]. destruct (L4 r Hr) as (s & Hs & Rs). exists s. simpl; auto. }
  destruct (F r1 N1 (incl_refl _)) as (l' & L1 & <- & L3 & _). apply NoDup_incl_length; auto.
Qed.
Lemma component_count_unique x d k1 k2 : component_count_is x d k1 -> component_count_is x d k2 -> k1 = k2.
Proof. intros H1 H2. apply Nat.le_antisymm; eapply component_count_le; eauto. Qed.
