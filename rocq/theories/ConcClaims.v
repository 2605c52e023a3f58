(** Claims about concurrent use of the storage. *)
From Verif Require Import Base StorageModel StorageSpec StorageProofs ConcModel ConcSpec ConcProofs.
From Coq Require Import Lia.

Lemma reachable_settled col t : (forall x, col (col x) = col x) -> reachable col t -> settled col t.
Proof. intros Hc [h ->] x Hx. apply run_rows in Hx. destruct Hx as (o & m & _ & _ & ->). simpl. apply Hc. Qed.
Lemma effs_strip i h : effects_of i (map fst h) = effs i h.
Proof.
  unfold effects_of, effs, own, eff. induction h as [|e h IH]; simpl; auto.
  destruct (Nat.eqb (fst (fst e)) i); simpl; [f_equal|]; exact IH.
Qed.
Lemma replay_strip col h : forall t, replay col (map fst h) t = replays col h t.
Proof. unfold replay, replays. induction h as [|e h IH]; simpl; intros t; auto. Qed.
Lemma effects_none i h : (forall e, In e h -> fst e <> i) -> effects_of i h = [].
Proof.
  unfold effects_of. induction h as [|e h IH]; simpl; intros H; auto.
  destruct (Nat.eqb_spec (fst e) i) as [E|E]; [elim (H e); auto|]. apply IH. auto.
Qed.

Lemma C110_serial_order_holds : forall col t0 reqs sched,
  (forall x, col (col x) = col x) -> reachable col t0 ->
  exists serial,
    d_table (exec col (start t0 reqs) sched) = replay col serial t0 /\
    (forall i, match c_result (d_clients (exec col (start t0 reqs) sched) i) with
               | Some (Ok _) => performed (reqs i) (effects_of i serial)
               | Some (Raise _) => effects_of i serial = []
               | None => replay col serial t0 = replay col (filter (fun e => negb (Nat.eqb (fst e) i)) serial) t0
               end) /\
    (forall i, ~ In (Step i) sched -> effects_of i serial = []) /\
    (forall before after, sched = before ++ after -> exists s1 s2, serial = s1 ++ s2 /\
       (forall i, c_result (d_clients (exec col (start t0 reqs) before) i) <> None -> effects_of i s2 = []) /\
       (forall i, ~ In (Step i) before -> effects_of i s1 = [])).
Proof.
  intros col t0 reqs sched Hc Ht. pose proof (reachable_settled col t0 Hc Ht) as St.
  destruct (execs col Hc t0 reqs St sched) as (h & l & I). exists (map fst h).
  split; [|split; [|split]].
  - rewrite replay_strip. apply (i_table _ _ _ _ _ _ _ I).
  - intros i. pose proof (i_client _ _ _ _ _ _ _ I i) as C. unfold client_ok in C.
    destruct (c_result _) as [[u|x]|]; rewrite ?effs_strip; auto.
    destruct C as [C _]. rewrite replay_strip.
    destruct (quiet_filter col (fun e => negb (Nat.eqb (own e) i)) h t0 (i_quiet _ _ _ _ _ _ _ I)) as [F _].
    { intros e He Hn. apply C; auto. apply negb_false_iff, Nat.eqb_eq in Hn. exact Hn. }
    rewrite <- F, <- replay_strip. f_equal. clear.
    induction h as [|e h IH]; simpl; auto. unfold own. destruct (negb (Nat.eqb (fst (fst e)) i)); simpl; [f_equal|]; exact IH.
  - intros i Hi. apply effects_none. intros e He <-. apply in_map_iff in He. destruct He as (x & <- & Hx).
    apply Hi, (i_owner _ _ _ _ _ _ _ I), Hx.
  - intros before after E. destruct (i_cut _ _ _ _ _ _ _ I before after E) as (s1 & s2 & -> & A & B).
    exists (map fst s1), (map fst s2). rewrite map_app. split; auto. split.
    + intros i Hi. apply effects_none. intros e He <-. apply in_map_iff in He. destruct He as (x & <- & Hx). apply Hi, B, Hx.
    + intros i Hi. apply effects_none. intros e He <-. apply in_map_iff in He. destruct He as (x & <- & Hx). apply Hi, A, Hx.
Qed.

Lemma filter_unique {A} (f : A -> nat) (h : list A) : (forall i, (length (filter (fun e => Nat.eqb (f e) i) h) <= 1)%nat) ->
  NoDup (map f h).
Proof.
  induction h as [|e h IH]; simpl; intros H; constructor.
  - intros He. apply in_map_iff in He. destruct He as (x & E & Hx). specialize (H (f e)). simpl in H.
    rewrite Nat.eqb_refl in H. simpl in H.
    assert (G : In x (filter (fun y => Nat.eqb (f y) (f e)) h)) by (apply filter_In; rewrite E, Nat.eqb_refl; auto).
    destruct (filter _ h); simpl in *; [contradiction|lia].
  - apply IH. intros i. specialize (H i). destruct (Nat.eqb (f e) i); simpl in H; lia.
Qed.
Lemma replay_inserts col (ms : nat -> model) h : (forall e, In e h -> snd e = Put (ms (fst e))) -> forall t,
  replay col h t = fold_left (fun t i => fst (insert_data col true t (ms i))) (map fst h) t.
Proof.
  unfold replay. induction h as [|e h IH]; simpl; intros H t; auto. rewrite (H e); auto.
Qed.

Lemma C110_inserts_serializable_holds : forall col t0 ms sched,
  (forall x, col (col x) = col x) -> reachable col t0 ->
  let final := exec col (start t0 (fun i => Store [ms i])) sched in
  (forall i, In (Step i) sched -> c_result (d_clients final i) <> None) ->
  exists order,
    NoDup order /\ (forall i, In i order <-> c_result (d_clients final i) = Some (Ok tt)) /\
    d_table final = fold_left (fun t i => fst (insert_data col true t (ms i))) order t0 /\
    (forall before after i j, sched = before ++ after ->
       c_result (d_clients (exec col (start t0 (fun i => Store [ms i])) before) i) = Some (Ok tt) ->
       In j order -> ~ In (Step j) before ->
       exists s1 s2, order = s1 ++ s2 /\ In i s1 /\ In j s2).
Proof.
  intros col t0 ms sched Hc Ht final Hd.
  destruct (C110_serial_order_holds col t0 (fun i => Store [ms i]) sched Hc Ht) as (h & A & B & O & C).
  fold final in A, B.
  assert (P : forall i, effects_of i h = [Put (ms i)] /\ c_result (d_clients final i) = Some (Ok tt) \/
                        effects_of i h = [] /\ c_result (d_clients final i) <> Some (Ok tt)).
  { intros i. specialize (B i). destruct (c_result (d_clients final i)) as [[[]|x]|] eqn:E.
    - left. auto.
    - right. split; auto. discriminate.
    - right. split; [|discriminate]. apply O. intros Hi. exact (Hd i Hi E). }
  assert (M : forall e, In e h -> In (snd e) (effects_of (fst e) h)).
  { intros e He. unfold effects_of. apply in_map, filter_In. rewrite Nat.eqb_refl. auto. }
  assert (In' : forall i, In i (map fst h) <-> c_result (d_clients final i) = Some (Ok tt)).
  { intros i. split.
    - intros Hi. apply in_map_iff in Hi. destruct Hi as (e & <- & He). specialize (M e He).
      destruct (P (fst e)) as [[_ P1]|[P1 _]]; auto. rewrite P1 in M. destruct M.
    - intros Hi. destruct (P i) as [[P1 _]|[_ P1]]; [|contradiction]. unfold effects_of in P1.
      destruct (filter (fun e => Nat.eqb (fst e) i) h) as [|e g] eqn:F; [discriminate|].
      assert (G : In e (filter (fun e => Nat.eqb (fst e) i) h)) by (rewrite F; left; auto).
      apply filter_In in G. destruct G as [G1 G2]. apply Nat.eqb_eq in G2. rewrite <- G2. apply in_map, G1. }
  exists (map fst h). split; [|split; [exact In'|split]].
  - apply filter_unique. intros i. rewrite <- (map_length snd). fold (effects_of i h).
    destruct (P i) as [[-> _]|[-> _]]; simpl; lia.
  - rewrite A. apply replay_inserts. intros e He. specialize (M e He). destruct (P (fst e)) as [[P1 _]|[P1 _]]; rewrite P1 in M.
    + destruct M as [M|[]]. auto.
    + destruct M.
  - intros before after i j E Hi Hj Nj. destruct (C before after E) as (s1 & s2 & Hs & D1 & D2).
    exists (map fst s1), (map fst s2). rewrite Hs, map_app. split; auto.
    assert (Hi' : In i (map fst h)).
    { apply In'. unfold final. rewrite E. clear - Hi. induction after as [|a after IH] using rev_ind; [rewrite app_nil_r; auto|].
      rewrite app_assoc, exec_snoc. apply act_result. exact IH. }
    assert (Q : forall k s, effects_of k s = [] -> ~ In k (map fst s)).
    { intros k s Hk Hn. apply in_map_iff in Hn. destruct Hn as (e & <- & He).
      assert (G : In (snd e) (effects_of (fst e) s)).
      { unfold effects_of. apply in_map, filter_In. rewrite Nat.eqb_refl. auto. }
      rewrite Hk in G. destruct G. }
    rewrite Hs, map_app in Hi', Hj. split.
    + apply in_app_or in Hi'. destruct Hi' as [H|H]; auto. exfalso. apply (Q i s2); auto. apply D1. congruence.
    + apply in_app_or in Hj. destruct Hj as [H|H]; auto. exfalso. apply (Q j s1); auto.
Qed.


(** a lock belongs to a running call *)
Lemma lock_live col t0 reqs sched i : d_lock (exec col (start t0 reqs) sched) = Some i ->
  In (Step i) sched /\ c_result (d_clients (exec col (start t0 reqs) sched) i) = None.
Proof.
  revert i. induction sched as [|a sched IH] using rev_ind; [discriminate|].
  intros i. rewrite exec_snoc. set (d := exec col (start t0 reqs) sched) in *.
  assert (F : forall j r t, d_lock (finish d j r t) = Some i -> In (Step i) (sched ++ [a]) /\ c_result (d_clients (finish d j r t) i) = None).
  { intros j r t. unfold finish; simpl. destruct (d_lock d) as [k|] eqn:E; [|discriminate].
    destruct (Nat.eqb_spec k j) as [->|N]; [discriminate|]. intros H. injection H as ->.
    rewrite set_other by auto. destruct (IH i eq_refl). split; auto. apply in_or_app; auto. }
  assert (G : forall j c, c_result c = None -> d_lock d = Some i ->
    In (Step i) (sched ++ [a]) /\ c_result (set (d_clients d) j c i) = None).
  { intros j c Hc H. destruct (IH i H) as [A B]. split; [apply in_or_app; auto|].
    destruct (Nat.eq_dec i j) as [->|N]; [rewrite set_same; auto|rewrite set_other; auto]. }
  assert (S0 : d_lock d = Some i -> In (Step i) (sched ++ [a]) /\ c_result (d_clients d i) = None).
  { intros H. destruct (IH i H). split; auto. apply in_or_app; auto. }
  destruct a as [j|j]; simpl.
  - assert (W : forall todo f, d_lock (write d j todo f) = Some i ->
      In (Step i) (sched ++ [Step j]) /\ c_result (d_clients (write d j todo f) i) = None).
    { intros todo f. unfold write. destruct (busy d j); [apply F|]. destruct (f _); [|apply F]. simpl. intros H. injection H as ->.
      rewrite set_same. split; auto. apply in_or_app. right; left; auto. }
    unfold step. destruct (c_result (d_clients d j)); auto.
    destruct (c_todo (d_clients d j)) as [[|m rest]|q]; auto.
    + destruct (c_seen (d_clients d j)) as [[x|]|]; auto.
      destruct (lookup _ m); [destruct (same_results _ _)|]; simpl; auto.
    + destruct (c_seen (d_clients d j)) as [[x|]|]; auto.
      destruct (get_data _ q) as [[x|]|]; [simpl; auto|apply F|apply F].
  - unfold crash. destruct (c_result (d_clients d j)); auto.
Qed.
Lemma other_client col d a i : a <> Step i -> a <> Crash i -> d_clients (act col d a) i = d_clients d i.
Proof.
  intros A B. destruct a as [j|j]; simpl.
  - assert (N : i <> j) by congruence.
    assert (W : forall todo f, d_clients (write d j todo f) i = d_clients d i).
    { intros todo f. unfold write, finish. destruct (busy d j); [|destruct (f _)]; simpl; rewrite set_other; auto. }
    unfold step. destruct (c_result (d_clients d j)); auto.
    destruct (c_todo (d_clients d j)) as [[|m rest]|q].
    + simpl. rewrite set_other; auto.
    + destruct (c_seen (d_clients d j)) as [[x|]|]; auto.
      destruct (lookup _ m); [destruct (same_results _ _)|]; simpl; rewrite set_other; auto.
    + destruct (c_seen (d_clients d j)) as [[x|]|]; auto.
      destruct (get_data _ q) as [[x|]|]; simpl; rewrite set_other; auto.
  - assert (N : i <> j) by congruence. unfold crash, finish. destruct (c_result (d_clients d j)); auto.
    simpl. rewrite set_other; auto.
Qed.
Lemma fresh_client col t0 reqs sched i : ~ In (Step i) sched -> ~ In (Crash i) sched ->
  d_clients (exec col (start t0 reqs) sched) i = Client (reqs i) None None None.
Proof.
  induction sched as [|a sched IH] using rev_ind; intros A B; [reflexivity|]. rewrite exec_snoc, other_client.
  - apply IH; intros H; [apply A|apply B]; apply in_or_app; auto.
  - intros ->. apply A, in_or_app. right; left; auto.
  - intros ->. apply B, in_or_app. right; left; auto.
Qed.
Lemma free_lock col t0 reqs sched : (forall j, In (Step j) sched -> c_result (d_clients (exec col (start t0 reqs) sched) j) <> None) ->
  d_lock (exec col (start t0 reqs) sched) = None.
Proof.
  intros H. destruct (d_lock _) as [i|] eqn:E; auto. apply lock_live in E. destruct E as [E1 E2]. elim (H i E1 E2).
Qed.
Lemma exec_app col d s s' : exec col d (s ++ s') = exec col (exec col d s) s'.
Proof. apply fold_left_app. Qed.

Lemma C110_store_alone_holds : forall col t0 reqs sched i ms k,
  (forall x, col (col x) = col x) -> reachable col t0 ->
  (forall j, In (Step j) sched -> c_result (d_clients (exec col (start t0 reqs) sched) j) <> None) ->
  ~ In (Step i) sched -> ~ In (Crash i) sched -> reqs i = Store ms -> (2 * length ms + 1 <= k)%nat ->
  let t := d_table (exec col (start t0 reqs) sched) in
  let final := exec col (start t0 reqs) (sched ++ repeat (Step i) k) in
  (d_table final, c_result (d_clients final i)) =
    (fst (insert_bulk_data col None t ms), Some (snd (insert_bulk_data col None t ms))).
Proof.
  intros col t0 reqs sched i ms k Hc Ht Hd N1 N2 E Hk t final.
  pose proof (reachable_settled col t0 Hc Ht) as St.
  destruct (execs col Hc t0 reqs St sched) as (h & l & I).
  pose proof (fresh_client col t0 reqs sched i N1 N2) as Fr. pose proof (free_lock _ _ _ _ Hd) as Lk.
  unfold final, t. rewrite exec_app. set (d := exec col (start t0 reqs) sched) in *.
  assert (V : view d (d_clients d i) = d_table d) by (unfold view; rewrite Fr; reflexivity).
  destruct (store_alone col Hc i ms d k) as [A B]; auto; try (rewrite Fr; simpl; congruence).
  - unfold busy. rewrite Lk. reflexivity.
  - apply (view_settled col Hc t0 reqs St sched d h l i I).
  - rewrite A, B, V. unfold insert_bulk_data. destruct ms; reflexivity.
Qed.
Lemma C110_delete_alone_holds : forall col t0 reqs sched i q k,
  (forall j, In (Step j) sched -> c_result (d_clients (exec col (start t0 reqs) sched) j) <> None) ->
  ~ In (Step i) sched -> ~ In (Crash i) sched -> reqs i = Delete q -> (3 <= k)%nat ->
  let t := d_table (exec col (start t0 reqs) sched) in
  let final := exec col (start t0 reqs) (sched ++ repeat (Step i) k) in
  (d_table final, c_result (d_clients final i)) = (fst (delete_data true t q), Some (snd (delete_data true t q))).
Proof.
  intros col t0 reqs sched i q k Hd N1 N2 E Hk t final. unfold final, t. clear final t.
  pose proof (fresh_client col t0 reqs sched i N1 N2) as Fr. pose proof (free_lock _ _ _ _ Hd) as Lk.
  rewrite exec_app. set (d := exec col (start t0 reqs) sched) in *. clearbody d. rewrite E in Fr. clear Hd.
  destruct k as [|[|[|k]]]; try lia.
  rewrite !exec_S. unfold delete_data.
  assert (X : step col d i = match get_data (d_table d) q with
      | Raise e => finish d i (Raise e) (d_table d)
      | Ok None => finish d i (Ok tt) (d_table d)
      | Ok (Some r) => Db (d_table d) (set (d_clients d) i (Client (Delete q) (Some (Some r)) None None)) None
      end).
  { unfold step. rewrite Fr. simpl. rewrite Lk. reflexivity. }
  rewrite X. destruct (get_data (d_table d) q) as [[r|]|e].
  - assert (Y : forall t c, step col (step col (Db t (set c i (Client (Delete q) (Some (Some r)) None None)) None) i) i =
      finish (Db t (set (set c i (Client (Delete q) (Some (Some r)) None None)) i
        (Client (Store []) None (Some (filter (fun x => negb (same_key x r)) t)) None)) (Some i)) i (Ok tt)
        (filter (fun x => negb (same_key x r)) t)).
    { intros t c. unfold step at 2. simpl. rewrite set_same. simpl. unfold write, busy. simpl. unfold view. simpl.
      rewrite set_same. simpl. unfold step. simpl. rewrite set_same. simpl. unfold view. simpl. reflexivity. }
    rewrite Y, (done_stays col i k _ (Ok tt)); simpl; rewrite ?set_same; reflexivity.
  - change (exec col (step col (step col (finish d i (Ok tt) (d_table d)) i) i) (repeat (Step i) k)) with
      (exec col (finish d i (Ok tt) (d_table d)) (repeat (Step i) (S (S k)))).
    rewrite (done_stays col i _ _ (Ok tt)); simpl; rewrite ?set_same; reflexivity.
  - change (exec col (step col (step col (finish d i (Raise e) (d_table d)) i) i) (repeat (Step i) k)) with
      (exec col (finish d i (Raise e) (d_table d)) (repeat (Step i) (S (S k)))).
    rewrite (done_stays col i _ _ (Raise e)); simpl; rewrite ?set_same; reflexivity.
Qed.

(** where a delete stands *)
Definition delete_phase (col : list R -> list R) (t0 : table) (reqs : nat -> request) (i : nat) (q : query) (sched : list action) : Prop :=
  let c := d_clients (exec col (start t0 reqs) sched) i in
  match c_result c with
  | None =>
    (c = Client (Delete q) None None None /\ ~ In (Step i) sched)
    \/ (exists before after, sched = before ++ Step i :: after /\ ~ In (Step i) before /\ exists r,
          get_data (d_table (exec col (start t0 reqs) before)) q = Ok (Some r) /\
          (c = Client (Delete q) (Some (Some r)) None None \/
           exists w, c = Client (Store []) None (Some w) None /\ forall x, In x w -> ~ key_eq x r))
  | Some (Ok _) =>
    exists before after, sched = before ++ Step i :: after /\ ~ In (Step i) before /\
      (get_data (d_table (exec col (start t0 reqs) before)) q = Ok None \/
       exists r mid after', get_data (d_table (exec col (start t0 reqs) before)) q = Ok (Some r) /\
         after = mid ++ Step i :: after' /\
         forall x, In x (d_table (exec col (start t0 reqs) (before ++ Step i :: mid ++ [Step i]))) -> ~ key_eq x r)
  | Some (Raise _) => True
  end.
Lemma delete_phases col t0 reqs i q sched : reqs i = Delete q -> delete_phase col t0 reqs i q sched.
Proof.
  intros E. induction sched as [|a sched IH] using rev_ind.
  - unfold delete_phase. simpl. rewrite E. left. auto.
  - unfold delete_phase in *. cbv zeta in *.
    assert (K : d_clients (exec col (start t0 reqs) (sched ++ [a])) i = d_clients (exec col (start t0 reqs) sched) i ->
       (In (Step i) [a] -> c_result (d_clients (exec col (start t0 reqs) sched) i) <> None) ->
       delete_phase col t0 reqs i q (sched ++ [a])).
    { intros K1 K2. unfold delete_phase. cbv zeta. rewrite K1.
      destruct (c_result (d_clients (exec col (start t0 reqs) sched) i)) as [[u|x]|].
      - destruct IH as (b & f & -> & Nb & H). exists b, (f ++ [a]). rewrite <- app_assoc. split; auto. split; auto.
        destruct H as [H|(r & mid & f' & H1 & -> & H2)]; auto. right. exists r, mid, (f' ++ [a]).
        rewrite <- app_assoc. auto.
      - exact I.
      - assert (Na : ~ In (Step i) [a]) by (intros Ha; exact (K2 Ha eq_refl)).
        destruct IH as [(C & Ni)|(b & f & -> & Nb & H)]; [left|right].
        + split; auto. intros Hi. apply in_app_or in Hi. tauto.
        + exists b, (f ++ [a]). rewrite <- app_assoc. auto. }
    destruct (c_result (d_clients (exec col (start t0 reqs) sched) i)) as [r|] eqn:N.
    { apply K; [|congruence]. rewrite exec_snoc. destruct a as [j|j]; simpl.
      - destruct (Nat.eq_dec j i) as [->|Nj].
        + unfold step. rewrite N. reflexivity.
        + apply (other_client col _ (Step j)); congruence.
      - destruct (Nat.eq_dec j i) as [->|Nj].
        + unfold crash. rewrite N. reflexivity.
        + apply (other_client col _ (Crash j)); congruence. }
    destruct a as [j|j]; (destruct (Nat.eq_dec j i) as [->|Nj];
      [|apply K; [rewrite exec_snoc; apply other_client; congruence|intros [Hj|[]]; congruence]]).
    + rewrite exec_snoc. simpl act. set (d := exec col (start t0 reqs) sched) in *.
      destruct IH as [(C & Ni)|(b & f & Es & Nb & r & G & [C|(w & C & Hw)])]; rewrite C in *.
      * unfold step. rewrite C. simpl. unfold view. simpl. destruct (get_data (d_table d) q) as [[r|]|e] eqn:G; simpl; rewrite ?set_same; simpl; auto.
        -- right. exists sched, []. split; auto. split; auto. exists r. auto.
        -- exists sched, []. auto.
      * unfold step. rewrite C. simpl. unfold write. destruct (busy d i); simpl; rewrite ?set_same; simpl; auto.
        right. exists b, (f ++ [Step i]). rewrite Es, <- app_assoc. split; auto. split; auto. exists r. split; auto. right.
        eexists. split; [reflexivity|]. intros x Hx Hk. apply filter_In in Hx. destruct Hx as [_ Hx].
        apply negb_true_iff in Hx. apply same_key_iff in Hk. congruence.
      * unfold step. rewrite C. simpl. rewrite set_same. simpl.
        exists b, (f ++ [Step i]). rewrite Es, <- app_assoc. split; auto. split; auto. right.
        exists r, f, []. split; auto. split; auto. intros x.
        replace (b ++ Step i :: f ++ [Step i]) with (sched ++ [Step i]) by (rewrite Es, <- app_assoc; reflexivity).
        rewrite exec_snoc. fold d. unfold act, step. rewrite C. simpl. unfold view. simpl. apply Hw.
    + rewrite exec_snoc. unfold act, crash. rewrite N. simpl. rewrite set_same. simpl. exact I.
Qed.
Lemma C110_delete_removes_what_it_read_holds : forall col t0 reqs sched i q, reqs i = Delete q ->
  c_result (d_clients (exec col (start t0 reqs) sched) i) = Some (Ok tt) ->
  exists before after, sched = before ++ Step i :: after /\ ~ In (Step i) before /\
    (get_data (d_table (exec col (start t0 reqs) before)) q = Ok None \/
     exists r mid after', get_data (d_table (exec col (start t0 reqs) before)) q = Ok (Some r) /\
       after = mid ++ Step i :: after' /\
       forall x, In x (d_table (exec col (start t0 reqs) (before ++ Step i :: mid ++ [Step i]))) -> ~ key_eq x r).
Proof.
  intros col t0 reqs sched i q E H. pose proof (delete_phases col t0 reqs i q sched E) as P.
  unfold delete_phase in P. cbv zeta in P. rewrite H in P. exact P.
Qed.

(** two bulk inserts: the second runs between the first one's two lookups *)
Definition bulk_a := [key1 [1]; key2 [3]].
Definition bulk_b := [key1 [2]; key2 [4]].
Definition between : list action := [Step 0; Step 1; Step 1; Step 1; Step 1; Step 1; Step 0; Step 0; Step 0]%nat.
Lemma diff_results x y : x <> y -> same_results [x] [y] = false.
Proof. intros H. unfold same_results. destruct (list_eq_dec Req_EM_T [x] [y]); congruence. Qed.
Lemma same_one x : same_results [x] [x] = true.
Proof. apply same_results_true. reflexivity. Qed.
Notation mid_state := (exec (fun x => x) (start [key1 [1]] (two_calls (Store bulk_a) (Store bulk_b))) between).
Ltac stepping := unfold exec; cbn -[same_results]; rewrite ?same_one, ?(diff_results 1 2), ?(diff_results 4 3) by lra;
  cbn -[same_results]; rewrite ?same_one, ?(diff_results 1 2), ?(diff_results 4 3) by lra; cbn -[same_results];
  rewrite ?same_one, ?(diff_results 1 2), ?(diff_results 4 3) by lra; cbn -[same_results].
Lemma mid_table : d_table mid_state = [key1 [2]; key2 [3]].
Proof. stepping. reflexivity. Qed.
Lemma mid_results : c_result (d_clients mid_state 0%nat) = Some (Ok tt) /\ c_result (d_clients mid_state 1%nat) = Some (Ok tt).
Proof. split; stepping; reflexivity. Qed.
Lemma C110_bulk_isolation_refuted_holds :
  let id := fun x : list R => x in
  exists t0 a b sched, reachable id t0 /\
    let final := exec id (start t0 (two_calls (Store a) (Store b))) sched in
    c_result (d_clients final 0%nat) = Some (Ok tt) /\ c_result (d_clients final 1%nat) = Some (Ok tt) /\
    d_table final <> fst (insert_bulk_data id None (fst (insert_bulk_data id None t0 a)) b) /\
    d_table final <> fst (insert_bulk_data id None (fst (insert_bulk_data id None t0 b)) a).
Proof.
  intros id. exists [key1 [1]], bulk_a, bulk_b, between. split; [exists [OInsert true (key1 [1])]; reflexivity|].
  cbv zeta. subst id. destruct mid_results as [A B]. rewrite mid_table.
  split; [exact A|]. split; [exact B|]. split.
  - change (fst (insert_bulk_data (fun x => x) None (fst (insert_bulk_data (fun x => x) None [key1 [1]] bulk_a)) bulk_b)) with [key1 [2]; key2 [4]].
    intros H. assert (E : m_results (nth 1 [key1 [2]; key2 [3]] (key1 [])) = m_results (nth 1 [key1 [2]; key2 [4]] (key1 [])))
      by (rewrite H; reflexivity). simpl in E. injection E. lra.
  - change (fst (insert_bulk_data (fun x => x) None (fst (insert_bulk_data (fun x => x) None [key1 [1]] bulk_b)) bulk_a)) with [key1 [1]; key2 [3]].
    intros H. assert (E : m_results (nth 0 [key1 [2]; key2 [3]] (key1 [])) = m_results (nth 0 [key1 [1]; key2 [3]] (key1 [])))
      by (rewrite H; reflexivity). simpl in E. injection E. lra.
Qed.
(** two inserts of the same new model: the one that looked before the other committed is refused, the table holds one row *)
Lemma C110_nonvacuous_conflict_holds :
  let id := fun x : list R => x in
  let final := exec id (start [] (two_calls (Store [key1 [1]]) (Store [key1 [2]])))
    [Step 0; Step 1; Step 0; Step 0; Step 1]%nat in
  d_table final = [key1 [1]] /\ c_result (d_clients final 0%nat) = Some (Ok tt) /\
  c_result (d_clients final 1%nat) = Some (Raise DbError).
Proof. intros id final. unfold final, id. split; [|split]; stepping; reflexivity. Qed.
(** a process that dies between its write and its commit leaves neither a row nor a lock; a delete that waited goes on *)
Lemma C110_nonvacuous_crash_holds :
  let id := fun x : list R => x in
  let q := {| q_code := "KS"; q_params := []; q_size := 10; q_count := 1 |} in
  let final := exec id (start [key1 [1]] (two_calls (Store [key2 [1]]) (Delete q)))
    [Step 1; Step 0; Step 0; Crash 0; Step 1; Step 1]%nat in
  d_table final = [] /\ c_result (d_clients final 0%nat) = Some (Raise DbError) /\
  c_result (d_clients final 1%nat) = Some (Ok tt) /\ d_lock final = None.
Proof. intros id q final. unfold final, id, q. split; [|split; [|split]]; stepping; reflexivity. Qed.
