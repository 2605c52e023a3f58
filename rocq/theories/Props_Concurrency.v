(** Concurrent use of the limit distribution storage: theorems. *)
From Coq Require Import Lia.
From Verif Require Import Base StorageModel StorageSpec StorageProofs ConcModel ConcSpec ConcProofs ConcClaims.
From Coq Require Import Lra Lia.


Theorem C110_serial_order : forall col t0 reqs sched,
  (forall x, col (col x) = col x) -> reachable col t0 ->
  exists serial,
    d_table (exec col (start t0 reqs) sched) = replay col serial t0 /\
    (forall i, match c_result (d_clients (exec col (start t0 reqs) sched) i) with
               | Some (Ok _) => performed (reqs i) (effects_of i serial)
               | Some (Raise _) => effects_of i serial = []
               | None => replay col serial t0 = replay col (filter (fun e => negb (Nat.eqb (fst e) i)) serial) t0
               end) /\
    (forall i, ~ In (Step i) sched -> effects_of i serial = []) /\
    (forall before after, sched = before ++ after -> exists s1 s2, serial = s1 ++ s2 /\
       (forall i, c_result (d_clients (exec col (start t0 reqs) before) i) <> None -> effects_of i s2 = []) /\
       (forall i, ~ In (Step i) before -> effects_of i s1 = [])).
Proof. exact C110_serial_order_holds. Qed.
Print Assumptions C110_serial_order.
Theorem C110_inserts_serializable : forall col t0 ms sched,
  (forall x, col (col x) = col x) -> reachable col t0 ->
  let final := exec col (start t0 (fun i => Store [ms i])) sched in
  (forall i, In (Step i) sched -> c_result (d_clients final i) <> None) ->
  exists order,
    NoDup order /\ (forall i, In i order <-> c_result (d_clients final i) = Some (Ok tt)) /\
    d_table final = fold_left (fun t i => fst (insert_data col true t (ms i))) order t0 /\
    (forall before after i j, sched = before ++ after ->
       c_result (d_clients (exec col (start t0 (fun i => Store [ms i])) before) i) = Some (Ok tt) ->
       In j order -> ~ In (Step j) before ->
       exists s1 s2, order = s1 ++ s2 /\ In i s1 /\ In j s2).
Proof. exact C110_inserts_serializable_holds. Qed.
Print Assumptions C110_inserts_serializable.
Theorem C110_store_alone : forall col t0 reqs sched i ms k,
  (forall x, col (col x) = col x) -> reachable col t0 ->
  (forall j, In (Step j) sched -> c_result (d_clients (exec col (start t0 reqs) sched) j) <> None) ->
  ~ In (Step i) sched -> ~ In (Crash i) sched -> reqs i = Store ms -> (2 * length ms + 1 <= k)%nat ->
  let t := d_table (exec col (start t0 reqs) sched) in
  let final := exec col (start t0 reqs) (sched ++ repeat (Step i) k) in
  (d_table final, c_result (d_clients final i)) =
    (fst (insert_bulk_data col None t ms), Some (snd (insert_bulk_data col None t ms))).
Proof. exact C110_store_alone_holds. Qed.
Print Assumptions C110_store_alone.
Theorem C110_delete_alone : forall col t0 reqs sched i q k,
  (forall j, In (Step j) sched -> c_result (d_clients (exec col (start t0 reqs) sched) j) <> None) ->
  ~ In (Step i) sched -> ~ In (Crash i) sched -> reqs i = Delete q -> (3 <= k)%nat ->
  let t := d_table (exec col (start t0 reqs) sched) in
  let final := exec col (start t0 reqs) (sched ++ repeat (Step i) k) in
  (d_table final, c_result (d_clients final i)) = (fst (delete_data true t q), Some (snd (delete_data true t q))).
Proof. exact C110_delete_alone_holds. Qed.
Print Assumptions C110_delete_alone.
Theorem C110_delete_removes_what_it_read : forall col t0 reqs sched i q, reqs i = Delete q ->
  c_result (d_clients (exec col (start t0 reqs) sched) i) = Some (Ok tt) ->
  exists before after, sched = before ++ Step i :: after /\ ~ In (Step i) before /\
    (get_data (d_table (exec col (start t0 reqs) before)) q = Ok None \/
     exists r mid after', get_data (d_table (exec col (start t0 reqs) before)) q = Ok (Some r) /\
       after = mid ++ Step i :: after' /\
       forall x, In x (d_table (exec col (start t0 reqs) (before ++ Step i :: mid ++ [Step i]))) -> ~ key_eq x r).
Proof. exact C110_delete_removes_what_it_read_holds. Qed.
Print Assumptions C110_delete_removes_what_it_read.
Theorem C110_bulk_isolation_refuted : let id := fun x : list R => x in
  exists t0 a b sched, reachable id t0 /\
    let final := exec id (start t0 (two_calls (Store a) (Store b))) sched in
    c_result (d_clients final 0%nat) = Some (Ok tt) /\ c_result (d_clients final 1%nat) = Some (Ok tt) /\
    d_table final <> fst (insert_bulk_data id None (fst (insert_bulk_data id None t0 a)) b) /\
    d_table final <> fst (insert_bulk_data id None (fst (insert_bulk_data id None t0 b)) a).
Proof. exact C110_bulk_isolation_refuted_holds. Qed.
Print Assumptions C110_bulk_isolation_refuted.
(** two inserts of the same new model: the one that looked before the other committed is refused, the table holds one row *)
Example C110_nonvacuous_conflict : let id := fun x : list R => x in
  let final := exec id (start [] (two_calls (Store [key1 [1]]) (Store [key1 [2]])))
    [Step 0; Step 1; Step 0; Step 0; Step 1]%nat in
  d_table final = [key1 [1]] /\ c_result (d_clients final 0%nat) = Some (Ok tt) /\
  c_result (d_clients final 1%nat) = Some (Raise DbError).
Proof. exact C110_nonvacuous_conflict_holds. Qed.
(** a process that dies between its write and its commit leaves neither a row nor a lock; a delete that waited goes on *)
Example C110_nonvacuous_crash : let id := fun x : list R => x in
  let q := {| q_code := "KS"; q_params := []; q_size := 10; q_count := 1 |} in
  let final := exec id (start [key1 [1]] (two_calls (Store [key2 [1]]) (Delete q)))
    [Step 1; Step 0; Step 0; Crash 0; Step 1; Step 1]%nat in
  d_table final = [] /\ c_result (d_clients final 0%nat) = Some (Raise DbError) /\
  c_result (d_clients final 1%nat) = Some (Ok tt) /\ d_lock final = None.
Proof. exact C110_nonvacuous_crash_holds. Qed.
