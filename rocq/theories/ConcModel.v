(** Model of several processes that use one SQLite file through
    persistence/sqlalchemy/datastorage.py:60-72 (insert_data), 125-138 (insert_bulk_data), 140-154 (delete_data).

    Every operation opens a session of its own.  SQLAlchemy 2.0 on the sqlite3 driver starts a transaction with the first
    INSERT, UPDATE or DELETE, so a SELECT reads the committed table unless the session has already written.  The first
    write takes the write lock, which is kept until the commit or the end of the session; a session that cannot get it is
    given up with OperationalError.  [Session.merge] flushes, looks the row up by its key and leaves it alone if the
    stored results equal the new ones; otherwise the flush sends an INSERT (IntegrityError if the key has appeared in the
    meantime) or an UPDATE (StaleDataError if the row has gone).  A DELETE of a row that has gone is only a warning.  A
    commit is atomic.  All these exceptions are [DbError].  A bulk request is read as naming every key once (a second model
    with the same key would be compared with the session's own copy of the row). *)
From Verif Require Import Base StorageModel.

(** insert_data(m) is [Store [m]], insert_bulk_data(ms) is [Store ms] *)
Inductive request := Store (ms : list model) | Delete (q : query).
(** one call: what is left to do, the answer to the last SELECT (None: not asked yet), the table as changed by the
    uncommitted transaction, and the result of the call *)
Record client := Client {
  c_todo : request; c_seen : option (option model); c_work : option table; c_result : option (result unit) }.
Record db := Db { d_table : table; d_clients : nat -> client; d_lock : option nat }.
(** the calls have not begun *)
Definition start (t : table) (reqs : nat -> request) : db := Db t (fun i => Client (reqs i) None None None) None.

Definition set {A} (f : nat -> A) (i : nat) (x : A) : nat -> A := fun j => if Nat.eqb j i then x else f j.
(** what a SELECT of this session reads *)
Definition view (d : db) (c : client) : table := match c_work c with Some w => w | None => d_table d end.
(** SELECT ... WHERE <primary key> *)
Definition lookup (t : table) (m : model) : option model := find (fun x => same_key x m) t.
(** equality of two lists of floats *)
Definition same_results (a b : list R) : bool := if list_eq_dec Req_EM_T a b then true else false.
(** another session holds the write lock *)
Definition busy (d : db) (i : nat) : bool := match d_lock d with Some j => negb (Nat.eqb j i) | None => false end.
(** end of a call: the session is closed and gives up its lock *)
Definition finish (d : db) (i : nat) (r : result unit) (t : table) : db :=
  Db t (set (d_clients d) i (Client (c_todo (d_clients d i)) None None (Some r)))
     (match d_lock d with Some j => if Nat.eqb j i then None else Some j | None => None end).
(** a statement that changes the table; None is IntegrityError or StaleDataError *)
Definition write (d : db) (i : nat) (todo : request) (f : table -> option table) : db :=
  if busy d i then finish d i (Raise DbError) (d_table d)
  else match f (view d (d_clients d i)) with
       | Some w => Db (d_table d) (set (d_clients d) i (Client todo None (Some w) None)) (Some i)
       | None => finish d i (Raise DbError) (d_table d)
       end.

Section Column.
Variable col : list R -> list R.
(** the INSERT or UPDATE for a model whose row was missing or present when it was looked up *)
Definition insert_row (m : model) (t : table) : option table :=
  match lookup t m with None => Some (t ++ [from_model col m]) | Some _ => None end.
Definition update_row (m : model) (t : table) : option table :=
  match lookup t m with Some _ => Some (merge t (from_model col m)) | None => None end.
(** the next statement of call [i] *)
Definition step (d : db) (i : nat) : db :=
  let c := d_clients d i in
  let goto todo seen := Db (d_table d) (set (d_clients d) i (Client todo seen (c_work c) None)) (d_lock d) in
  match c_result c with
  | Some _ => d
  | None =>
    match c_todo c, c_seen c with
    | Store [], _ => finish d i (Ok tt) (view d c)
    | Store (m :: rest), None =>
      match lookup (view d c) m with
      | Some r => if same_results (m_results r) (m_results m) then goto (Store rest) None else goto (c_todo c) (Some (Some r))
      | None => goto (c_todo c) (Some None)
      end
    | Store (m :: rest), Some None => write d i (Store rest) (insert_row m)
    | Store (m :: rest), Some (Some _) => write d i (Store rest) (update_row m)
    | Delete q, None =>
      match get_data (view d c) q with
      | Raise e => finish d i (Raise e) (d_table d)
      | Ok None => finish d i (Ok tt) (d_table d)
      | Ok (Some r) => goto (Delete q) (Some (Some r))
      end
    | Delete q, Some (Some r) => write d i (Store []) (fun t => Some (filter (fun x => negb (same_key x r)) t))
    | Delete q, Some None => d
    end
  end.
(** the process of call [i] dies: its transaction is rolled back *)
Definition crash (d : db) (i : nat) : db :=
  match c_result (d_clients d i) with Some _ => d | None => finish d i (Raise DbError) (d_table d) end.
Inductive action := Step (i : nat) | Crash (i : nat).
Definition act (d : db) (a : action) : db := match a with Step i => step d i | Crash i => crash d i end.
Definition exec (d : db) (sched : list action) : db := fold_left act sched d.
End Column.
