(** Specification vocabulary for the limit distribution storage. *)
From Verif Require Import Base StorageModel.

(** the key of a row, as a proposition *)
Definition key_eq (a b : model) : Prop :=
  m_experiment a = m_experiment b /\ m_code a = m_code b /\ m_params a = m_params b /\
  m_size a = m_size b /\ m_count a = m_count b.
(** the row answers the query *)
Definition answers (r : model) (q : query) : Prop :=
  m_code r = q_code q /\ m_params r = q_params q /\ m_size r = q_size q /\ m_count r = q_count q.

(** the operations a user performs; the flags say whether the transaction succeeds *)
Inductive op := OInsert (ok : bool) (m : model) | ODelete (ok : bool) (q : query)
              | OBulk (fail : option nat) (ms : list model).
Definition apply_op (col : list R -> list R) (t : table) (o : op) : table :=
  match o with
  | OInsert ok m => fst (insert_data col ok t m)
  | ODelete ok q => fst (delete_data ok t q)
  | OBulk fail ms => fst (insert_bulk_data col fail t ms)
  end.
Definition run (col : list R -> list R) (h : list op) : table := fold_left (apply_op col) h [].
(** tables reachable from an empty database *)
Definition reachable (col : list R -> list R) (t : table) : Prop := exists h, t = run col h.

(** two rows never share a key *)
Definition unique_keys (t : table) : Prop :=
  forall i j a b, nth_error t i = Some a -> nth_error t j = Some b -> key_eq a b -> i = j.

(** models handed to the storage in the history *)
Definition submitted (o : op) : list model :=
  match o with OInsert _ m => [m] | ODelete _ _ => [] | OBulk _ ms => ms end.

Definition bulk_fails (fail : option nat) (ms : list model) : Prop :=
  exists k, fail = Some k /\ (k <= length ms)%nat /\ ms <> [].

(** what a query should find after a history: the last model written for it, unless deleted since *)
Inductive last_write (q : query) : list op -> option model -> Prop :=
| lw_nil : last_write q [] None
| lw_insert h m p : last_write q h p -> answers m q -> last_write q (h ++ [OInsert true m]) (Some m)
| lw_insert_other h ok m p : last_write q h p -> ok = false \/ ~ answers m q ->
    last_write q (h ++ [OInsert ok m]) p
| lw_delete h p : last_write q h p -> last_write q (h ++ [ODelete true q]) None
| lw_delete_other h ok q' p : last_write q h p -> ok = false \/ q' <> q ->
    last_write q (h ++ [ODelete ok q']) p
| lw_bulk_failed h fail ms p : last_write q h p -> bulk_fails fail ms ->
    last_write q (h ++ [OBulk fail ms]) p
| lw_bulk h fail ms p : last_write q (h ++ map (OInsert true) ms) p -> ~ bulk_fails fail ms ->
    last_write q (h ++ [OBulk fail ms]) p.
