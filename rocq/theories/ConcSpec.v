(** Specification vocabulary for concurrent use of the storage. *)
From Verif Require Import Base StorageModel StorageSpec ConcModel.

(** what a call does to the table when it is alone *)
Inductive effect := Put (m : model) | Remove (r : model).
Definition apply_effect (col : list R -> list R) (t : table) (e : effect) : table :=
  match e with
  | Put m => fst (insert_data col true t m)
  | Remove r => filter (fun x => negb (same_key x r)) t
  end.
(** a serial history: the effects in order, with the calls they belong to *)
Definition replay (col : list R -> list R) (h : list (nat * effect)) (t : table) : table :=
  fold_left (fun t e => apply_effect col t (snd e)) h t.
Definition effects_of (i : nat) (h : list (nat * effect)) : list effect :=
  map snd (filter (fun e => Nat.eqb (fst e) i) h).
(** the effects of a call that reports success: every model once and in order; one row found by the query, or none *)
Definition performed (r : request) (es : list effect) : Prop :=
  match r with
  | Store ms => es = map Put ms
  | Delete q => es = [] \/ exists x, es = [Remove x] /\ answers x q
  end.
(** two calls; two rows with different keys *)
Definition two_calls (a b : request) (i : nat) : request := match i with O => a | _ => b end.
Definition key1 (res : list R) : model := {| m_experiment := 1; m_code := "KS"; m_params := []; m_size := 10; m_count := 1; m_results := res |}.
Definition key2 (res : list R) : model := {| m_experiment := 2; m_code := "KS"; m_params := []; m_size := 20; m_count := 1; m_results := res |}.
