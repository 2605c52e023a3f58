(** Model of pysatl_criterion/persistence (limit distribution table) and of the critical value loader
    and storage resolver built on it.

    A table is the list of its rows.  SQL gives no order to the rows of a SELECT without ORDER BY, so
    every query takes the order in which the rows are scanned as an argument ([scan], any permutation
    of the table).  SQLite and SQLAlchemy are not modelled beyond: primary key uniqueness is kept by
    [merge], a transaction is applied as a whole at [commit] or not at all, and
    [scalar_one_or_none] raises on more than one row.  Column values pass through the compressed float
    column, modelled by an arbitrary function [col] on lists (see CodecModel.v for the actual codec). *)
From Verif Require Import Base.
From Coq Require Export ZArith String.
From Coq Require Export List.
Export ListNotations.
Open Scope R_scope.

(** a Python number inside criterion_parameters; json.dumps writes 1 and 1.0 differently *)
Inductive pynum := PyInt (z : Z) | PyFloat (x : R).
Definition pynum_eqb (a b : pynum) : bool :=
  match a, b with
  | PyInt x, PyInt y => Z.eqb x y
  | PyFloat x, PyFloat y => Reqb x y
  | _, _ => false
  end.
(** equality of the JSON texts of two parameter lists ([json.dumps] is injective on int/float lists) *)
Fixpoint params_eqb (a b : list pynum) : bool :=
  match a, b with
  | [], [] => true
  | x :: a', y :: b' => pynum_eqb x y && params_eqb a' b'
  | _, _ => false
  end.

(** persistence/models/limit_distribution.py:20-30 and the ORM row, limit_distribution_orm.py:20-25 *)
Record model := {
  m_experiment : Z;
  m_code : string;
  m_params : list pynum;
  m_size : Z;
  m_count : Z;
  m_results : list R }.
(** persistence/models/limit_distribution.py:34-42, 46-53 *)
Record query := { q_code : string; q_params : list pynum; q_size : Z; q_count : Z }.
Record cv_query := { cq_code : string; cq_size : Z; cq_size_error : Z }.

Definition table := list model.

(** limit_distribution_orm.py:27-36: the primary key *)
Definition same_key (a b : model) : bool :=
  Z.eqb (m_experiment a) (m_experiment b) && String.eqb (m_code a) (m_code b)
  && params_eqb (m_params a) (m_params b) && Z.eqb (m_size a) (m_size b)
  && Z.eqb (m_count a) (m_count b).

(** [Session.merge] by primary key: UPDATE in place or INSERT *)
Fixpoint merge (t : table) (r : model) : table :=
  match t with
  | [] => [r]
  | x :: t' => if same_key x r then r :: t' else x :: merge t' r
  end.

(** datastorage.py:83-88 and 145-150: the WHERE clause *)
Definition matches (q : query) (r : model) : bool :=
  String.eqb (m_code r) (q_code q) && params_eqb (m_params r) (q_params q)
  && Z.eqb (m_size r) (q_size q) && Z.eqb (m_count r) (q_count q).

(** [scalar_one_or_none] *)
Definition scalar_one_or_none (l : list model) : result (option model) :=
  match l with [] => Ok None | [r] => Ok (Some r) | _ => Raise MultipleResultsFound end.

Section Column.
(** what the results column gives back for a list written to it *)
Variable col : list R -> list R.

(** limit_distribution_orm.py:54-69 followed by the column type *)
Definition from_model (m : model) : model :=
  {| m_experiment := m_experiment m; m_code := m_code m; m_params := m_params m;
     m_size := m_size m; m_count := m_count m; m_results := col (m_results m) |}.

(** datastorage.py:60-72; [ok] tells whether the transaction commits *)
Definition insert_data (ok : bool) (t : table) (m : model) : table * result unit :=
  if ok then (merge t (from_model m), Ok tt) else (t, Raise DbError).

(** datastorage.py:74-90 *)
Definition get_data (scan : table) (q : query) : result (option model) :=
  scalar_one_or_none (filter (matches q) scan).

(** datastorage.py:140-154 *)
Definition delete_data (ok : bool) (t : table) (q : query) : table * result unit :=
  match get_data t q with
  | Raise e => (t, Raise e)
  | Ok None => (t, Ok tt)
  | Ok (Some r) => if ok then (filter (fun x => negb (same_key x r)) t, Ok tt) else (t, Raise DbError)
  end.

(** datastorage.py:125-138.  [fail] = Some k: the k-th statement of the transaction fails (the last one,
    k = number of models, is the commit); the session is closed without commit, so nothing is kept. *)
Definition insert_bulk_data (fail : option nat) (t : table) (models : list model) : table * result unit :=
  match models with
  | [] => (t, Ok tt)
  | _ =>
    match fail with
    | Some k => if (k <=? length models)%nat then (t, Raise DbError)
                else (fold_left (fun w m => merge w (from_model m)) models t, Ok tt)
    | None => (fold_left (fun w m => merge w (from_model m)) models t, Ok tt)
    end
  end.

(** ORDER BY monte_carlo_count DESC: stable insertion sort of the scanned rows *)
Fixpoint insert_desc (r : model) (l : list model) : list model :=
  match l with
  | [] => [r]
  | x :: l' => if Z.leb (m_count x) (m_count r) then r :: l else x :: insert_desc r l'
  end.
Fixpoint sort_desc (l : list model) : list model :=
  match l with [] => [] | r :: l' => insert_desc r (sort_desc l') end.

(** datastorage.py:156-177 *)
Definition get_data_for_cv (scan : table) (q : cv_query) : option model :=
  match sort_desc (filter (fun r => String.eqb (m_code r) (cq_code q) && Z.eqb (m_size r) (cq_size q)) scan) with
  | [] => None
  | r :: _ => Some r       (* LIMIT 1 *)
  end.

(** datastorage.py:114-123: the dictionary [best_results] in insertion order *)
Fixpoint update_best (best : list model) (r : model) : list model :=
  match best with
  | [] => [r]
  | b :: best' =>
    if String.eqb (m_code b) (m_code r)
    then (if Z.ltb (m_count b) (m_count r) then r :: best' else b :: best')
    else b :: update_best best' r
  end.
(** datastorage.py:92-123 *)
Definition get_bulk_data (scan : table) (codes : list string) (size err : Z) : list model :=
  let rows := filter (fun r => existsb (String.eqb (m_code r)) codes
      && Z.leb (size - err) (m_size r) && Z.leb (m_size r) (size + err)) scan in
  fold_left update_best rows [].

(** ** remote_loader.py:22-53  [CriticalValueLoader.load]; the local table is returned *)
Definition load (local : table) (remote : option table) (code : string) (size err : Z)
  : table * bool :=
  let q := {| cq_code := code; cq_size := size; cq_size_error := err |} in
  match remote with
  | None => (local, false)
  | Some rt =>
    match get_data_for_cv rt q with
    | Some _ => (local, true)
    | None =>
      match get_data_for_cv rt q with
      | Some m => (fst (insert_data true local m), true)
      | None => (local, false)
      end
    end
  end.

(** persistence/models/limit_distribution.py:8-16 *)
Record bulk_result := {
  br_requested : nat; br_already : nat; br_newly : nat; br_not_found : list string }.

(** remote_loader.py:55-117  [load_bulk].  The last component is the list of bulk queries sent to the
    remote storage. [fail] is the failure point of the local bulk insert. *)
Definition load_bulk (fail : option nat) (local : table) (remote : option table)
    (codes : list string) (size err : Z) : table * bulk_result * list (list string) :=
  match codes with
  | [] => (local, {| br_requested := 0; br_already := 0; br_newly := 0; br_not_found := [] |}, [])
  | _ =>
    match remote with
    | None => (local, {| br_requested := length codes; br_already := 0; br_newly := 0;
                         br_not_found := codes |}, [])
    | Some rt =>
      let cached code := match get_data_for_cv local
          {| cq_code := code; cq_size := size; cq_size_error := err |} with Some _ => true | None => false end in
      let already := filter cached codes in
      let missing := filter (fun c => negb (cached c)) codes in
      match missing with
      | [] => (local, {| br_requested := length codes; br_already := length already;
                         br_newly := 0; br_not_found := [] |}, [])
      | _ =>
        let remote_models := get_bulk_data rt missing size err in
        let local' := fst (insert_bulk_data fail local remote_models) in  (* exception swallowed, 99-101 *)
        let not_found := filter (fun c => negb (existsb (fun m => String.eqb (m_code m) c) remote_models)) missing in
        (local', {| br_requested := length codes; br_already := length already;
                    br_newly := length remote_models; br_not_found := not_found |}, [missing])
      end
    end
  end.

End Column.

(** limit_distribution/base.py:97-120  [StorageLimitDistributionResolver.resolve] for a statistic with
    the given code and hypothesis parameters *)
Definition storage_resolve (scan : table) (code : string) (params : list pynum) (size : Z)
  : result (option (list R)) :=
  let! r := get_data scan {| q_code := code; q_params := params; q_size := size; q_count := 1 |} in
  match r with Some m => Ok (Some (m_results m)) | None => Ok None end.
