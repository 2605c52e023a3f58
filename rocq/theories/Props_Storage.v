(** Properties C26, C28-C41, C71-C74: limit distribution storage, compressed column, critical value loader. *)
From Coq Require Import Lia Lra.
From Verif Require Import Base StorageModel StorageSpec StorageProofs LoaderProofs StorageClaims.

Local Open Scope string_scope.

(** *** C26 *)
Theorem C26_stored_distribution_not_found_refuted : forall col, exists m size,
  m_size m = size /\ (m_count m = 1000)%Z /\
  storage_resolve (run col [OInsert true m]) (m_code m) (m_params m) size = Ok None.
Proof. exact C26_stored_distribution_not_found_refuted_holds. Qed.
Print Assumptions C26_stored_distribution_not_found_refuted.
(** what holds: a distribution simulated with exactly one replication is found *)
Theorem C26_found_iff_count_one : forall col h code params size p e scan,
  last_write {| q_code := code; q_params := params; q_size := size; q_count := 1 |} h p ->
  (forall o m, In o h -> In m (submitted o) ->
     answers m {| q_code := code; q_params := params; q_size := size; q_count := 1 |} -> m_experiment m = e) ->
  Permutation scan (run col h) ->
  storage_resolve scan code params size = Ok (option_map (fun m => col (m_results m)) p).
Proof. exact C26_found_iff_count_one_holds. Qed.
Print Assumptions C26_found_iff_count_one.

(** *** C28 *)
Theorem C28_reads_return_last_write : forall col h q p e scan,
  (* p is the last model written for q in the history h (None: never written, or deleted since) *)
  last_write q h p ->
  (* one experiment wrote the rows answering q *)
  (forall o m, In o h -> In m (submitted o) -> answers m q -> m_experiment m = e) ->
  (* rows are scanned in any order *)
  Permutation scan (run col h) ->
  get_data scan q = Ok (option_map (from_model col) p).
Proof. exact C28_reads_return_last_write_holds. Qed.
Print Assumptions C28_reads_return_last_write.
Theorem C28_last_write_exists : forall q h, exists p, last_write q h p.
Proof. exact C28_last_write_exists_holds. Qed.
Print Assumptions C28_last_write_exists.
Theorem C28_last_write_unique : forall col q h p p' e,
  (forall o m, In o h -> In m (submitted o) -> answers m q -> m_experiment m = e) ->
  last_write q h p -> last_write q h p' -> option_map (from_model col) p = option_map (from_model col) p'.
Proof. exact C28_last_write_unique_holds. Qed.
Print Assumptions C28_last_write_unique.
Example C28_nonvacuous : let q := {| q_code := "KS"; q_params := [PyFloat 1]; q_size := 10; q_count := 5 |} in
  let a := row 1 "KS" [PyFloat 1] 10 5 [1] in let b := row 1 "KS" [PyFloat 1] 10 5 [2] in
  last_write q [OInsert true a; ODelete true q; OInsert false a; OBulk None [a; b]] (Some b) /\
  forall o m, In o [OInsert true a; ODelete true q; OInsert false a; OBulk None [a; b]] ->
    In m (submitted o) -> answers m q -> m_experiment m = 1%Z.
Proof. exact C28_nonvacuous_holds. Qed.

(** *** C29 *)
Theorem C29_unique_keys : forall col t, reachable col t -> unique_keys t.
Proof. exact C29_unique_keys_holds. Qed.
Print Assumptions C29_unique_keys.
Theorem C29_insert_is_upsert : forall col t m x, reachable col t ->
  (In x (fst (insert_data col true t m)) <-> x = from_model col m \/ (In x t /\ ~ key_eq x m)).
Proof. exact C29_insert_is_upsert_holds. Qed.
Print Assumptions C29_insert_is_upsert.
Theorem C29_insert_failure_keeps_table : forall col t m, insert_data col false t m = (t, Raise DbError).
Proof. exact C29_insert_failure_keeps_table_holds. Qed.
Theorem C29_insert_idempotent : forall col t m,
  fst (insert_data col true (fst (insert_data col true t m)) m) = fst (insert_data col true t m).
Proof. exact C29_insert_idempotent_holds. Qed.
Print Assumptions C29_insert_idempotent.
Theorem C29_last_insert_wins : forall col t m m', key_eq m m' ->
  fst (insert_data col true (fst (insert_data col true t m)) m') = fst (insert_data col true t m').
Proof. exact C29_last_insert_wins_holds. Qed.
Print Assumptions C29_last_insert_wins.
Theorem C29_row_count : forall col t m, reachable col t ->
  length (fst (insert_data col true t m)) =
  (if existsb (fun x => same_key x m) t then length t else S (length t)).
Proof. exact C29_row_count_holds. Qed.
Print Assumptions C29_row_count.
Example C29_nonvacuous : let a := row 1 "KS" [] 10 5 [1] in let b := row 1 "AD" [] 10 5 [2] in
  reachable idc [a; b].
Proof. exact C29_nonvacuous_holds. Qed.

(** *** C30 *)
Theorem C30_delete_removes_the_row : forall col t q r, reachable col t -> get_data t q = Ok (Some r) ->
  exists t', delete_data true t q = (t', Ok tt) /\ Permutation t (r :: t') /\ get_data t' q = Ok None.
Proof. exact C30_delete_removes_the_row_holds. Qed.
Print Assumptions C30_delete_removes_the_row.
Theorem C30_otherwise_unchanged : forall ok t q,
  (forall r, get_data t q <> Ok (Some r)) \/ ok = false -> fst (delete_data ok t q) = t.
Proof. exact C30_otherwise_unchanged_holds. Qed.
Print Assumptions C30_otherwise_unchanged.
Example C30_nonvacuous : let a := row 1 "KS" [] 10 5 [1] in
  get_data [a; row 1 "AD" [] 10 5 [2]] {| q_code := "KS"; q_params := []; q_size := 10; q_count := 5 |} = Ok (Some a).
Proof. exact C30_nonvacuous_holds. Qed.

(** *** C31 *)
Theorem C31_two_experiments_refuted : forall col, exists h q m,
  (* m was stored and never deleted, it answers q, and the lookup raises *)
  h = [OInsert true m; OInsert true (row 2 (m_code m) (m_params m) (m_size m) (m_count m) [])] /\
  answers m q /\ In (from_model col m) (run col h) /\ get_data (run col h) q = Raise MultipleResultsFound.
Proof. exact C31_two_experiments_refuted_holds. Qed.
Print Assumptions C31_two_experiments_refuted.
Theorem C31_succeeds_iff_exactly_one : forall t q r,
  get_data t q = Ok (Some r) <-> filter (matches q) t = [r].
Proof. exact C31_succeeds_iff_exactly_one_holds. Qed.
Print Assumptions C31_succeeds_iff_exactly_one.
Theorem C31_none_iff_no_row : forall t q, get_data t q = Ok None <-> (forall r, In r t -> ~ answers r q).
Proof. exact C31_none_iff_no_row_holds. Qed.
Print Assumptions C31_none_iff_no_row.

(** *** C32 *)
Theorem C32_best_for_critical_values : forall scan q r, get_data_for_cv scan q = Some r ->
  In r scan /\ m_code r = cq_code q /\ m_size r = cq_size q /\
  forall x, In x scan -> m_code x = cq_code q -> m_size x = cq_size q -> (m_count x <= m_count r)%Z.
Proof. exact C32_best_for_critical_values_holds. Qed.
Print Assumptions C32_best_for_critical_values.
Theorem C32_none : forall scan q, get_data_for_cv scan q = None <->
  forall x, In x scan -> ~ (m_code x = cq_code q /\ m_size x = cq_size q).
Proof. exact C32_none_holds. Qed.
Print Assumptions C32_none.
Example C32_nonvacuous : get_data_for_cv [row 1 "KS" [] 10 5 []; row 2 "KS" [] 10 50 [3]; row 2 "KS" [] 11 500 []]
  {| cq_code := "KS"; cq_size := 10; cq_size_error := 0 |} = Some (row 2 "KS" [] 10 50 [3]).
Proof. exact C32_nonvacuous_holds. Qed.

(** *** C33 *)
Theorem C33_bulk_read : forall scan codes size err, let l := get_bulk_data scan codes size err in
  let candidate x := In x scan /\ In (m_code x) codes /\ (size - err <= m_size x <= size + err)%Z in
  NoDup (map m_code l) /\
  (forall r, In r l -> candidate r /\ forall x, candidate x -> m_code x = m_code r -> (m_count x <= m_count r)%Z) /\
  (forall x, candidate x -> exists r, In r l /\ m_code r = m_code x).
Proof. exact C33_bulk_read_holds. Qed.
Print Assumptions C33_bulk_read.
Example C33_nonvacuous : get_bulk_data [row 1 "KS" [] 10 5 []; row 2 "AD" [] 12 1 [3]; row 2 "KS" [] 11 500 []; row 2 "KS" [] 13 900 []]
  ["KS"; "AD"; "CVM"] 10 2 = [row 2 "KS" [] 11 500 []; row 2 "AD" [] 12 1 [3]].
Proof. exact C33_nonvacuous_holds. Qed.

(** *** C34 *)
Theorem C34_bulk_insert_atomic : forall col fail t ms,
  (bulk_fails fail ms -> insert_bulk_data col fail t ms = (t, Raise DbError)) /\
  (~ bulk_fails fail ms ->
     insert_bulk_data col fail t ms = (fold_left (fun w m => fst (insert_data col true w m)) ms t, Ok tt)).
Proof. exact C34_bulk_insert_atomic_holds. Qed.
Print Assumptions C34_bulk_insert_atomic.
Example C34_nonvacuous : bulk_fails (Some 1%nat) [row 1 "KS" [] 10 5 []] /\ ~ bulk_fails None [row 1 "KS" [] 10 5 []].
Proof. exact C34_nonvacuous_holds. Qed.

(** *** C38 *)
Theorem C38_load_does_not_cache_refuted : forall col, exists remote code size,
  load col [] (Some remote) code size 0 = ([], true) /\
  get_data_for_cv (fst (load col [] (Some remote) code size 0)) {| cq_code := code; cq_size := size; cq_size_error := 0 |} = None.
Proof. exact C38_load_does_not_cache_refuted_holds. Qed.
Print Assumptions C38_load_does_not_cache_refuted.
Theorem C38_load_never_writes : forall col local remote code size err,
  fst (load col local remote code size err) = local.
Proof. exact C38_load_never_writes_holds. Qed.
Print Assumptions C38_load_never_writes.
Theorem C38_load_reports_remote_presence : forall col local rt code size err,
  snd (load col local (Some rt) code size err) = true <-> exists x, In x rt /\ m_code x = code /\ m_size x = size.
Proof. exact C38_load_reports_remote_presence_holds. Qed.
Print Assumptions C38_load_reports_remote_presence.

(** *** C39 *)
Theorem C39_bulk_load_accounting : forall col fail local rt codes size err t' br calls, NoDup codes ->
  load_bulk col fail local (Some rt) codes size err = (t', br, calls) ->
  br_requested br = length codes /\
  (br_requested br = br_already br + br_newly br + length (br_not_found br))%nat /\
  (forall c, In c (br_not_found br) <->
     In c codes /\ (forall r, In r local -> ~ (m_code r = c /\ m_size r = size)) /\
     (forall r, In r rt -> ~ (m_code r = c /\ (size - err <= m_size r <= size + err)%Z))).
Proof. exact C39_bulk_load_accounting_holds. Qed.
Print Assumptions C39_bulk_load_accounting.
Example C39_nonvacuous : load_bulk idc None [row 1 "KS" [] 10 5 []] (Some [row 1 "AD" [] 10 5 []]) ["KS"; "AD"; "CVM"] 10 0 =
  ([row 1 "KS" [] 10 5 []; row 1 "AD" [] 10 5 []],
   {| br_requested := 3; br_already := 1; br_newly := 1; br_not_found := ["CVM"] |}, [["AD"; "CVM"]]).
Proof. exact C39_nonvacuous_holds. Qed.
(** without the remote storage even locally cached codes are reported as not found *)
Theorem C39_no_remote_refuted : forall col, exists local code,
  (exists r, In r local /\ m_code r = code /\ (m_size r = 10)%Z) /\
  exists br, load_bulk col None local None [code] 10 0 = (local, br, []) /\
    In code (br_not_found br) /\ br_already br = 0%nat.
Proof. exact C39_no_remote_refuted_holds. Qed.
Print Assumptions C39_no_remote_refuted.
(** with a code requested twice the counts do not add up *)
Theorem C39_duplicate_codes_refuted : forall col, exists rt codes t' br calls,
  load_bulk col None [] (Some rt) codes 10 0 = (t', br, calls) /\
  (br_requested br <> br_already br + br_newly br + length (br_not_found br))%nat.
Proof. exact C39_duplicate_codes_refuted_holds. Qed.
Print Assumptions C39_duplicate_codes_refuted.

(** *** C40 *)
Theorem C40_failed_insert_counted_refuted : forall col, exists rt code t' br calls,
  load_bulk col (Some 0%nat) [] (Some rt) [code] 10 0 = (t', br, calls) /\
  br_newly br = 1%nat /\ br_not_found br = [] /\
  get_data_for_cv t' {| cq_code := code; cq_size := 10; cq_size_error := 0 |} = None.
Proof. exact C40_failed_insert_counted_refuted_holds. Qed.
Print Assumptions C40_failed_insert_counted_refuted.
Theorem C40_tolerance_row_not_served_refuted : forall col, exists rt code t' br calls,
  load_bulk col None [] (Some rt) [code] 10 1 = (t', br, calls) /\
  br_newly br = 1%nat /\
  get_data_for_cv t' {| cq_code := code; cq_size := 10; cq_size_error := 1 |} = None.
Proof. exact C40_tolerance_row_not_served_refuted_holds. Qed.
Print Assumptions C40_tolerance_row_not_served_refuted.
(** what holds: when the insert succeeds and no size tolerance is asked for, every requested code that
    is not reported as not found is served locally afterwards *)
Theorem C40_cached_when_exact_and_inserted : forall col local rt codes size t' br calls,
  load_bulk col None local (Some rt) codes size 0 = (t', br, calls) ->
  forall c, In c codes -> ~ In c (br_not_found br) ->
  exists r, get_data_for_cv t' {| cq_code := c; cq_size := size; cq_size_error := 0 |} = Some r.
Proof. exact C40_cached_when_exact_and_inserted_holds. Qed.
Print Assumptions C40_cached_when_exact_and_inserted.

(** *** C41 *)
Theorem C41_cache_keeps_codes : forall col fail local remote codes size err t' br calls,
  load_bulk col fail local remote codes size err = (t', br, calls) ->
  forall c n, (exists r, In r local /\ m_code r = c /\ m_size r = n) ->
  exists r, In r t' /\ m_code r = c /\ m_size r = n.
Proof. exact C41_cache_keeps_codes_holds. Qed.
Print Assumptions C41_cache_keeps_codes.
Theorem C41_no_remote_traffic_when_cached : forall col fail local remote codes size err,
  (forall c, In c codes -> exists r, In r local /\ m_code r = c /\ m_size r = size) ->
  fst (fst (load_bulk col fail local remote codes size err)) = local /\
  snd (load_bulk col fail local remote codes size err) = [].
Proof. exact C41_no_remote_traffic_when_cached_holds. Qed.
Print Assumptions C41_no_remote_traffic_when_cached.
(** at most one bulk query is sent, and it asks only for codes that are requested and not cached *)
Theorem C41_remote_traffic : forall col fail local rt codes size err q,
  In q (snd (load_bulk col fail local (Some rt) codes size err)) ->
  snd (load_bulk col fail local (Some rt) codes size err) = [q] /\
  forall c, In c q <-> In c codes /\ ~ exists r, In r local /\ m_code r = c /\ m_size r = size.
Proof. exact C41_remote_traffic_holds. Qed.
Print Assumptions C41_remote_traffic.
Example C41_nonvacuous : snd (load_bulk idc None [row 1 "KS" [] 10 5 []] (Some []) ["KS"; "AD"] 10 0) = [["AD"]].
Proof. exact C41_nonvacuous_holds. Qed.

(** *** C71 *)
Theorem C71_int_and_float_parameters_differ_refuted : forall col, exists m q,
  m_params m = [PyInt 1] /\ q_params q = [PyFloat 1] /\ IZR 1 = 1 /\
  m_code m = q_code q /\ m_size m = q_size q /\ m_count m = q_count q /\
  get_data (run col [OInsert true m]) q = Ok None.
Proof. exact C71_int_and_float_parameters_differ_refuted_holds. Qed.
Print Assumptions C71_int_and_float_parameters_differ_refuted.

(** *** C72 *)
Theorem C72_parameters_ignored_refuted : forall col, exists a b q,
  (* the distributions of one code for two different hypotheses *)
  m_params a <> m_params b /\ m_code a = m_code b /\ m_size a = m_size b /\
  get_data_for_cv (run col [OInsert true a; OInsert true b]) q = Some (from_model col b) /\
  get_data_for_cv (run col [OInsert true a]) q = Some (from_model col a).
Proof. exact C72_parameters_ignored_refuted_holds. Qed.
Print Assumptions C72_parameters_ignored_refuted.

(** *** C73 *)
Theorem C73_size_tolerance_ignored_refuted : exists t q r,
  In r t /\ m_code r = cq_code q /\ (cq_size q - cq_size_error q <= m_size r <= cq_size q + cq_size_error q)%Z /\
  get_data_for_cv t q = None.
Proof. exact C73_size_tolerance_ignored_refuted_holds. Qed.
Print Assumptions C73_size_tolerance_ignored_refuted.
Theorem C73_tolerance_has_no_effect : forall t code size e1 e2,
  get_data_for_cv t {| cq_code := code; cq_size := size; cq_size_error := e1 |} =
  get_data_for_cv t {| cq_code := code; cq_size := size; cq_size_error := e2 |}.
Proof. exact C73_tolerance_has_no_effect_holds. Qed.
