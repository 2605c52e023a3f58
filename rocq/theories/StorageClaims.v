(** Proofs of the property theorems on storage and loader; stated again in [Props_Storage]. *)
From Coq Require Import Lia Lra.
From Verif Require Import Base StorageModel StorageSpec StorageProofs LoaderProofs.

(** sample rows used by the examples *)
Definition row (e : Z) (code : string) (ps : list pynum) (size count : Z) (rs : list R) : model :=
  {| m_experiment := e; m_code := code; m_params := ps; m_size := size; m_count := count; m_results := rs |}.
Definition idc : list R -> list R := fun l => l.
Local Open Scope string_scope.

(** *** C26 *)
Lemma C26_stored_distribution_not_found_refuted_holds : forall col, exists m size,
  m_size m = size /\ (m_count m = 1000)%Z /\
  storage_resolve (run col [OInsert true m]) (m_code m) (m_params m) size = Ok None.
Proof. intros col. exists (row 1 "KS" [] 30 1000 [1; 2]), 30%Z. repeat split. Qed.
(** what holds: a distribution simulated with exactly one replication is found *)
Lemma C26_found_iff_count_one_holds : forall col h code params size p e scan,
  last_write {| q_code := code; q_params := params; q_size := size; q_count := 1 |} h p ->
  (forall o m, In o h -> In m (submitted o) ->
     answers m {| q_code := code; q_params := params; q_size := size; q_count := 1 |} -> m_experiment m = e) ->
  Permutation scan (run col h) ->
  storage_resolve scan code params size = Ok (option_map (fun m => col (m_results m)) p).
Proof.
  intros col h code params size p e scan Hl He Hs. unfold storage_resolve.
  rewrite (get_data_scan col _ _ _ p Hs (last_write_filter col _ _ _ e Hl He)). destruct p; reflexivity.
Qed.
(** *** C28 *)
Lemma C28_reads_return_last_write_holds : forall col h q p e scan,
  (* p is the last model written for q in the history h (None: never written, or deleted since) *)
  last_write q h p ->
  (* one experiment wrote the rows answering q *)
  (forall o m, In o h -> In m (submitted o) -> answers m q -> m_experiment m = e) ->
  (* rows are scanned in any order *)
  Permutation scan (run col h) ->
  get_data scan q = Ok (option_map (from_model col) p).
Proof. intros col h q p e scan Hl He Hs. eapply get_data_scan; [exact Hs|]. eapply last_write_filter; eauto. Qed.
Lemma C28_last_write_exists_holds : forall q h, exists p, last_write q h p.
Proof. exact (last_write_total idc). Qed.
Lemma C28_last_write_unique_holds : forall col q h p p' e,
  (forall o m, In o h -> In m (submitted o) -> answers m q -> m_experiment m = e) ->
  last_write q h p -> last_write q h p' -> option_map (from_model col) p = option_map (from_model col) p'.
Proof.
  intros col q h p p' e He H1 H2.
  assert (A : Ok (option_map (from_model col) p) = Ok (option_map (from_model col) p')).
  { rewrite <- (C28_reads_return_last_write_holds col h q p e (run col h)), <- (C28_reads_return_last_write_holds col h q p' e (run col h)); auto. }
  congruence.
Qed.
Lemma C28_nonvacuous_holds : let q := {| q_code := "KS"; q_params := [PyFloat 1]; q_size := 10; q_count := 5 |} in
  let a := row 1 "KS" [PyFloat 1] 10 5 [1] in let b := row 1 "KS" [PyFloat 1] 10 5 [2] in
  last_write q [OInsert true a; ODelete true q; OInsert false a; OBulk None [a; b]] (Some b) /\
  forall o m, In o [OInsert true a; ODelete true q; OInsert false a; OBulk None [a; b]] ->
    In m (submitted o) -> answers m q -> m_experiment m = 1%Z.
Proof.
  cbv zeta. set (q := {| q_code := "KS" |}). set (a := row 1 _ _ _ _ [1]). set (b := row 1 _ _ _ _ [2]).
  assert (Ha : answers a q) by (repeat split). assert (Hb : answers b q) by (repeat split).
  split.
  - apply (lw_bulk q [OInsert true a; ODelete true q; OInsert false a]).
    + apply (lw_insert q [OInsert true a; ODelete true q; OInsert false a; OInsert true a] b (Some a)); auto.
      apply (lw_insert q [OInsert true a; ODelete true q; OInsert false a] a None); auto.
      apply (lw_insert_other q [OInsert true a; ODelete true q] false a None); auto.
      apply (lw_delete q [OInsert true a] (Some a)).
      apply (lw_insert q [] a None); auto. constructor.
    + intros (k & A & _). discriminate.
  - intros o m Ho Hm _. repeat (destruct Ho as [<-|Ho]; [simpl in Hm; repeat (destruct Hm as [<-|Hm]; [reflexivity|]); destruct Hm|]).
    destruct Ho.
Qed.

(** *** C29 *)
Lemma C29_unique_keys_holds : forall col t, reachable col t -> unique_keys t.
Proof. intros col t H. apply ukeys_unique, (reachable_ukeys col), H. Qed.
Lemma C29_insert_is_upsert_holds : forall col t m x, reachable col t ->
  (In x (fst (insert_data col true t m)) <-> x = from_model col m \/ (In x t /\ ~ key_eq x m)).
Proof. intros col t m x H. simpl. rewrite merge_spec by (apply (reachable_ukeys col), H). reflexivity. Qed.
Lemma C29_insert_failure_keeps_table_holds : forall col t m, insert_data col false t m = (t, Raise DbError).
Proof. reflexivity. Qed.
Lemma C29_insert_idempotent_holds : forall col t m,
  fst (insert_data col true (fst (insert_data col true t m)) m) = fst (insert_data col true t m).
Proof. intros. simpl. apply merge_idem. Qed.
Lemma C29_last_insert_wins_holds : forall col t m m', key_eq m m' ->
  fst (insert_data col true (fst (insert_data col true t m)) m') = fst (insert_data col true t m').
Proof. intros. simpl. apply merge_comm_last. apply same_key_iff. exact H. Qed.
Lemma C29_row_count_holds : forall col t m, reachable col t ->
  length (fst (insert_data col true t m)) =
  (if existsb (fun x => same_key x m) t then length t else S (length t)).
Proof.
  intros col t m _. simpl. change (fun x => same_key x m) with (fun x => same_key x (from_model col m)).
  induction t as [|x t IH]; simpl; auto. destruct (same_key x (from_model col m)); simpl; auto. rewrite IH.
  destruct (existsb _ t); reflexivity.
Qed.
Lemma C29_nonvacuous_holds : let a := row 1 "KS" [] 10 5 [1] in let b := row 1 "AD" [] 10 5 [2] in
  reachable idc [a; b].
Proof. exists [OInsert true (row 1 "KS" [] 10 5 [1]); OInsert true (row 1 "AD" [] 10 5 [2])]. reflexivity. Qed.

(** *** C30 *)
Lemma C30_delete_removes_the_row_holds : forall col t q r, reachable col t -> get_data t q = Ok (Some r) ->
  exists t', delete_data true t q = (t', Ok tt) /\ Permutation t (r :: t') /\ get_data t' q = Ok None.
Proof.
  intros col t q r Ht Hg. exists (filter (fun x => negb (same_key x r)) t).
  unfold delete_data. rewrite Hg. split; [reflexivity|].
  unfold get_data, scalar_one_or_none in *.
  destruct (filter (matches q) t) as [|y [|]] eqn:E; try discriminate. injection Hg as ->.
  assert (Hin : In r t). { apply (proj1 (filter_In (matches q) r t)). rewrite E. left; reflexivity. }
  split.
  - apply remove_perm; [apply (reachable_ukeys col), Ht|exact Hin].
  - rewrite filter_comm, E. simpl. rewrite same_key_refl. reflexivity.
Qed.
Lemma C30_otherwise_unchanged_holds : forall ok t q,
  (forall r, get_data t q <> Ok (Some r)) \/ ok = false -> fst (delete_data ok t q) = t.
Proof.
  intros ok t q H. unfold delete_data. destruct (get_data t q) as [[r|]|] eqn:E; auto.
  destruct H as [H| ->]; [exfalso; apply (H r); reflexivity|reflexivity].
Qed.
Lemma C30_nonvacuous_holds : let a := row 1 "KS" [] 10 5 [1] in
  get_data [a; row 1 "AD" [] 10 5 [2]] {| q_code := "KS"; q_params := []; q_size := 10; q_count := 5 |} = Ok (Some a).
Proof. reflexivity. Qed.

(** *** C31 *)
Lemma C31_two_experiments_refuted_holds : forall col, exists h q m,
  (* m was stored and never deleted, it answers q, and the lookup raises *)
  h = [OInsert true m; OInsert true (row 2 (m_code m) (m_params m) (m_size m) (m_count m) [])] /\
  answers m q /\ In (from_model col m) (run col h) /\ get_data (run col h) q = Raise MultipleResultsFound.
Proof.
  intros col. exists [OInsert true (row 1 "KS" [] 10 5 [1]); OInsert true (row 2 "KS" [] 10 5 [])],
    {| q_code := "KS"; q_params := []; q_size := 10; q_count := 5 |}, (row 1 "KS" [] 10 5 [1]).
  split; [reflexivity|]. split; [repeat split|]. split; [left; reflexivity|reflexivity].
Qed.
Lemma C31_succeeds_iff_exactly_one_holds : forall t q r,
  get_data t q = Ok (Some r) <-> filter (matches q) t = [r].
Proof.
  intros t q r. unfold get_data, scalar_one_or_none. destruct (filter (matches q) t) as [|x [|y l]]; split; intros; try discriminate; congruence.
Qed.
Lemma C31_none_iff_no_row_holds : forall t q, get_data t q = Ok None <-> (forall r, In r t -> ~ answers r q).
Proof.
  intros t q. unfold get_data, scalar_one_or_none. split.
  - destruct (filter (matches q) t) as [|x [|y l]] eqn:E; try discriminate. intros _ r Hr Ha.
    apply matches_iff in Ha. assert (H : In r (filter (matches q) t)) by (apply filter_In; auto).
    rewrite E in H. destruct H.
  - intros H. destruct (filter (matches q) t) as [|x l] eqn:E; auto. exfalso.
    assert (Hx : In x (filter (matches q) t)) by (rewrite E; left; auto).
    apply filter_In in Hx. apply (H x); [tauto|]. apply matches_iff; tauto.
Qed.
(** *** C32 *)
Lemma C32_best_for_critical_values_holds : forall scan q r, get_data_for_cv scan q = Some r ->
  In r scan /\ m_code r = cq_code q /\ m_size r = cq_size q /\
  forall x, In x scan -> m_code x = cq_code q -> m_size x = cq_size q -> (m_count x <= m_count r)%Z.
Proof.
  intros scan q r H. destruct (get_data_for_cv_some _ _ _ H) as (A & (B & C) & D).
  repeat split; auto. intros x Hx H1 H2. apply D; auto. split; auto.
Qed.
Lemma C32_none_holds : forall scan q, get_data_for_cv scan q = None <->
  forall x, In x scan -> ~ (m_code x = cq_code q /\ m_size x = cq_size q).
Proof. exact get_data_for_cv_none. Qed.
Lemma C32_nonvacuous_holds : get_data_for_cv [row 1 "KS" [] 10 5 []; row 2 "KS" [] 10 50 [3]; row 2 "KS" [] 11 500 []]
  {| cq_code := "KS"; cq_size := 10; cq_size_error := 0 |} = Some (row 2 "KS" [] 10 50 [3]).
Proof. reflexivity. Qed.

(** *** C33 *)
Lemma C33_bulk_read_holds : forall scan codes size err, let l := get_bulk_data scan codes size err in
  let candidate x := In x scan /\ In (m_code x) codes /\ (size - err <= m_size x <= size + err)%Z in
  NoDup (map m_code l) /\
  (forall r, In r l -> candidate r /\ forall x, candidate x -> m_code x = m_code r -> (m_count x <= m_count r)%Z) /\
  (forall x, candidate x -> exists r, In r l /\ m_code r = m_code x).
Proof.
  intros scan codes size err l candidate. destruct (get_bulk_spec scan codes size err) as (A & B & C).
  split; [exact A|]. split.
  - intros r Hr. destruct (B r Hr) as (H1 & (H2 & H3) & H4). split; [repeat split; auto; apply H3|].
    intros x (X1 & X2 & X3) X4. apply H4; auto. split; auto.
  - intros x (X1 & X2 & X3). apply C; auto. split; auto.
Qed.
Lemma C33_nonvacuous_holds : get_bulk_data [row 1 "KS" [] 10 5 []; row 2 "AD" [] 12 1 [3]; row 2 "KS" [] 11 500 []; row 2 "KS" [] 13 900 []]
  ["KS"; "AD"; "CVM"] 10 2 = [row 2 "KS" [] 11 500 []; row 2 "AD" [] 12 1 [3]].
Proof. reflexivity. Qed.

(** *** C34 *)
Lemma C34_bulk_insert_atomic_holds : forall col fail t ms,
  (bulk_fails fail ms -> insert_bulk_data col fail t ms = (t, Raise DbError)) /\
  (~ bulk_fails fail ms ->
     insert_bulk_data col fail t ms = (fold_left (fun w m => fst (insert_data col true w m)) ms t, Ok tt)).
Proof.
  intros col fail t ms. destruct (bulk_cases col fail t ms) as [[H E]|[H E]]; split; intros H'; auto; contradiction.
Qed.
Lemma C34_nonvacuous_holds : bulk_fails (Some 1%nat) [row 1 "KS" [] 10 5 []] /\ ~ bulk_fails None [row 1 "KS" [] 10 5 []].
Proof. split; [exists 1%nat; repeat split; auto; discriminate|]. intros (k & H & _). discriminate. Qed.

(** *** C38 *)
Lemma C38_load_does_not_cache_refuted_holds : forall col, exists remote code size,
  load col [] (Some remote) code size 0 = ([], true) /\
  get_data_for_cv (fst (load col [] (Some remote) code size 0)) {| cq_code := code; cq_size := size; cq_size_error := 0 |} = None.
Proof. intros col. exists [row 1 "KS" [] 10 5 []], "KS", 10%Z. split; reflexivity. Qed.
Lemma C38_load_never_writes_holds : forall col local remote code size err,
  fst (load col local remote code size err) = local.
Proof.
  intros. unfold load. destruct remote as [rt|]; [|reflexivity].
  destruct (get_data_for_cv rt _); reflexivity.
Qed.
Lemma C38_load_reports_remote_presence_holds : forall col local rt code size err,
  snd (load col local (Some rt) code size err) = true <-> exists x, In x rt /\ m_code x = code /\ m_size x = size.
Proof.
  intros. unfold load.
  pose proof (get_data_for_cv_is_some rt {| cq_code := code; cq_size := size; cq_size_error := err |}) as H.
  unfold cv_candidate in H. simpl in H. rewrite <- H.
  destruct (get_data_for_cv rt _) as [r|]; simpl; split; intros; eauto; try discriminate.
  destruct H0; discriminate.
Qed.
(** *** C39 *)
Lemma C39_bulk_load_accounting_holds : forall col fail local rt codes size err t' br calls, NoDup codes ->
  load_bulk col fail local (Some rt) codes size err = (t', br, calls) ->
  br_requested br = length codes /\
  (br_requested br = br_already br + br_newly br + length (br_not_found br))%nat /\
  (forall c, In c (br_not_found br) <->
     In c codes /\ (forall r, In r local -> ~ (m_code r = c /\ m_size r = size)) /\
     (forall r, In r rt -> ~ (m_code r = c /\ (size - err <= m_size r <= size + err)%Z))).
Proof.
  intros col fail local rt codes size err t' br calls Hnd E.
  destruct (load_bulk_accounting col fail local rt codes size err t' br calls Hnd E) as (A & B & C).
  split; [exact A|]. split; [exact B|]. intros c. rewrite C. unfold cached, remote_has. split.
  - intros (H1 & H2 & H3). split; auto. split; intros r Hr (X & Y); [apply H2|apply H3]; exists r; auto.
  - intros (H1 & H2 & H3). split; auto. split; intros (r & Hr & X & Y); [apply (H2 r)|apply (H3 r)]; auto.
Qed.
Lemma C39_nonvacuous_holds : load_bulk idc None [row 1 "KS" [] 10 5 []] (Some [row 1 "AD" [] 10 5 []]) ["KS"; "AD"; "CVM"] 10 0 =
  ([row 1 "KS" [] 10 5 []; row 1 "AD" [] 10 5 []],
   {| br_requested := 3; br_already := 1; br_newly := 1; br_not_found := ["CVM"] |}, [["AD"; "CVM"]]).
Proof. reflexivity. Qed.
(** without the remote storage even locally cached codes are reported as not found *)
Lemma C39_no_remote_refuted_holds : forall col, exists local code,
  (exists r, In r local /\ m_code r = code /\ (m_size r = 10)%Z) /\
  exists br, load_bulk col None local None [code] 10 0 = (local, br, []) /\
    In code (br_not_found br) /\ br_already br = 0%nat.
Proof.
  intros col. exists [row 1 "KS" [] 10 5 []], "KS". split; [exists (row 1 "KS" [] 10 5 []); repeat split; left; reflexivity|].
  eexists. split; [reflexivity|]. split; [left; reflexivity|reflexivity].
Qed.
(** with a code requested twice the counts do not add up *)
Lemma C39_duplicate_codes_refuted_holds : forall col, exists rt codes t' br calls,
  load_bulk col None [] (Some rt) codes 10 0 = (t', br, calls) /\
  (br_requested br <> br_already br + br_newly br + length (br_not_found br))%nat.
Proof.
  intros col. exists [row 1 "KS" [] 10 5 []], ["KS"; "KS"]. do 3 eexists. split; [reflexivity|].
  simpl. discriminate.
Qed.
(** *** C40 *)
Lemma C40_failed_insert_counted_refuted_holds : forall col, exists rt code t' br calls,
  load_bulk col (Some 0%nat) [] (Some rt) [code] 10 0 = (t', br, calls) /\
  br_newly br = 1%nat /\ br_not_found br = [] /\
  get_data_for_cv t' {| cq_code := code; cq_size := 10; cq_size_error := 0 |} = None.
Proof. intros col. exists [row 1 "KS" [] 10 5 []], "KS". do 3 eexists. repeat split; reflexivity. Qed.
Lemma C40_tolerance_row_not_served_refuted_holds : forall col, exists rt code t' br calls,
  load_bulk col None [] (Some rt) [code] 10 1 = (t', br, calls) /\
  br_newly br = 1%nat /\
  get_data_for_cv t' {| cq_code := code; cq_size := 10; cq_size_error := 1 |} = None.
Proof. intros col. exists [row 1 "KS" [] 11 5 []], "KS". do 3 eexists. repeat split; reflexivity. Qed.
(** what holds: when the insert succeeds and no size tolerance is asked for, every requested code that
    is not reported as not found is served locally afterwards *)
Lemma C40_cached_when_exact_and_inserted_holds : forall col local rt codes size t' br calls,
  load_bulk col None local (Some rt) codes size 0 = (t', br, calls) ->
  forall c, In c codes -> ~ In c (br_not_found br) ->
  exists r, get_data_for_cv t' {| cq_code := c; cq_size := size; cq_size_error := 0 |} = Some r.
Proof.
  intros col local rt codes size t' br calls E c Hc Hn. apply cached_get.
  rewrite load_bulk_eq in E. cbv zeta in E.
  set (missing := filter (fun c => negb (cachedb local size 0 c)) codes) in *.
  destruct (cachedb local size 0 c) eqn:Ec.
  - (* already cached: kept *)
    apply cachedb_iff in Ec. destruct Ec as (r & A & B & C).
    destruct missing as [|c0 l] eqn:Em.
    { exists r. replace t' with local by congruence. auto. }
    replace t' with (fst (insert_bulk_data col None local (get_bulk_data rt (c0 :: l) size 0))) by congruence.
    destruct (bulk_keeps col None local (get_bulk_data rt (c0 :: l) size 0) r A) as (y & Y1 & Y2).
    exists y. destruct Y2 as (_ & K1 & _ & K2 & _). split; [exact Y1|split; congruence].
  - assert (Hm : In c missing) by (apply filter_In; rewrite Ec; auto).
    destruct missing as [|c0 mis] eqn:Em; [destruct Hm|]. rewrite <- Em in *. clear c0 mis Em.
    assert (Ht : t' = fst (insert_bulk_data col None local (get_bulk_data rt missing size 0))) by congruence.
    assert (Hb : br_not_found br = filter (fun c => negb (found (get_bulk_data rt missing size 0) c)) missing).
    { assert (X : br = {| br_requested := length codes; br_already := length (filter (cachedb local size 0) codes);
         br_newly := length (get_bulk_data rt missing size 0);
         br_not_found := filter (fun c => negb (found (get_bulk_data rt missing size 0) c)) missing |}) by congruence.
      rewrite X. reflexivity. }
    destruct (found (get_bulk_data rt missing size 0) c) eqn:Ef.
    + apply found_iff in Ef. destruct Ef as (m & M1 & M2).
      destruct (get_bulk_spec rt missing size 0) as (_ & B & _).
      destruct (B m M1) as (_ & (_ & Hsz) & _).
      subst t'. destruct (bulk_cases col None local (get_bulk_data rt missing size 0)) as [[(k & X & _) _]|[_ ->]]; [discriminate|].
      simpl fst. destruct (insert_all_has col (get_bulk_data rt missing size 0) local m M1) as (y & Y1 & Y2).
      exists y. destruct Y2 as (_ & K1 & _ & K2 & _). split; [exact Y1|]. split; [congruence|]. unfold bulk_candidate in *. lia.
    + exfalso. apply Hn. rewrite Hb. apply filter_In. rewrite Ef. auto.
Qed.
(** *** C41 *)
Lemma C41_cache_keeps_codes_holds : forall col fail local remote codes size err t' br calls,
  load_bulk col fail local remote codes size err = (t', br, calls) ->
  forall c n, (exists r, In r local /\ m_code r = c /\ m_size r = n) ->
  exists r, In r t' /\ m_code r = c /\ m_size r = n.
Proof.
  intros col fail local remote codes size err t' br calls E c n (r & A & B & C).
  assert (H : exists y, In y t' /\ key_eq r y).
  { assert (Hsame : t' = local -> exists y, In y t' /\ key_eq r y).
    { intros ->. exists r. split; auto. unfold key_eq; auto. }
    destruct remote as [rt|].
    - rewrite load_bulk_eq in E. cbv zeta in E.
      destruct (filter (fun c => negb (cachedb local size err c)) codes) as [|s l]; [apply Hsame; congruence|].
      assert (X : t' = fst (insert_bulk_data col fail local (get_bulk_data rt (s :: l) size err))) by congruence.
      rewrite X. apply bulk_keeps, A.
    - unfold load_bulk in E. destruct codes; apply Hsame; congruence. }
  destruct H as (y & Y1 & (_ & K1 & _ & K2 & _)). exists y. split; [exact Y1|]. split; congruence.
Qed.
Lemma C41_no_remote_traffic_when_cached_holds : forall col fail local remote codes size err,
  (forall c, In c codes -> exists r, In r local /\ m_code r = c /\ m_size r = size) ->
  fst (fst (load_bulk col fail local remote codes size err)) = local /\
  snd (load_bulk col fail local remote codes size err) = [].
Proof.
  intros col fail local remote codes size err H. destruct remote as [rt|].
  - rewrite load_bulk_eq. cbv zeta.
    assert (E : filter (fun c => negb (cachedb local size err c)) codes = []).
    { destruct (filter _ codes) as [|c l] eqn:E; auto. exfalso.
      assert (Hc : In c (filter (fun c => negb (cachedb local size err c)) codes)) by (rewrite E; left; auto).
      apply filter_In in Hc. destruct Hc as [Hc Hn]. apply negb_true_iff, cachedb_false in Hn.
      apply Hn. destruct (H c Hc) as (r & A & B & C). exists r. auto. }
    rewrite E. split; reflexivity.
  - destruct codes; split; reflexivity.
Qed.
(** at most one bulk query is sent, and it asks only for codes that are requested and not cached *)
Lemma C41_remote_traffic_holds : forall col fail local rt codes size err q,
  In q (snd (load_bulk col fail local (Some rt) codes size err)) ->
  snd (load_bulk col fail local (Some rt) codes size err) = [q] /\
  forall c, In c q <-> In c codes /\ ~ exists r, In r local /\ m_code r = c /\ m_size r = size.
Proof.
  intros col fail local rt codes size err q. rewrite load_bulk_eq. cbv zeta.
  destruct (filter (fun c => negb (cachedb local size err c)) codes) as [|c0 l] eqn:E; [intros []|].
  rewrite <- E. clear E. cbn [snd]. intros [<-|[]]. split; [reflexivity|].
  intros c. rewrite filter_In, negb_true_iff, cachedb_false. unfold cached. tauto.
Qed.
Lemma C41_nonvacuous_holds : snd (load_bulk idc None [row 1 "KS" [] 10 5 []] (Some []) ["KS"; "AD"] 10 0) = [["AD"]].
Proof. reflexivity. Qed.

(** *** C71 *)
Lemma C71_int_and_float_parameters_differ_refuted_holds : forall col, exists m q,
  m_params m = [PyInt 1] /\ q_params q = [PyFloat 1] /\ IZR 1 = 1 /\
  m_code m = q_code q /\ m_size m = q_size q /\ m_count m = q_count q /\
  get_data (run col [OInsert true m]) q = Ok None.
Proof.
  intros col. exists (row 1 "KS" [PyInt 1] 10 1 [1]), {| q_code := "KS"; q_params := [PyFloat 1]; q_size := 10; q_count := 1 |}.
  repeat split.
Qed.
(** *** C72 *)
Lemma C72_parameters_ignored_refuted_holds : forall col, exists a b q,
  (* the distributions of one code for two different hypotheses *)
  m_params a <> m_params b /\ m_code a = m_code b /\ m_size a = m_size b /\
  get_data_for_cv (run col [OInsert true a; OInsert true b]) q = Some (from_model col b) /\
  get_data_for_cv (run col [OInsert true a]) q = Some (from_model col a).
Proof.
  intros col. exists (row 1 "KS" [PyFloat 1] 10 5 [1]), (row 1 "KS" [PyFloat 2] 10 6 [2]),
    {| cq_code := "KS"; cq_size := 10; cq_size_error := 0 |}.
  split; [|repeat split].
  - cbn. intros H. injection H. lra.
  - cbn [run fold_left apply_op insert_data fst merge].
    assert (E : same_key (from_model col (row 1 "KS" [PyFloat 1] 10 5 [1])) (from_model col (row 1 "KS" [PyFloat 2] 10 6 [2])) = false).
    { destruct (same_key _ _) eqn:E; auto. apply same_key_iff in E. destruct E as (_ & _ & E & _). cbn in E. injection E. lra. }
    rewrite E. reflexivity.
Qed.
(** *** C73 *)
Lemma C73_size_tolerance_ignored_refuted_holds : exists t q r,
  In r t /\ m_code r = cq_code q /\ (cq_size q - cq_size_error q <= m_size r <= cq_size q + cq_size_error q)%Z /\
  get_data_for_cv t q = None.
Proof.
  exists [row 1 "KS" [] 11 5 []], {| cq_code := "KS"; cq_size := 10; cq_size_error := 1 |}, (row 1 "KS" [] 11 5 []).
  simpl. repeat split; auto; lia.
Qed.
Lemma C73_tolerance_has_no_effect_holds : forall t code size e1 e2,
  get_data_for_cv t {| cq_code := code; cq_size := size; cq_size_error := e1 |} =
  get_data_for_cv t {| cq_code := code; cq_size := size; cq_size_error := e2 |}.
Proof. reflexivity. Qed.
