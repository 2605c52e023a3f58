From Verif Require Import Base StorageModel StorageSpec.
From Coq Require Import Lia.

(** ** boolean tests *)
Lemma pynum_eqb_eq a b : pynum_eqb a b = true <-> a = b.
Proof.
  destruct a, b; simpl; try (split; discriminate).
  - rewrite Z.eqb_eq. split; congruence.
  - rewrite Reqb_true. split; congruence.
Qed.
Lemma params_eqb_eq a b : params_eqb a b = true <-> a = b.
Proof.
  revert b; induction a as [|x a IH]; intros [|y b]; simpl; try (split; congruence).
  rewrite andb_true_iff, pynum_eqb_eq, IH. split; [intros [-> ->]; auto|intros E; injection E; auto].
Qed.
Lemma same_key_iff a b : same_key a b = true <-> key_eq a b.
Proof.
  unfold same_key, key_eq. rewrite !andb_true_iff, !Z.eqb_eq, String.eqb_eq, params_eqb_eq. tauto.
Qed.
Lemma matches_iff q r : matches q r = true <-> answers r q.
Proof.
  unfold matches, answers. rewrite !andb_true_iff, !Z.eqb_eq, String.eqb_eq, params_eqb_eq. tauto.
Qed.
Lemma same_key_refl a : same_key a a = true.
Proof. apply same_key_iff. unfold key_eq; auto. Qed.
Lemma same_key_sym a b : same_key a b = same_key b a.
Proof.
  apply eq_true_iff_eq. rewrite !same_key_iff. unfold key_eq.
  split; intros (A & B & C & D & E); repeat split; auto.
Qed.
Lemma same_key_trans a b c : same_key a b = true -> same_key b c = true -> same_key a c = true.
Proof.
  rewrite !same_key_iff. unfold key_eq. intros (A & B & C & D & E) (A' & B' & C' & D' & E').
  repeat split; congruence.
Qed.
Lemma same_key_matches q a b : same_key a b = true -> matches q a = matches q b.
Proof.
  rewrite same_key_iff. intros (A & B & C & D & E). unfold matches. rewrite B, C, D, E. reflexivity.
Qed.
Lemma same_key_trans_eq a b c : same_key a b = true -> same_key a c = same_key b c.
Proof.
  intros H. apply eq_true_iff_eq. split; intros H'.
  - eapply same_key_trans; [|exact H']. rewrite same_key_sym; exact H.
  - eapply same_key_trans; [exact H|exact H'].
Qed.
Lemma answers_dec r q : {answers r q} + {~ answers r q}.
Proof.
  destruct (matches q r) eqn:E; [left|right]; [apply matches_iff; auto|].
  intros H. apply matches_iff in H. congruence.
Qed.
Lemma matches_false q r : matches q r = false <-> ~ answers r q.
Proof.
  split; [intros H A; apply matches_iff in A; congruence|].
  intros H. destruct (matches q r) eqn:E; auto. apply matches_iff in E. contradiction.
Qed.

Section Col.
Variable col : list R -> list R.
Notation from_model := (from_model col).

Lemma from_model_matches q m : matches q (from_model m) = matches q m.
Proof. reflexivity. Qed.

(** ** merge and the rows answering a query *)
Lemma merge_filter_hit q t r :
  matches q r = true -> (length (filter (matches q) t) <= 1)%nat ->
  (forall x, In x t -> matches q x = true -> same_key x r = true) ->
  filter (matches q) (merge t r) = [r].
Proof.
  induction t as [|x t IH]; simpl; intros Hr Hl Hk; [rewrite Hr; reflexivity|].
  destruct (same_key x r) eqn:E; simpl.
  - rewrite Hr. rewrite (same_key_matches q x r E), Hr in Hl. simpl in Hl.
    destruct (filter (matches q) t); [reflexivity|simpl in Hl; lia].
  - destruct (matches q x) eqn:Ex.
    + rewrite (Hk x) in E by auto. discriminate.
    + apply IH; auto.
Qed.
Lemma merge_filter_miss q t r : matches q r = false ->
  filter (matches q) (merge t r) = filter (matches q) t.
Proof.
  induction t as [|x t IH]; simpl; intros Hr; [rewrite Hr; reflexivity|].
  destruct (same_key x r) eqn:E; simpl.
  - rewrite Hr, (same_key_matches q x r E), Hr. reflexivity.
  - rewrite IH by exact Hr. reflexivity.
Qed.
Lemma merge_in t r x : In x (merge t r) -> x = r \/ In x t.
Proof.
  induction t as [|y t IH]; simpl; [intuition|].
  destruct (same_key y r); simpl; intuition.
Qed.

Definition expected (p : option model) : list model :=
  match p with None => [] | Some m => [from_model m] end.
Lemma scalar_expected p : scalar_one_or_none (expected p) = Ok (option_map from_model p).
Proof. destruct p; reflexivity. Qed.

Lemma filter_comm {A} (f g : A -> bool) l : filter f (filter g l) = filter g (filter f l).
Proof.
  induction l as [|x l IH]; simpl; auto.
  destruct (g x) eqn:G, (f x) eqn:F; simpl; rewrite ?F, ?G, ?IH; auto.
Qed.

Lemma delete_filter_hit ok t q p : filter (matches q) t = expected p ->
  filter (matches q) (fst (delete_data ok t q)) = expected (if ok then None else p).
Proof.
  intros H. unfold delete_data, get_data. rewrite H, scalar_expected.
  destruct p as [m|]; simpl; [|rewrite H; destruct ok; reflexivity].
  destruct ok; simpl; [|exact H].
  rewrite filter_comm, H. simpl. rewrite same_key_refl. reflexivity.
Qed.
Lemma delete_filter_miss ok t q q' : q' <> q ->
  filter (matches q) (fst (delete_data ok t q')) = filter (matches q) t.
Proof.
  intros Hne. unfold delete_data, get_data.
  destruct (filter (matches q') t) as [|r [|r' l]] eqn:E; simpl; auto.
  destruct ok; simpl; auto.
  assert (Hr : matches q' r = true).
  { assert (In r (filter (matches q') t)) by (rewrite E; simpl; auto). apply filter_In in H; tauto. }
  assert (Hq : matches q r = false).
  { apply matches_false. intros (A & B & C & D). apply matches_iff in Hr. destruct Hr as (A' & B' & C' & D').
    apply Hne. destruct q, q'; simpl in *; congruence. }
  clear E. induction t as [|x t IH]; simpl; auto.
  destruct (same_key x r) eqn:Ek; simpl.
  - rewrite (same_key_matches q x r Ek), Hq. exact IH.
  - rewrite IH. reflexivity.
Qed.

Lemma run_snoc h o : run col (h ++ [o]) = apply_op col (run col h) o.
Proof. unfold run. rewrite fold_left_app. reflexivity. Qed.
Lemma run_inserts h ms : run col (h ++ map (OInsert true) ms)
  = fold_left (fun w m => merge w (from_model m)) ms (run col h).
Proof.
  unfold run. rewrite fold_left_app. generalize (fold_left (apply_op col) h []) as t.
  induction ms as [|m ms IH]; intros t; simpl; auto.
Qed.
Lemma bulk_cases fail t ms :
  (bulk_fails fail ms /\ insert_bulk_data col fail t ms = (t, Raise DbError)) \/
  (~ bulk_fails fail ms /\
   insert_bulk_data col fail t ms = (fold_left (fun w m => merge w (from_model m)) ms t, Ok tt)).
Proof.
  unfold insert_bulk_data. destruct ms as [|m ms].
  - right. split; [intros (k & _ & _ & H); congruence|reflexivity].
  - destruct fail as [k|].
    + destruct (Nat.leb_spec k (length (m :: ms))) as [H|H].
      * left. split; [exists k; repeat split; auto; discriminate|reflexivity].
      * right. split; [intros (k' & E & L & _); injection E as <-; lia|reflexivity].
    + right. split; [intros (k' & E & _); discriminate|reflexivity].
Qed.

(** every row of a table comes from a submitted model *)
Lemma run_rows h r : In r (run col h) -> exists o m, In o h /\ In m (submitted o) /\ r = from_model m.
Proof.
  revert r; induction h as [|o h IH] using rev_ind; [intros r []|].
  intros r. rewrite run_snoc.
  assert (Hold : In r (run col h) -> exists o' m, In o' (h ++ [o]) /\ In m (submitted o') /\ r = from_model m).
  { intros H. destruct (IH r H) as (o' & m & A & B & C). exists o', m. rewrite in_app_iff. auto. }
  assert (Hfold : forall ms t, In r (fold_left (fun w m => merge w (from_model m)) ms t) ->
     In r t \/ exists m, In m ms /\ r = from_model m).
  { induction ms as [|m ms IHm]; simpl; intros t H; auto.
    destruct (IHm _ H) as [H1|(m' & H1 & H2)]; [|right; exists m'; auto].
    apply merge_in in H1. destruct H1; [right; exists m; auto|auto]. }
  destruct o as [ok m|ok q|fail ms]; simpl.
  - unfold insert_data. destruct ok; simpl; auto. intros H. apply merge_in in H. destruct H as [->|H]; auto.
    exists (OInsert true m), m. rewrite in_app_iff. simpl. auto.
  - unfold delete_data. destruct (get_data _ q) as [[x|]|]; simpl; auto.
    destruct ok; simpl; auto. intros H. apply filter_In in H. tauto.
  - destruct (bulk_cases fail (run col h) ms) as [[_ ->]|[_ ->]]; simpl; auto.
    intros H. destruct (Hfold _ _ H) as [H1|(m & H1 & ->)]; auto.
    exists (OBulk fail ms), m. rewrite in_app_iff. simpl. auto.
Qed.

Lemma last_write_filter q h p e : last_write q h p ->
  (forall o m, In o h -> In m (submitted o) -> answers m q -> m_experiment m = e) ->
  filter (matches q) (run col h) = expected p.
Proof.
  induction 1 as [|h m p Hl IH Ha|h ok m p Hl IH Ho|h p Hl IH|h ok q' p Hl IH Ho|h fail ms p Hl IH Hf
    |h fail ms p Hl IH Hf]; intros He.
  - reflexivity.
  - rewrite run_snoc. simpl.
    assert (He' : forall o m0, In o h -> In m0 (submitted o) -> answers m0 q -> m_experiment m0 = e)
      by (intros; eapply He; eauto; apply in_or_app; auto).
    specialize (IH He').
    assert (Em : m_experiment m = e).
    { apply (He (OInsert true m)); simpl; auto. apply in_or_app; simpl; auto. }
    apply merge_filter_hit.
    + rewrite from_model_matches. apply matches_iff, Ha.
    + rewrite IH. destruct p; simpl; lia.
    + intros x Hx Hm. destruct (run_rows h x Hx) as (o & m' & A & B & ->).
      apply same_key_iff. apply matches_iff in Hm. destruct Hm as (H1 & H2 & H3 & H4).
      destruct Ha as (G1 & G2 & G3 & G4). simpl in *. unfold key_eq; simpl.
      assert (m_experiment m' = e) by (apply (He' o m'); auto; unfold answers; auto).
      repeat split; congruence.
  - rewrite run_snoc. simpl.
    assert (He' : forall o m0, In o h -> In m0 (submitted o) -> answers m0 q -> m_experiment m0 = e)
      by (intros; eapply He; eauto; apply in_or_app; auto).
    unfold insert_data. destruct ok; simpl; [|apply IH, He'].
    destruct Ho as [Ho|Ho]; [discriminate|].
    rewrite merge_filter_miss by (rewrite from_model_matches; apply matches_false, Ho).
    apply IH, He'.
  - rewrite run_snoc. simpl.
    rewrite (delete_filter_hit true (run col h) q p); [reflexivity|].
    apply IH. intros; eapply He; eauto; apply in_or_app; auto.
  - rewrite run_snoc. simpl.
    assert (He' : forall o m0, In o h -> In m0 (submitted o) -> answers m0 q -> m_experiment m0 = e)
      by (intros; eapply He; eauto; apply in_or_app; auto).
    destruct Ho as [->|Ho].
    + assert (E : fst (delete_data false (run col h) q') = run col h).
      { unfold delete_data. destruct (get_data _ q') as [[x|]|]; reflexivity. }
      rewrite E. apply IH, He'.
    + rewrite delete_filter_miss by exact Ho. apply IH, He'.
  - rewrite run_snoc. simpl. destruct (bulk_cases fail (run col h) ms) as [[_ ->]|[Hn _]]; [|contradiction].
    simpl. apply IH. intros; eapply He; eauto; apply in_or_app; auto.
  - rewrite run_snoc. simpl. destruct (bulk_cases fail (run col h) ms) as [[Hn _]|[_ ->]]; [contradiction|].
    simpl. rewrite <- run_inserts. apply IH.
    intros o m Ho Hm. apply in_app_or in Ho. destruct Ho as [Ho|Ho].
    + eapply He; eauto; apply in_or_app; auto.
    + apply in_map_iff in Ho. destruct Ho as (m' & <- & Hm'). destruct Hm as [<-|[]].
      intros Ha. apply (He (OBulk fail ms) m'); simpl; auto. apply in_or_app; simpl; auto.
Qed.

(** every history has a last write *)
Lemma last_write_total q h : exists p, last_write q h p.
Proof.
  induction h as [|o h [p IH]] using rev_ind; [exists None; constructor|].
  assert (Hins : forall h p m, last_write q h p -> exists p', last_write q (h ++ [OInsert true m]) p').
  { intros h' p' m Hl. destruct (answers_dec m q); eexists; [eapply lw_insert|eapply lw_insert_other]; eauto. }
  destruct o as [ok m|ok q'|fail ms].
  - destruct ok; [eapply Hins; eauto|eexists; eapply lw_insert_other; eauto].
  - destruct ok; [|eexists; eapply lw_delete_other; eauto].
    destruct (answers_dec {| m_experiment := 0; m_code := q_code q'; m_params := q_params q';
        m_size := q_size q'; m_count := q_count q'; m_results := [] |} q) as [(A & B & C & D)|Hn].
    + simpl in *. assert (q' = q) as -> by (destruct q, q'; simpl in *; congruence).
      eexists; eapply lw_delete; eauto.
    + exists p. apply lw_delete_other; auto. right. intros ->. apply Hn. unfold answers; simpl; auto.
  - destruct (bulk_cases fail [] ms) as [[Hf _]|[Hf _]].
    + exists p. apply lw_bulk_failed; auto.
    + assert (G : forall h p, last_write q h p -> exists p', last_write q (h ++ map (OInsert true) ms) p').
      { clear - Hins. induction ms as [|m ms IHm]; intros h p Hl; simpl.
        - rewrite app_nil_r. eauto.
        - destruct (Hins h p m Hl) as [p' Hp']. destruct (IHm _ _ Hp') as [p'' Hp''].
          exists p''. rewrite <- app_assoc in Hp''. exact Hp''. }
      destruct (G h p IH) as [p' Hp']. exists p'. apply lw_bulk; auto.
Qed.

Lemma get_data_scan t scan q p : Permutation scan t -> filter (matches q) t = expected p ->
  get_data scan q = Ok (option_map from_model p).
Proof.
  intros Hp H. unfold get_data.
  assert (Hf : Permutation (filter (matches q) scan) (filter (matches q) t)).
  { clear H. induction Hp; simpl; auto.
    - destruct (matches q x); auto.
    - destruct (matches q x), (matches q y); auto. apply perm_swap.
    - etransitivity; eauto. }
  rewrite H in Hf. destruct p as [m|]; simpl in *.
  - apply Permutation_sym, Permutation_length_1_inv in Hf. rewrite Hf. reflexivity.
  - apply Permutation_sym, Permutation_nil in Hf. rewrite Hf. reflexivity.
Qed.

(** ** key uniqueness *)
Definition ukeys (t : table) : Prop := ForallOrdPairs (fun a b => same_key a b = false) t.
Lemma ukeys_unique t : ukeys t <-> unique_keys t.
Proof.
  split.
  - intros H. induction H as [|x t Hf Ho IH]; intros i j a b Hi Hj Hk.
    + destruct i; discriminate.
    + rewrite Forall_forall in Hf. apply same_key_iff in Hk.
      destruct i, j; simpl in *; auto.
      * injection Hi as <-. apply nth_error_In in Hj. rewrite (Hf _ Hj) in Hk. discriminate.
      * injection Hj as <-. apply nth_error_In in Hi. rewrite same_key_sym, (Hf _ Hi) in Hk. discriminate.
      * f_equal. eapply IH; eauto. apply same_key_iff, Hk.
  - intros H. induction t as [|x t IH]; constructor.
    + rewrite Forall_forall. intros y Hy. apply In_nth_error in Hy. destruct Hy as [j Hj].
      destruct (same_key x y) eqn:E; auto. apply same_key_iff in E.
      specialize (H 0%nat (S j) x y eq_refl Hj E). discriminate.
    + apply IH. intros i j a b Hi Hj Hk. specialize (H (S i) (S j) a b Hi Hj Hk). congruence.
Qed.
Lemma merge_ukeys t r : ukeys t -> ukeys (merge t r).
Proof.
  induction 1 as [|x t Hf Ho IH]; simpl; [repeat constructor|].
  destruct (same_key x r) eqn:E; constructor; auto.
  - rewrite Forall_forall in *. intros y Hy. rewrite <- (same_key_trans_eq x r y E). auto.
  - rewrite Forall_forall in *. intros y Hy. apply merge_in in Hy. destruct Hy as [->|Hy]; auto.
Qed.
Lemma filter_ukeys f t : ukeys t -> ukeys (filter f t).
Proof.
  induction 1 as [|x t Hf Ho IH]; simpl; [constructor|]. destruct (f x); auto.
  constructor; auto. rewrite Forall_forall in *. intros y Hy. apply filter_In in Hy. apply Hf; tauto.
Qed.
Lemma apply_op_ukeys t o : ukeys t -> ukeys (apply_op col t o).
Proof.
  intros H. destruct o as [ok m|ok q|fail ms]; simpl.
  - unfold insert_data. destruct ok; simpl; auto. apply merge_ukeys, H.
  - unfold delete_data. destruct (get_data t q) as [[x|]|]; simpl; auto.
    destruct ok; simpl; auto. apply filter_ukeys, H.
  - destruct (bulk_cases fail t ms) as [[_ ->]|[_ ->]]; simpl; auto.
    revert t H; induction ms as [|m ms IH]; intros t H; simpl; auto. apply IH, merge_ukeys, H.
Qed.
Lemma reachable_ukeys t : reachable col t -> ukeys t.
Proof.
  intros [h ->]. induction h as [|o h IH] using rev_ind; [constructor|].
  rewrite run_snoc. apply apply_op_ukeys, IH.
Qed.
Lemma merge_spec t r x : ukeys t -> (In x (merge t r) <-> x = r \/ (In x t /\ ~ key_eq x r)).
Proof.
  induction 1 as [|y t Hf Ho IH]; simpl.
  - intuition.
  - rewrite Forall_forall in Hf. destruct (same_key y r) eqn:E; simpl.
    + split.
      * intros [<-|Hx]; auto. right. split; auto. intros Hk. apply same_key_iff in Hk.
        specialize (Hf x Hx). rewrite (same_key_trans_eq y r x E), same_key_sym, Hk in Hf. discriminate.
      * intros [->|[[<-|Hx] Hk]]; auto. exfalso. apply Hk, same_key_iff, E.
    + rewrite IH. split.
      * intros [<-|[->|[Hx Hk]]]; auto. right. split; auto. intros Hk. apply same_key_iff in Hk. congruence.
      * intros [->|[[<-|Hx] Hk]]; auto.
Qed.
Lemma merge_idem t r : merge (merge t r) r = merge t r.
Proof.
  induction t as [|x t IH]; simpl; [rewrite same_key_refl; reflexivity|].
  destruct (same_key x r) eqn:E; simpl; [rewrite same_key_refl; reflexivity|]. rewrite E, IH. reflexivity.
Qed.
Lemma merge_comm_last t r s : same_key r s = true -> merge (merge t r) s = merge t s.
Proof.
  intros H. induction t as [|x t IH]; simpl; [rewrite H; reflexivity|].
  destruct (same_key x r) eqn:E; simpl.
  - rewrite H. rewrite (same_key_trans x r s E H). reflexivity.
  - destruct (same_key x s) eqn:E'.
    + rewrite (same_key_trans_eq x s r E'), same_key_sym, H in E. discriminate.
    + rewrite IH. reflexivity.
Qed.

Lemma remove_perm t r : ukeys t -> In r t ->
  Permutation t (r :: filter (fun x => negb (same_key x r)) t).
Proof.
  induction 1 as [|x t Hf Ho IH]; intros Hin; [destruct Hin|]. rewrite Forall_forall in Hf. simpl.
  destruct Hin as [->|Hin].
  - rewrite same_key_refl. simpl. constructor.
    assert (E : filter (fun x => negb (same_key x r)) t = t).
    { clear - Hf. induction t as [|y t IH]; simpl; auto.
      rewrite same_key_sym, (Hf y) by (simpl; auto). simpl. f_equal. apply IH. intros; apply Hf; simpl; auto. }
    rewrite E. reflexivity.
  - rewrite (Hf r Hin). simpl. etransitivity; [apply perm_skip, IH, Hin|]. apply perm_swap.
Qed.
End Col.

(** ** critical value queries *)
Lemma insert_desc_perm r l : Permutation (insert_desc r l) (r :: l).
Proof.
  induction l as [|x l IH]; simpl; auto. destruct (Z.leb _ _); auto.
  etransitivity; [apply perm_skip, IH|]. apply perm_swap.
Qed.
Lemma sort_desc_perm l : Permutation (sort_desc l) l.
Proof. induction l as [|x l IH]; simpl; auto. rewrite insert_desc_perm. auto. Qed.
Lemma insert_desc_sorted r l :
  StronglySorted (fun a b => m_count b <= m_count a)%Z l ->
  StronglySorted (fun a b => m_count b <= m_count a)%Z (insert_desc r l).
Proof.
  induction 1 as [|x l Hs IH Hf]; simpl; [repeat constructor|].
  destruct (Z.leb_spec (m_count x) (m_count r)) as [H|H].
  - constructor; [constructor; auto|]. constructor; [lia|].
    rewrite Forall_forall in *. intros y Hy. specialize (Hf y Hy). lia.
  - constructor; auto. rewrite Forall_forall in *. intros y Hy.
    apply (Permutation_in _ (insert_desc_perm r l)) in Hy. destruct Hy as [<-|Hy]; [lia|auto].
Qed.
Lemma sort_desc_sorted l : StronglySorted (fun a b => m_count b <= m_count a)%Z (sort_desc l).
Proof. induction l as [|x l IH]; simpl; [constructor|apply insert_desc_sorted, IH]. Qed.

Definition cv_candidate (q : cv_query) (r : model) : Prop := m_code r = cq_code q /\ m_size r = cq_size q.
Lemma get_data_for_cv_some scan q r : get_data_for_cv scan q = Some r ->
  In r scan /\ cv_candidate q r /\ forall x, In x scan -> cv_candidate q x -> (m_count x <= m_count r)%Z.
Proof.
  unfold get_data_for_cv. set (P := fun r => (m_code r =? cq_code q)%string && (m_size r =? cq_size q)%Z).
  assert (HP : forall x, P x = true <-> cv_candidate q x).
  { intros x. unfold P, cv_candidate. rewrite andb_true_iff, String.eqb_eq, Z.eqb_eq. tauto. }
  destruct (sort_desc (filter P scan)) as [|y l] eqn:E; intros H; [discriminate|]. injection H as ->.
  assert (Hin : forall x, In x (r :: l) <-> In x scan /\ cv_candidate q x).
  { intros x. rewrite <- E. rewrite <- HP, <- filter_In.
    split; apply Permutation_in; [|symmetry]; apply sort_desc_perm. }
  destruct (proj1 (Hin r) (or_introl eq_refl)) as [A B].
  split; [exact A|]. split; [exact B|]. intros x Hx Hc.
  pose proof (sort_desc_sorted (filter P scan)) as Hs. rewrite E in Hs. inversion Hs as [|? ? _ Hf]; subst.
  destruct (proj2 (Hin x) (conj Hx Hc)) as [<-|Hl]; [lia|]. rewrite Forall_forall in Hf. apply Hf, Hl.
Qed.
Lemma get_data_for_cv_none scan q : get_data_for_cv scan q = None <->
  forall x, In x scan -> ~ cv_candidate q x.
Proof.
  split.
  - unfold get_data_for_cv. set (P := fun r => (m_code r =? cq_code q)%string && (m_size r =? cq_size q)%Z).
    destruct (sort_desc (filter P scan)) as [|y l] eqn:E; intros H; [|discriminate].
    intros x Hx [A B]. assert (In x (filter P scan)).
    { apply filter_In. split; auto. unfold P. rewrite A, B, String.eqb_refl, Z.eqb_refl. reflexivity. }
    apply (Permutation_in _ (Permutation_sym (sort_desc_perm _))) in H0. rewrite E in H0. destruct H0.
  - intros H. destruct (get_data_for_cv scan q) as [r|] eqn:E; auto.
    destruct (get_data_for_cv_some _ _ _ E) as (A & B & _). exfalso. eapply H; eauto.
Qed.
Lemma get_data_for_cv_is_some scan q : (exists r, get_data_for_cv scan q = Some r) <->
  exists x, In x scan /\ cv_candidate q x.
Proof.
  split.
  - intros [r Hr]. destruct (get_data_for_cv_some _ _ _ Hr) as (A & B & _). eauto.
  - intros (x & A & B). destruct (get_data_for_cv scan q) as [r|] eqn:E; eauto.
    rewrite get_data_for_cv_none in E. exfalso; eapply E; eauto.
Qed.

(** ** bulk reads *)
Definition bulk_candidate (codes : list string) (size err : Z) (r : model) : Prop :=
  In (m_code r) codes /\ (size - err <= m_size r <= size + err)%Z.

Definition best_inv (best rows : list model) : Prop :=
  NoDup (map m_code best) /\
  (forall b, In b best -> In b rows /\ forall x, In x rows -> m_code x = m_code b -> (m_count x <= m_count b)%Z) /\
  (forall x, In x rows -> exists b, In b best /\ m_code b = m_code x).

Lemma update_best_codes best r : 
  (In (m_code r) (map m_code best) -> map m_code (update_best best r) = map m_code best) /\
  (~ In (m_code r) (map m_code best) -> map m_code (update_best best r) = map m_code best ++ [m_code r]).
Proof.
  induction best as [|b best [IH1 IH2]]; simpl; [tauto|].
  destruct (String.eqb_spec (m_code b) (m_code r)) as [E|E].
  - split; [|tauto]. intros _. destruct (Z.ltb _ _); simpl; congruence.
  - split; intros H; simpl; f_equal; [apply IH1|apply IH2]; intuition.
Qed.
Lemma NoDup_snoc {A} (l : list A) x : NoDup l -> ~ In x l -> NoDup (l ++ [x]).
Proof.
  induction 1 as [|y l Hy Hnd IH]; simpl; intros Hx; [repeat constructor; auto|].
  constructor; [|apply IH; tauto]. rewrite in_app_iff. simpl. intuition.
Qed.
Lemma update_best_in best r x : NoDup (map m_code best) -> In x (update_best best r) ->
  (x = r /\ (forall b, In b best -> m_code b = m_code r -> (m_count b < m_count r)%Z)) \/
  (In x best /\ (m_code x = m_code r -> (m_count r <= m_count x)%Z)).
Proof.
  induction best as [|b best IH]; simpl; intros Hnd H.
  - destruct H as [<-|[]]. left. split; auto. intros _ [].
  - inversion Hnd as [|? ? Hb Hnd']; subst.
    destruct (String.eqb_spec (m_code b) (m_code r)) as [E|E].
    + destruct (Z.ltb_spec (m_count b) (m_count r)) as [L|L]; destruct H as [<-|H].
      * left. split; auto. intros b' [<-|Hb'] Hc; auto. exfalso. apply Hb. rewrite E, <- Hc. apply in_map, Hb'.
      * right. split; auto. intros Hc. exfalso. apply Hb. rewrite E, <- Hc. apply in_map, H.
      * right. split; auto.
      * right. split; auto. intros Hc. exfalso. apply Hb. rewrite E, <- Hc. apply in_map, H.
    + destruct H as [<-|H]; [right; split; auto; congruence|].
      destruct (IH Hnd' H) as [[-> Hlt]|[Hin Hle]].
      * left. split; auto. intros b' [<-|Hb'] Hc; [congruence|auto].
      * right. auto.
Qed.
Lemma update_best_inv best rows r : best_inv best rows -> best_inv (update_best best r) (rows ++ [r]).
Proof.
  intros (Hnd & Hb & Hc). destruct (update_best_codes best r) as [C1 C2].
  assert (Hdec : {In (m_code r) (map m_code best)} + {~ In (m_code r) (map m_code best)})
    by (apply in_dec, string_dec).
  split; [|split].
  - destruct Hdec as [H|H]; [rewrite C1 by exact H; exact Hnd|].
    rewrite C2 by exact H. apply NoDup_snoc; auto.
  - intros x Hx. destruct (update_best_in best r x Hnd Hx) as [[-> Hlt]|[Hin Hle]].
    + split; [apply in_or_app; simpl; auto|]. intros y Hy Hyc. apply in_app_or in Hy.
      destruct Hy as [Hy|[<-|[]]]; [|lia].
      destruct (Hc y Hy) as (b & Hbin & Hbc). destruct (Hb b Hbin) as [_ Hmax].
      specialize (Hmax y Hy (eq_sym Hbc)). specialize (Hlt b Hbin ltac:(congruence)). lia.
    + destruct (Hb x Hin) as [Hr Hmax]. split; [apply in_or_app; auto|].
      intros y Hy Hyc. apply in_app_or in Hy. destruct Hy as [Hy|[<-|[]]]; auto.
  - intros x Hx. assert (Hcode : In (m_code x) (map m_code (update_best best r))).
    { apply in_app_or in Hx. destruct Hdec as [H|H]; [rewrite C1 by exact H|rewrite C2 by exact H].
      - destruct Hx as [Hx|[<-|[]]]; auto. destruct (Hc x Hx) as (b & A & B). rewrite <- B. apply in_map, A.
      - apply in_or_app. destruct Hx as [Hx|[<-|[]]]; simpl; auto. left.
        destruct (Hc x Hx) as (b & A & B). rewrite <- B. apply in_map, A. }
    apply in_map_iff in Hcode. destruct Hcode as (b & A & B). exists b. auto.
Qed.
Lemma fold_best_inv rows : best_inv (fold_left update_best rows []) rows.
Proof.
  induction rows as [|r rows IH] using rev_ind; [repeat split; simpl; intros; try contradiction; constructor|].
  rewrite fold_left_app. simpl. apply update_best_inv, IH.
Qed.
Lemma bulk_filter scan codes size err r :
  In r (filter (fun r => existsb (String.eqb (m_code r)) codes
      && Z.leb (size - err) (m_size r) && Z.leb (m_size r) (size + err)) scan) <->
  In r scan /\ bulk_candidate codes size err r.
Proof.
  rewrite filter_In, !andb_true_iff, !Z.leb_le, existsb_exists. unfold bulk_candidate.
  split.
  - intros (A & ((c & B & C) & D) & E). apply String.eqb_eq in C. rewrite C. auto.
  - intros (A & B & C). repeat split; auto; try lia. exists (m_code r). split; auto. apply String.eqb_refl.
Qed.
Lemma get_bulk_spec scan codes size err :
  let l := get_bulk_data scan codes size err in
  NoDup (map m_code l) /\
  (forall r, In r l -> In r scan /\ bulk_candidate codes size err r /\
     forall x, In x scan -> bulk_candidate codes size err x -> m_code x = m_code r -> (m_count x <= m_count r)%Z) /\
  (forall x, In x scan -> bulk_candidate codes size err x -> exists r, In r l /\ m_code r = m_code x).
Proof.
  intros l. unfold l, get_bulk_data.
  destruct (fold_best_inv (filter (fun r => existsb (String.eqb (m_code r)) codes
      && Z.leb (size - err) (m_size r) && Z.leb (m_size r) (size + err)) scan)) as (A & B & C).
  split; [exact A|]. split.
  - intros r Hr. destruct (B r Hr) as [H1 H2]. apply bulk_filter in H1. destruct H1 as [H1 H1'].
    split; [exact H1|]. split; [exact H1'|]. intros x Hx Hc He. apply H2; auto. apply bulk_filter; auto.
  - intros x Hx Hc. apply C. apply bulk_filter; auto.
Qed.
