From Verif Require Import Base StorageModel StorageSpec StorageProofs.
From Coq Require Import Lia.

Section Col.
Variable col : list R -> list R.
Notation insert_all := (fold_left (fun w m => merge w (from_model col m))).

(** a code is cached for a size when the critical value query of that size succeeds *)
Definition cached (t : table) (code : string) (size : Z) : Prop :=
  exists r, In r t /\ m_code r = code /\ m_size r = size.
Definition remote_has (t : table) (code : string) (size err : Z) : Prop :=
  exists r, In r t /\ m_code r = code /\ (size - err <= m_size r <= size + err)%Z.

Lemma merge_keeps t r x : In x t -> exists y, In y (merge t r) /\ key_eq x y.
Proof.
  induction t as [|z t IH]; simpl; intros H; [destruct H|].
  destruct (same_key z r) eqn:E.
  - destruct H as [->|H].
    + exists r. split; [simpl; auto|]. apply same_key_iff, E.
    + exists x. split; [simpl; auto|]. unfold key_eq; auto.
  - destruct H as [->|H].
    + exists x. split; [simpl; auto|]. unfold key_eq; auto.
    + destruct (IH H) as (y & A & B). exists y. simpl; auto.
Qed.
Lemma merge_has t r : In r (merge t r).
Proof. induction t as [|z t IH]; simpl; auto. destruct (same_key z r); simpl; auto. Qed.
Lemma key_eq_trans a b c : key_eq a b -> key_eq b c -> key_eq a c.
Proof. intros (A & B & C & D & E) (A' & B' & C' & D' & E'). unfold key_eq. repeat split; congruence. Qed.
Lemma insert_all_keeps ms t x : In x t -> exists y, In y (insert_all ms t) /\ key_eq x y.
Proof.
  revert t x; induction ms as [|m ms IH]; intros t x H; simpl; [exists x; split; auto; unfold key_eq; auto|].
  destruct (merge_keeps t (from_model col m) x H) as (y & A & B).
  destruct (IH _ _ A) as (z & C & D). exists z. split; auto. eapply key_eq_trans; eauto.
Qed.
Lemma insert_all_has ms t m : In m ms -> exists y, In y (insert_all ms t) /\ key_eq m y.
Proof.
  revert t; induction ms as [|m' ms IH]; intros t H; simpl; [destruct H|].
  destruct H as [->|H]; [|apply IH, H].
  destruct (insert_all_keeps ms (merge t (from_model col m)) (from_model col m) (merge_has _ _)) as (y & A & B).
  exists y. split; auto.
Qed.

Lemma cached_get t code size err :
  cached t code size <-> exists r, get_data_for_cv t {| cq_code := code; cq_size := size; cq_size_error := err |} = Some r.
Proof.
  rewrite get_data_for_cv_is_some. unfold cached, cv_candidate. simpl.
  split; intros (r & A & B); exists r; tauto.
Qed.

Lemma bulk_keeps fail t ms x : In x t -> exists y, In y (fst (insert_bulk_data col fail t ms)) /\ key_eq x y.
Proof.
  intros H. destruct (bulk_cases col fail t ms) as [[_ ->]|[_ ->]]; simpl.
  - exists x. split; auto. unfold key_eq; auto.
  - apply insert_all_keeps, H.
Qed.

Definition cachedb (local : table) (size err : Z) (code : string) : bool :=
  match get_data_for_cv local {| cq_code := code; cq_size := size; cq_size_error := err |} with
  | Some _ => true | None => false end.
Lemma cachedb_iff local size err code : cachedb local size err code = true <-> cached local code size.
Proof.
  rewrite (cached_get local code size err). unfold cachedb.
  destruct (get_data_for_cv _ _); split; intros; eauto; [discriminate|].
  destruct H as [r H]; discriminate.
Qed.
Lemma cachedb_false local size err code : cachedb local size err code = false <-> ~ cached local code size.
Proof.
  rewrite <- (cachedb_iff local size err code). destruct (cachedb local size err code); split; congruence.
Qed.

Lemma length_split {A} (f : A -> bool) l :
  length l = (length (filter f l) + length (filter (fun x => negb (f x)) l))%nat.
Proof. induction l as [|x l IH]; simpl; auto. destruct (f x); simpl; lia. Qed.

Definition found (models : list model) (c : string) : bool :=
  existsb (fun m => String.eqb (m_code m) c) models.
Lemma found_iff models c : found models c = true <-> exists m, In m models /\ m_code m = c.
Proof.
  unfold found. rewrite existsb_exists. split; intros (m & A & B); exists m; split; auto.
  - apply String.eqb_eq, B.
  - apply String.eqb_eq, B.
Qed.
Lemma found_remote rt missing size err c : In c missing ->
  (found (get_bulk_data rt missing size err) c = true <-> remote_has rt c size err).
Proof.
  intros Hc. rewrite found_iff. destruct (get_bulk_spec rt missing size err) as (_ & B & C). split.
  - intros (m & A & E). destruct (B m A) as (H1 & (H2 & H3) & _). exists m. auto.
  - intros (r & A & E & F). destruct (C r A) as (m & G & H).
    + split; [rewrite E; exact Hc|exact F].
    + exists m. split; auto. congruence.
Qed.
(** number of models returned = number of missing codes found *)
Lemma bulk_count rt missing size err : NoDup missing ->
  length (get_bulk_data rt missing size err)
  = length (filter (found (get_bulk_data rt missing size err)) missing).
Proof.
  intros Hnd. set (models := get_bulk_data rt missing size err).
  destruct (get_bulk_spec rt missing size err) as (A & B & C). fold models in A, B, C.
  rewrite <- (map_length m_code models). apply Permutation_length.
  apply NoDup_Permutation; auto; [apply NoDup_filter, Hnd|].
  intros c. rewrite filter_In, found_iff, in_map_iff. split.
  - intros (m & E & Hm). destruct (B m Hm) as (_ & (H2 & _) & _). split; [rewrite <- E; auto|eauto].
  - intros (_ & m & Hm & E). eauto.
Qed.

(** [load_bulk] in closed form for a non-empty request and a remote storage *)
Lemma load_bulk_eq fail local rt codes size err :
  load_bulk col fail local (Some rt) codes size err =
  let already := filter (cachedb local size err) codes in
  let missing := filter (fun c => negb (cachedb local size err c)) codes in
  match missing with
  | [] => (local, {| br_requested := length codes; br_already := length already; br_newly := 0;
                     br_not_found := [] |}, [])
  | _ => let models := get_bulk_data rt missing size err in
         (fst (insert_bulk_data col fail local models),
          {| br_requested := length codes; br_already := length already; br_newly := length models;
             br_not_found := filter (fun c => negb (found models c)) missing |}, [missing])
  end.
Proof. destruct codes as [|c codes]; reflexivity. Qed.

Lemma load_bulk_accounting fail local rt codes size err t' br calls : NoDup codes ->
  load_bulk col fail local (Some rt) codes size err = (t', br, calls) ->
  br_requested br = length codes /\
  (br_requested br = br_already br + br_newly br + length (br_not_found br))%nat /\
  (forall c, In c (br_not_found br) <-> In c codes /\ ~ cached local c size /\ ~ remote_has rt c size err).
Proof.
  intros Hnd. rewrite load_bulk_eq. cbv zeta.
  set (already := filter (cachedb local size err) codes).
  set (missing := filter (fun c => negb (cachedb local size err c)) codes).
  pose proof (length_split (cachedb local size err) codes) as HL. fold already missing in HL.
  assert (Hm : forall c, In c missing <-> In c codes /\ ~ cached local c size).
  { intros c. unfold missing. rewrite filter_In, negb_true_iff, cachedb_false. tauto. }
  assert (Hndm : NoDup missing) by (apply NoDup_filter, Hnd).
  destruct missing as [|c0 mis] eqn:Em; intros E;
    match type of E with (_, ?b, _) = _ => assert (Hbr : b = br) by congruence end; subst br; clear E;
    cbn [br_requested br_already br_newly br_not_found].
  - split; [reflexivity|]. split; [cbn [List.length] in *; lia|]. intros c. split; [intros []|].
    intros (A & B & _). apply (Hm c). auto.
  - rewrite <- Em in *. set (models := get_bulk_data rt missing size err).
    split; [reflexivity|]. split.
    + pose proof (bulk_count rt missing size err Hndm) as HB. fold models in HB.
      pose proof (length_split (found models) missing) as HS. 
      rewrite HL, HS, HB.
      lia.
    + intros c. rewrite filter_In, negb_true_iff. split.
      * intros (A & B). pose proof (proj1 (Hm c) A) as (H1 & H2). split; auto. split; auto.
        intros Hr. apply (found_remote rt missing size err c A) in Hr. fold models in Hr. congruence.
      * intros (A & B & C). assert (Hin : In c missing) by (apply Hm; auto). split; auto.
        destruct (found models c) eqn:Ef; auto. exfalso. apply C.
        apply (found_remote rt missing size err c Hin). exact Ef.
Qed.
End Col.
