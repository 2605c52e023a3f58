(** Proofs about concurrent use of the storage. *)
From Verif Require Import Base StorageModel StorageSpec StorageProofs ConcModel ConcSpec.
From Coq Require Import Lia.

Lemma set_same {A} (f : nat -> A) i x : set f i x i = x.
Proof. unfold set. rewrite Nat.eqb_refl. reflexivity. Qed.
Lemma set_other {A} (f : nat -> A) i j x : j <> i -> set f i x j = f j.
Proof. intros H. unfold set. destruct (Nat.eqb_spec j i); [contradiction|reflexivity]. Qed.
Lemma same_results_true a b : same_results a b = true <-> a = b.
Proof. unfold same_results. destruct (list_eq_dec Req_EM_T a b); split; congruence. Qed.

Lemma merge_absent t m : lookup t m = None -> merge t m = t ++ [m].
Proof.
  unfold lookup. induction t as [|x t IH]; simpl; auto. destruct (same_key x m); [discriminate|].
  intros H. rewrite IH; auto.
Qed.
Lemma merge_present t m : lookup t m = Some m -> merge t m = t.
Proof.
  unfold lookup. induction t as [|x t IH]; simpl; [discriminate|]. destruct (same_key x m) eqn:E.
  - intros H. injection H as ->. reflexivity.
  - intros H. rewrite IH; auto.
Qed.

Section Conc.
Variable col : list R -> list R.
Hypothesis col_idem : forall x, col (col x) = col x.
Variables (t0 : table) (reqs : nat -> request).

Definition settled (t : table) : Prop := forall x, In x t -> col (m_results x) = m_results x.
Hypothesis t0_settled : settled t0.

Notation entry := (nat * effect * bool)%type.
Definition own (e : entry) := fst (fst e).
Definition eff (e : entry) := snd (fst e).
Definition ap := apply_effect col.
Definition replays (h : list entry) (t : table) : table := fold_left (fun t e => ap t (eff e)) h t.
Fixpoint quiet (t : table) (h : list entry) : Prop :=
  match h with [] => True | e :: h' => (snd e = true -> ap t (eff e) = t) /\ quiet (ap t (eff e)) h' end.
Definition effs (i : nat) (h : list entry) : list effect := map eff (filter (fun e => Nat.eqb (own e) i) h).

Lemma lookup_from_model t m : lookup t (from_model col m) = lookup t m.
Proof. reflexivity. Qed.
Lemma ap_settled t e : settled t -> settled (ap t e).
Proof.
  intros H. destruct e as [m|r]; unfold ap, apply_effect; simpl.
  - intros x Hx. apply merge_in in Hx. destruct Hx as [->|Hx]; [simpl; apply col_idem|apply H, Hx].
  - intros x Hx. apply filter_In in Hx. apply H, Hx.
Qed.
Lemma replays_settled h t : settled t -> settled (replays h t).
Proof. revert t; induction h as [|e h IH]; simpl; intros t H; auto. apply IH, ap_settled, H. Qed.
Lemma replays_app h1 h2 t : replays (h1 ++ h2) t = replays h2 (replays h1 t).
Proof. apply fold_left_app. Qed.
Lemma quiet_app t h1 h2 : quiet t (h1 ++ h2) <-> quiet t h1 /\ quiet (replays h1 t) h2.
Proof. revert t; induction h1 as [|e h1 IH]; simpl; intros t; [tauto|]. rewrite IH. tauto. Qed.
Lemma quiet_filter P h : forall t, quiet t h -> (forall e, In e h -> P e = false -> snd e = true) ->
  replays (filter P h) t = replays h t /\ quiet t (filter P h).
Proof.
  induction h as [|e h IH]; simpl; intros t Q H; auto. destruct Q as [Q1 Q2].
  destruct (IH (ap t (eff e)) Q2 (fun x Hx => H x (or_intror Hx))) as [I1 I2].
  destruct (P e) eqn:E; simpl; [split; auto|].
  assert (A : ap t (eff e) = t) by (apply Q1, H; auto). rewrite A in I1, I2 |- *. split; auto.
Qed.
Lemma noop_identity t m r : settled t -> lookup t m = Some r -> m_results r = m_results m -> ap t (Put m) = t.
Proof.
  intros S L E. unfold ap, apply_effect, insert_data; simpl. apply merge_present.
  change (lookup t m = Some (from_model col m)).
  rewrite L. f_equal. unfold lookup in L. apply find_some in L. destruct L as [L1 L2].
  apply same_key_iff in L2. destruct L2 as (A & B & C & D & F). apply S in L1.
  destruct r; simpl in *. unfold from_model. rewrite <- A, <- B, <- C, <- D, <- F, <- E, L1. reflexivity.
Qed.
Lemma insert_row_put m t w : insert_row col m t = Some w -> w = ap t (Put m).
Proof.
  unfold insert_row. destruct (lookup t m) eqn:E; [discriminate|]. intros H. injection H as <-.
  unfold ap, apply_effect, insert_data; simpl. symmetry. apply merge_absent. exact E.
Qed.
Lemma update_row_put m t w : update_row col m t = Some w -> w = ap t (Put m).
Proof. unfold update_row. destruct (lookup t m); [|discriminate]. intros H. injection H as <-. reflexivity. Qed.

Lemma effs_app i h1 h2 : effs i (h1 ++ h2) = effs i h1 ++ effs i h2.
Proof. unfold effs. rewrite filter_app, map_app. reflexivity. Qed.
Definition tag (i : nat) (b : bool) (l : list effect) : list entry := map (fun e => (i, e, b)) l.
Lemma effs_tag i b l : effs i (tag i b l) = l.
Proof.
  unfold effs, tag. induction l as [|e l IH]; simpl; auto. unfold own; simpl. rewrite Nat.eqb_refl. simpl.
  f_equal. exact IH.
Qed.
Lemma effs_tag_other i j b l : i <> j -> effs i (tag j b l) = [].
Proof.
  intros H. unfold effs, tag. induction l as [|e l IH]; simpl; auto. unfold own; simpl.
  destruct (Nat.eqb_spec j i); [congruence|exact IH].
Qed.
Definition drop (i : nat) (h : list entry) : list entry := filter (fun e => negb (Nat.eqb (own e) i)) h.
Lemma effs_drop i h : effs i (drop i h) = [].
Proof.
  unfold effs, drop. induction h as [|e h IH]; simpl; auto. destruct (Nat.eqb (own e) i) eqn:E; simpl; auto.
  rewrite E. exact IH.
Qed.
Lemma effs_drop_other i j h : i <> j -> effs i (drop j h) = effs i h.
Proof.
  intros H. unfold effs, drop. induction h as [|e h IH]; simpl; auto.
  destruct (Nat.eqb_spec (own e) j); simpl.
  - destruct (Nat.eqb_spec (own e) i); [congruence|exact IH].
  - destruct (Nat.eqb (own e) i); simpl; [f_equal|]; exact IH.
Qed.
Lemma replays_tag i b l t : replays (tag i b l) t = fold_left ap l t.
Proof. revert t; induction l as [|e l IH]; simpl; intros t; [reflexivity|apply IH]. Qed.
Lemma quiet_tag i l t : quiet t (tag i false l).
Proof. revert t; induction l as [|e l IH]; simpl; intros t; [exact I|]. split; [discriminate|apply IH]. Qed.
Lemma in_tag i b l e : In e (tag i b l) -> own e = i.
Proof. unfold tag. intros H. apply in_map_iff in H. destruct H as (x & <- & _). reflexivity. Qed.

(** where a running call stands: [h] holds its lookups that found the model stored already, [l] what it has written
    without committing *)
Definition progress (i : nat) (c : client) (h : list entry) (l : list effect) : Prop :=
  (exists ms rest, reqs i = Store ms /\ c_todo c = Store rest /\ map Put ms = effs i h ++ l ++ map Put rest)
  \/ (exists q, reqs i = Delete q /\ c_todo c = Delete q /\ effs i h = [] /\ l = [] /\ c_work c = None
        /\ (forall r, c_seen c = Some (Some r) -> answers r q))
  \/ (exists q r, reqs i = Delete q /\ c_todo c = Store [] /\ effs i h = [] /\ l = [Remove r] /\ answers r q).
Definition client_ok (i : nat) (c : client) (h : list entry) (l : list effect) : Prop :=
  match c_result c with
  | Some (Ok _) => performed (reqs i) (effs i h)
  | Some (Raise _) => effs i h = []
  | None => (forall e, In e h -> own e = i -> snd e = true) /\ progress i c h l
  end.
Definition cut (h : list entry) (before : list action) : Prop :=
  exists s1 s2, h = s1 ++ s2 /\ (forall e, In e s1 -> In (Step (own e)) before) /\
    (forall e, In e s2 -> c_result (d_clients (exec col (start t0 reqs) before) (own e)) = None).
Record inv (sched : list action) (d : db) (h : list entry) (l : nat -> list effect) : Prop := {
  i_table : d_table d = replays h t0;
  i_quiet : quiet t0 h;
  i_owner : forall e, In e h -> In (Step (own e)) sched;
  i_lock : forall i, c_work (d_clients d i) <> None -> d_lock d = Some i;
  i_work : forall i w, c_work (d_clients d i) = Some w -> w = fold_left ap (l i) (d_table d);
  i_idle : forall i, c_work (d_clients d i) = None -> l i = [];
  i_closed : forall i r, c_result (d_clients d i) = Some r -> c_work (d_clients d i) = None;
  i_client : forall i, client_ok i (d_clients d i) h (l i);
  i_cut : forall before after, sched = before ++ after -> cut h before }.

Lemma inv_start : inv [] (start t0 reqs) [] (fun _ => []).
Proof.
  constructor; simpl; auto; try tauto; try discriminate; try congruence.
  - intros i. unfold client_ok; simpl. split; [tauto|]. unfold progress. simpl. destruct (reqs i) as [ms|q] eqn:E.
    + left. exists ms, ms. auto.
    + right; left. exists q. repeat (split; [reflexivity|]). discriminate.
  - intros before after H. destruct before; [|discriminate]. exists [], []. simpl. tauto.
Qed.

Lemma cut_drop h before i : cut h before -> cut (drop i h) before.
Proof.
  intros (s1 & s2 & -> & A & B). exists (drop i s1), (drop i s2). unfold drop. rewrite filter_app. split; auto.
  split; intros e He; apply filter_In in He; [apply A|apply B]; tauto.
Qed.
Lemma act_result d a i r : c_result (d_clients d i) = Some r -> c_result (d_clients (act col d a) i) = Some r.
Proof.
  assert (F : forall j x t, c_result (d_clients d j) = None -> c_result (d_clients d i) = Some r ->
    c_result (d_clients (finish d j x t) i) = Some r).
  { intros j x t Hj Hi. unfold finish; simpl. destruct (Nat.eq_dec i j) as [->|N]; [congruence|]. rewrite set_other; auto. }
  assert (G : forall j t x k, c_result (d_clients d j) = None -> c_result (d_clients d i) = Some r ->
    c_result (d_clients (Db t (set (d_clients d) j x) k) i) = Some r).
  { intros j t x k Hj Hi. simpl. destruct (Nat.eq_dec i j) as [->|N]; [congruence|]. rewrite set_other; auto. }
  intros H. destruct a as [j|j]; simpl.
  - unfold step. destruct (c_result (d_clients d j)) eqn:E; auto.
    assert (W : forall todo f, c_result (d_clients (write d j todo f) i) = Some r).
    { intros todo f. unfold write. destruct (busy d j); [apply F; auto|]. destruct (f _); [apply G|apply F]; auto. }
    destruct (c_todo (d_clients d j)) as [[|m rest]|q].
    + apply F; auto.
    + destruct (c_seen (d_clients d j)) as [[x|]|]; auto.
      destruct (lookup _ m); [destruct (same_results _ _)|]; apply G; auto.
    + destruct (c_seen (d_clients d j)) as [[x|]|]; auto.
      destruct (get_data _ q) as [[x|]|]; [apply G|apply F|apply F]; auto.
  - unfold crash. destruct (c_result (d_clients d j)) eqn:E; auto.
Qed.
Lemma exec_snoc d s a : exec col d (s ++ [a]) = act col (exec col d s) a.
Proof. unfold exec. rewrite fold_left_app. reflexivity. Qed.
Lemma exec_result d s s' i : c_result (d_clients (exec col d (s ++ s')) i) = None ->
  c_result (d_clients (exec col d s) i) = None.
Proof.
  induction s' as [|a s' IH] using rev_ind; [rewrite app_nil_r; auto|].
  rewrite app_assoc, exec_snoc. intros H. apply IH.
  destruct (c_result (d_clients (exec col d (s ++ s')) i)) eqn:E; auto.
  rewrite (act_result _ a _ _ E) in H. discriminate.
Qed.

(** the cut property after one more action that keeps, drops or appends entries of the running call [i] *)
Lemma cut_step sched a h h' : 
  (forall before after, sched = before ++ after -> cut h before) ->
  (forall e, In e h' -> In (Step (own e)) (sched ++ [a])) ->
  (forall before, (exists after, sched = before ++ after) -> cut h before -> cut h' before) ->
  forall before after, sched ++ [a] = before ++ after -> cut h' before.
Proof.
  intros C O K before after E. destruct after as [|b after _] using rev_ind.
  - rewrite app_nil_r in E. subst before. exists h', []. rewrite app_nil_r. split; auto. split; auto. intros e [].
  - rewrite app_assoc in E. apply app_inj_tail in E. destruct E as [E _]. apply K; eauto.
Qed.

Lemma failed sched d h l i e a : inv sched d h l -> c_result (d_clients d i) = None -> a = Step i \/ a = Crash i ->
  exec col (start t0 reqs) sched = d ->
  inv (sched ++ [a]) (finish d i (Raise e) (d_table d)) (drop i h) (set l i []).
Proof.
  intros I N A X. destruct I as [I1 I2 I3 I4 I5 I6 I6' I7 I8].
  pose proof (I7 i) as Ci. unfold client_ok in Ci. rewrite N in Ci. destruct Ci as [Q P].
  assert (D : replays (drop i h) t0 = replays h t0 /\ quiet t0 (drop i h)).
  { apply quiet_filter; auto. intros x Hx Hf. apply Q; auto. apply negb_false_iff, Nat.eqb_eq in Hf. exact Hf. }
  destruct D as [D1 D2].
  assert (O : forall e, In e (drop i h) -> In (Step (own e)) (sched ++ [a])).
  { intros x Hx. apply filter_In in Hx. apply in_or_app. left. apply I3. tauto. }
  constructor; simpl; auto.
  - rewrite D1. exact I1.
  - intros j Hj. destruct (Nat.eq_dec j i) as [->|Nj]; [rewrite set_same in Hj; simpl in Hj; congruence|].
    rewrite set_other in Hj by auto. specialize (I4 j Hj). rewrite I4. destruct (Nat.eqb_spec j i); [contradiction|auto].
  - intros j w Hj. destruct (Nat.eq_dec j i) as [->|Nj]; [rewrite set_same in Hj; simpl in Hj; congruence|].
    rewrite set_other in Hj by auto; rewrite ?set_other by auto. apply I5. exact Hj.
  - intros j Hj. destruct (Nat.eq_dec j i) as [->|Nj]; [rewrite set_same; auto|]. rewrite set_other in Hj by auto; rewrite ?set_other by auto. auto.
  - intros j r Hj. destruct (Nat.eq_dec j i) as [->|Nj]; [rewrite set_same; auto|]. rewrite set_other in Hj by auto; rewrite ?set_other by auto. eauto.
  - intros j. destruct (Nat.eq_dec j i) as [->|Nj].
    + rewrite !set_same. unfold client_ok; simpl. apply effs_drop.
    + rewrite !set_other by auto. specialize (I7 j). unfold client_ok in *.
      destruct (c_result (d_clients d j)) as [[u|x]|]; rewrite ?effs_drop_other by auto; auto.
      destruct I7 as [J1 J2]. split.
      * intros y Hy. apply filter_In in Hy. apply J1. tauto.
      * unfold progress in *. rewrite effs_drop_other by auto. exact J2.
  - apply (cut_step sched a h); auto. intros before _. apply cut_drop.
Qed.

Lemma idle sched d h l a : inv sched d h l -> inv (sched ++ [a]) d h l.
Proof.
  intros [I1 I2 I3 I4 I5 I6 I6' I7 I8].
  assert (O : forall e, In e h -> In (Step (own e)) (sched ++ [a])) by (intros e He; apply in_or_app; left; auto).
  constructor; auto. apply (cut_step sched a h); auto.
Qed.
Lemma not_busy sched d h l i j : inv sched d h l -> busy d i = false -> c_work (d_clients d j) <> None -> j = i.
Proof.
  intros I B W. pose proof (i_lock _ _ _ _ I j W) as E. unfold busy in B. rewrite E in B.
  apply negb_false_iff, Nat.eqb_eq in B. auto.
Qed.
Lemma view_fold sched d h l i : inv sched d h l -> view d (d_clients d i) = fold_left ap (l i) (d_table d).
Proof.
  intros I. unfold view. destruct (c_work (d_clients d i)) as [w|] eqn:E.
  - apply (i_work _ _ _ _ I i w E).
  - rewrite (i_idle _ _ _ _ I i E). reflexivity.
Qed.
Lemma fold_ap_settled l t : settled t -> settled (fold_left ap l t).
Proof. revert t; induction l as [|e l IH]; simpl; intros t H; auto. apply IH, ap_settled, H. Qed.
Lemma view_settled sched d h l i : inv sched d h l -> settled (view d (d_clients d i)).
Proof.
  intros I. rewrite (view_fold sched d h l i I). apply fold_ap_settled. rewrite (i_table _ _ _ _ I).
  apply replays_settled, t0_settled.
Qed.

(** a SELECT *)
Lemma looked sched d h l i seen : inv sched d h l -> c_result (d_clients d i) = None ->
  (forall q r, reqs i = Delete q -> seen = Some (Some r) -> answers r q) ->
  inv (sched ++ [Step i])
    (Db (d_table d) (set (d_clients d) i (Client (c_todo (d_clients d i)) seen (c_work (d_clients d i)) None)) (d_lock d)) h l.
Proof.
  intros I N S. pose proof I as I'. destruct I' as [I1 I2 I3 I4 I5 I6 I6' I7 I8].
  assert (O : forall e, In e h -> In (Step (own e)) (sched ++ [Step i])) by (intros e He; apply in_or_app; left; auto).
  constructor; simpl; auto.
  - intros j Hj. destruct (Nat.eq_dec j i) as [->|Nj].
    + rewrite set_same in Hj. apply I4, Hj.
    + rewrite set_other in Hj by auto. apply I4, Hj.
  - intros j w Hj. destruct (Nat.eq_dec j i) as [->|Nj].
    + rewrite set_same in Hj. apply I5, Hj.
    + rewrite set_other in Hj by auto. apply I5, Hj.
  - intros j Hj. destruct (Nat.eq_dec j i) as [->|Nj].
    + rewrite set_same in Hj. apply I6, Hj.
    + rewrite set_other in Hj by auto. apply I6, Hj.
  - intros j r Hj. destruct (Nat.eq_dec j i) as [->|Nj].
    + rewrite set_same in Hj. discriminate.
    + rewrite set_other in Hj by auto. rewrite set_other by auto. eapply I6', Hj.
  - intros j. destruct (Nat.eq_dec j i) as [->|Nj]; [|rewrite set_other by auto; apply I7].
    rewrite set_same. specialize (I7 i). unfold client_ok in *. rewrite N in I7. simpl. destruct I7 as [J1 J2].
    split; auto. unfold progress in *. simpl. destruct J2 as [J|[J|J]]; [left; exact J| |right; right; exact J].
    right; left. destruct J as (q & A & B & C & D & E & _). exists q. repeat (split; [assumption|]).
    intros r Hr. eapply S; eauto.
  - apply (cut_step sched (Step i) h); auto.
Qed.
(** a lookup outside a transaction that finds the model stored already *)
Lemma found sched d h l i m rest r : inv sched d h l -> c_result (d_clients d i) = None ->
  exec col (start t0 reqs) sched = d ->
  c_todo (d_clients d i) = Store (m :: rest) -> c_work (d_clients d i) = None ->
  lookup (d_table d) m = Some r -> m_results r = m_results m ->
  inv (sched ++ [Step i])
    (Db (d_table d) (set (d_clients d) i (Client (Store rest) None (c_work (d_clients d i)) None)) (d_lock d))
    (h ++ tag i true [Put m]) l.
Proof.
  intros I N X T W L E. pose proof I as I'. destruct I' as [I1 I2 I3 I4 I5 I6 I6' I7 I8].
  assert (St : settled (d_table d)) by (rewrite I1; apply replays_settled, t0_settled).
  assert (Id : ap (d_table d) (Put m) = d_table d) by (apply (noop_identity _ m r); auto).
  assert (O : forall e, In e (h ++ tag i true [Put m]) -> In (Step (own e)) (sched ++ [Step i])).
  { intros e He. apply in_or_app. apply in_app_or in He. destruct He as [He|He]; [left; auto|right].
    apply in_tag in He. rewrite He. left; reflexivity. }
  constructor; simpl; auto.
  - rewrite replays_app, <- I1. simpl. symmetry. exact Id.
  - apply quiet_app. split; auto. simpl. split; auto. intros _. rewrite <- I1. exact Id.
  - intros j Hj. destruct (Nat.eq_dec j i) as [->|Nj].
    + rewrite set_same in Hj. apply I4, Hj.
    + rewrite set_other in Hj by auto. apply I4, Hj.
  - intros j w Hj. destruct (Nat.eq_dec j i) as [->|Nj].
    + rewrite set_same in Hj. apply I5, Hj.
    + rewrite set_other in Hj by auto. apply I5, Hj.
  - intros j Hj. destruct (Nat.eq_dec j i) as [->|Nj].
    + rewrite set_same in Hj. apply I6, Hj.
    + rewrite set_other in Hj by auto. apply I6, Hj.
  - intros j x Hj. destruct (Nat.eq_dec j i) as [->|Nj].
    + rewrite set_same in Hj. discriminate.
    + rewrite set_other in Hj by auto. rewrite set_other by auto. eapply I6', Hj.
  - intros j. destruct (Nat.eq_dec j i) as [->|Nj].
    + rewrite set_same. specialize (I7 i). unfold client_ok in *. rewrite N in I7. simpl. destruct I7 as [J1 J2].
      split.
      * intros e He Ho. apply in_app_or in He. destruct He as [He|[<-|[]]]; [auto|reflexivity].
      * unfold progress in *. change [(i, Put m, true)] with (tag i true [Put m]). rewrite effs_app, effs_tag. rewrite T in J2. simpl.
        destruct J2 as [(ms & rest' & A & B & C)|[(q & A & B & _)|(q & x & A & B & _)]]; try discriminate.
        injection B as <-. left. exists ms, rest. split; auto. split; auto. rewrite C, (I6 i W). simpl.
        rewrite <- app_assoc. reflexivity.
    + rewrite set_other by auto. specialize (I7 j). unfold client_ok, progress in *.
      change [(i, Put m, true)] with (tag i true [Put m]) in *.
      assert (F : effs j (h ++ tag i true [Put m]) = effs j h) by (rewrite effs_app, effs_tag_other, app_nil_r; auto).
      rewrite F. destruct (c_result (d_clients d j)) as [[u|x]|]; auto. destruct I7 as [J1 J2]. split; auto.
      intros e He Ho. apply in_app_or in He. destruct He as [He|[<-|[]]]; [auto|reflexivity].
  - apply (cut_step sched (Step i) h); auto. intros before [after Ha] (s1 & s2 & Hs & A & B).
    change [(i, Put m, true)] with (tag i true [Put m]).
    exists s1, (s2 ++ tag i true [Put m]). rewrite Hs, app_assoc. split; auto. split; auto.
    intros e He. apply in_app_or in He. destruct He as [He|He]; auto. apply in_tag in He. rewrite He.
    apply (exec_result _ before after). rewrite <- Ha, X. exact N.
Qed.
(** an effect inside a transaction *)
Lemma wrote sched d h l i todo e w : inv sched d h l -> c_result (d_clients d i) = None -> busy d i = false ->
  w = ap (view d (d_clients d i)) e ->
  ((exists m rest, e = Put m /\ c_todo (d_clients d i) = Store (m :: rest) /\ todo = Store rest) \/
   (exists q r, e = Remove r /\ c_todo (d_clients d i) = Delete q /\ answers r q /\ todo = Store [])) ->
  inv (sched ++ [Step i]) (Db (d_table d) (set (d_clients d) i (Client todo None (Some w) None)) (Some i))
    h (set l i (l i ++ [e])).
Proof.
  intros I N B W T. pose proof I as I'. destruct I' as [I1 I2 I3 I4 I5 I6 I6' I7 I8].
  assert (O : forall x, In x h -> In (Step (own x)) (sched ++ [Step i])) by (intros x He; apply in_or_app; left; auto).
  constructor; simpl; auto.
  - intros j Hj. destruct (Nat.eq_dec j i) as [->|Nj]; auto.
    rewrite set_other in Hj by auto. exfalso. apply Nj. eapply not_busy; eauto.
  - intros j v Hj. destruct (Nat.eq_dec j i) as [->|Nj].
    + rewrite set_same in Hj. rewrite set_same. simpl in Hj. injection Hj as <-. rewrite fold_left_app. simpl.
      rewrite <- (view_fold sched d h l i I). exact W.
    + rewrite set_other in Hj by auto. rewrite set_other by auto. apply I5, Hj.
  - intros j Hj. destruct (Nat.eq_dec j i) as [->|Nj].
    + rewrite set_same in Hj. discriminate.
    + rewrite set_other in Hj by auto. rewrite set_other by auto. apply I6, Hj.
  - intros j x Hj. destruct (Nat.eq_dec j i) as [->|Nj].
    + rewrite set_same in Hj. discriminate.
    + rewrite set_other in Hj by auto. rewrite set_other by auto. eapply I6', Hj.
  - intros j. destruct (Nat.eq_dec j i) as [->|Nj]; [|rewrite !set_other by auto; apply I7].
    rewrite !set_same. specialize (I7 i). unfold client_ok in *. rewrite N in I7. simpl. destruct I7 as [J1 J2].
    split; auto. unfold progress in *. simpl.
    destruct T as [(m & rest & -> & T & ->)|(q & r & -> & T & Ar & ->)]; rewrite T in J2.
    + destruct J2 as [(ms & rest' & A & C & D)|[(q & A & C & _)|(q & x & A & C & _)]]; try discriminate.
      injection C as <-. left. exists ms, rest. split; auto. split; auto. rewrite D. simpl. rewrite <- app_assoc. reflexivity.
    + destruct J2 as [(ms & rest' & A & C & D)|[(q' & A & C & D & F & _)|(q' & x & A & C & _)]]; try discriminate.
      injection C as <-. right; right. exists q, r. rewrite F. repeat (split; [assumption || reflexivity|]). exact Ar.
  - apply (cut_step sched (Step i) h); auto.
Qed.
(** the end of a successful call *)
Lemma committed sched d h l i : inv sched d h l -> c_result (d_clients d i) = None ->
  exec col (start t0 reqs) sched = d ->
  c_todo (d_clients d i) = Store [] \/
    (exists q, c_todo (d_clients d i) = Delete q /\ c_work (d_clients d i) = None) ->
  inv (sched ++ [Step i]) (finish d i (Ok tt) (view d (d_clients d i))) (h ++ tag i false (l i)) (set l i []).
Proof.
  intros I N X T. pose proof I as I'. destruct I' as [I1 I2 I3 I4 I5 I6 I6' I7 I8].
  pose proof (view_fold sched d h l i I) as V.
  assert (O : forall e, In e (h ++ tag i false (l i)) -> In (Step (own e)) (sched ++ [Step i])).
  { intros e He. apply in_or_app. apply in_app_or in He. destruct He as [He|He]; [left; auto|right].
    apply in_tag in He. rewrite He. left; reflexivity. }
  constructor; simpl; auto.
  - rewrite replays_app, replays_tag, <- I1. exact V.
  - apply quiet_app. split; auto. apply quiet_tag.
  - intros j Hj. destruct (Nat.eq_dec j i) as [->|Nj]; [rewrite set_same in Hj; simpl in Hj; congruence|].
    rewrite set_other in Hj by auto. specialize (I4 j Hj). rewrite I4. destruct (Nat.eqb_spec j i); [contradiction|auto].
  - intros j w Hj. destruct (Nat.eq_dec j i) as [->|Nj]; [rewrite set_same in Hj; simpl in Hj; congruence|].
    rewrite set_other in Hj by auto. rewrite set_other by auto.
    assert (Wi : c_work (d_clients d i) = None).
    { destruct (c_work (d_clients d i)) eqn:Ei; auto. exfalso.
      assert (A : d_lock d = Some i) by (apply I4; congruence). assert (B : d_lock d = Some j) by (apply I4; congruence).
      congruence. }
    unfold view. rewrite Wi. apply I5, Hj.
  - intros j Hj. destruct (Nat.eq_dec j i) as [->|Nj]; [rewrite set_same; auto|].
    rewrite set_other in Hj by auto; rewrite ?set_other by auto. auto.
  - intros j r Hj. destruct (Nat.eq_dec j i) as [->|Nj]; [rewrite set_same; auto|].
    rewrite set_other in Hj by auto; rewrite ?set_other by auto. eauto.
  - intros j. destruct (Nat.eq_dec j i) as [->|Nj].
    + rewrite !set_same. specialize (I7 i). unfold client_ok in *. rewrite N in I7. simpl. destruct I7 as [J1 J2].
      rewrite effs_app, effs_tag. unfold progress in J2. unfold performed.
      destruct T as [T|(q & T & Wn)]; rewrite T in J2.
      * destruct J2 as [(ms & rest' & A & C & D)|[(q' & A & C & _)|(q' & x & A & C & D & F & G)]]; try discriminate.
        -- injection C as <-. rewrite A, D. simpl. rewrite app_nil_r. reflexivity.
        -- rewrite A, D, F. right. exists x. auto.
      * destruct J2 as [(ms & rest' & A & C & D)|[(q' & A & C & D & F & _)|(q' & x & A & C & _)]]; try discriminate.
        rewrite A, D, F. left. reflexivity.
    + rewrite !set_other by auto. specialize (I7 j). unfold client_ok, progress in *.
      assert (F : effs j (h ++ tag i false (l i)) = effs j h) by (rewrite effs_app, effs_tag_other, app_nil_r; auto).
      rewrite F. destruct (c_result (d_clients d j)) as [[u|x]|]; auto. destruct I7 as [J1 J2]. split; auto.
      intros e He Ho. apply in_app_or in He. destruct He as [He|He]; [auto|]. apply in_tag in He. congruence.
  - apply (cut_step sched (Step i) h); auto. intros before [after Ha] (s1 & s2 & Hs & A & B).
    exists s1, (s2 ++ tag i false (l i)). rewrite Hs, app_assoc. split; auto. split; auto.
    intros e He. apply in_app_or in He. destruct He as [He|He]; auto. apply in_tag in He. rewrite He.
    apply (exec_result _ before after). rewrite <- Ha, X. exact N.
Qed.
Lemma written sched d h l i todo f e : inv sched d h l -> c_result (d_clients d i) = None ->
  exec col (start t0 reqs) sched = d ->
  (forall t w, f t = Some w -> w = ap t e) ->
  ((exists m rest, e = Put m /\ c_todo (d_clients d i) = Store (m :: rest) /\ todo = Store rest) \/
   (exists q r, e = Remove r /\ c_todo (d_clients d i) = Delete q /\ answers r q /\ todo = Store [])) ->
  exists h' l', inv (sched ++ [Step i]) (write d i todo f) h' l'.
Proof.
  intros I N X F T. unfold write. destruct (busy d i) eqn:B.
  - do 2 eexists. apply failed; eauto.
  - destruct (f (view d (d_clients d i))) as [w|] eqn:E.
    + do 2 eexists. eapply wrote; eauto.
    + do 2 eexists. apply failed; eauto.
Qed.
Lemma finish_table d i r : c_work (d_clients d i) = None -> finish d i r (d_table d) = finish d i r (view d (d_clients d i)).
Proof. intros H. unfold view. rewrite H. reflexivity. Qed.
Lemma acted sched d h l a : inv sched d h l -> exec col (start t0 reqs) sched = d ->
  exists h' l', inv (sched ++ [a]) (act col d a) h' l'.
Proof.
  intros I X. destruct a as [i|i]; simpl.
  2:{ unfold crash. destruct (c_result (d_clients d i)) eqn:N; do 2 eexists; [apply idle, I|].
      apply failed; eauto. }
  unfold step. destruct (c_result (d_clients d i)) eqn:N; [do 2 eexists; apply idle, I|].
  destruct (c_todo (d_clients d i)) as [[|m rest]|q] eqn:T.
  - do 2 eexists. apply committed; eauto.
  - destruct (c_seen (d_clients d i)) as [[x|]|] eqn:S.
    + apply (written sched d h l i _ _ (Put m)); eauto 6. intros t w. apply update_row_put.
    + apply (written sched d h l i _ _ (Put m)); eauto 6. intros t w. apply insert_row_put.
    + destruct (lookup (view d (d_clients d i)) m) as [r|] eqn:L.
      * destruct (same_results (m_results r) (m_results m)) eqn:E.
        -- apply same_results_true in E. destruct (c_work (d_clients d i)) as [w|] eqn:W.
           ++ exists h, (set l i (l i ++ [Put m])).
              assert (Lk : d_lock d = Some i) by (apply (i_lock _ _ _ _ I); congruence). rewrite Lk.
              apply wrote; auto.
              ** unfold busy. rewrite Lk, Nat.eqb_refl. reflexivity.
              ** transitivity (view d (d_clients d i)); [unfold view; rewrite W; reflexivity|].
                 symmetry. apply (noop_identity _ m r); auto. apply (view_settled sched d h l i I).
              ** left. eauto.
           ++ rewrite <- W. do 2 eexists. eapply found; eauto. unfold view in L. rewrite W in L. exact L.
        -- rewrite <- T. exists h, l. apply looked; auto. intros q r' Hq. exfalso.
           pose proof (i_client _ _ _ _ I i) as C. unfold client_ok in C. rewrite N in C. destruct C as [_ P].
           unfold progress in P. rewrite T in P.
           destruct P as [(ms & rest' & A & _)|[(q' & A & C & _)|(q' & x & A & C & _)]]; congruence.
      * rewrite <- T. exists h, l. apply looked; auto. discriminate.
  - assert (W : c_work (d_clients d i) = None /\ reqs i = Delete q /\ (forall r, c_seen (d_clients d i) = Some (Some r) -> answers r q)).
    { pose proof (i_client _ _ _ _ I i) as C. unfold client_ok in C. rewrite N in C. destruct C as [_ P].
      unfold progress in P. rewrite T in P.
      destruct P as [(ms & rest' & A & C & _)|[(q' & A & C & _ & _ & D & E)|(q' & x & A & C & _)]]; try congruence.
      injection C as <-. auto. }
    destruct W as (W & Rq & S0).
    destruct (c_seen (d_clients d i)) as [[x|]|] eqn:S.
    + apply (written sched d h l i _ _ (Remove x)); eauto 6.
      * intros t w Hw. injection Hw as <-. reflexivity.
      * right. exists q, x. auto.
    + do 2 eexists. apply idle, I.
    + destruct (get_data (view d (d_clients d i)) q) as [[r|]|e] eqn:G.
      * rewrite <- T. exists h, l. apply looked; auto. intros q' r' Hq Hr. injection Hr as <-.
        assert (q' = q) by congruence. subst q'. unfold get_data, scalar_one_or_none in G.
        destruct (filter (matches q) _) as [|y [|z g]] eqn:F; try discriminate. injection G as <-.
        assert (Hy : In y (filter (matches q) (view d (d_clients d i)))) by (rewrite F; left; auto).
        apply filter_In in Hy. apply matches_iff. tauto.
      * rewrite finish_table by auto. do 2 eexists. apply committed; eauto.
      * do 2 eexists. apply failed; eauto.
Qed.
Lemma execs sched : exists h l, inv sched (exec col (start t0 reqs) sched) h l.
Proof.
  induction sched as [|a sched (h & l & IH)] using rev_ind.
  - do 2 eexists. apply inv_start.
  - rewrite exec_snoc. eapply acted; eauto.
Qed.
End Conc.

Section Alone.
Variable col : list R -> list R.
Hypothesis col_idem : forall x, col (col x) = col x.
Variable i : nat.
Lemma done_stays k : forall d r, c_result (d_clients d i) = Some r -> exec col d (repeat (Step i) k) = d.
Proof.
  induction k as [|k IH]; intros d r H; auto. unfold exec in *. simpl.
  assert (E : step col d i = d) by (unfold step; rewrite H; reflexivity). rewrite E. eapply IH, H.
Qed.
Lemma exec_S d k : exec col d (repeat (Step i) (S k)) = exec col (step col d i) (repeat (Step i) k).
Proof. reflexivity. Qed.
(** the end of a call that wrote the effects [w] *)
Definition ended (d : db) (t : table) (r : result unit) : Prop :=
  d_table d = t /\ c_result (d_clients d i) = Some r.
Lemma store_alone ms : forall d k, c_todo (d_clients d i) = Store ms -> c_seen (d_clients d i) = None ->
  c_result (d_clients d i) = None -> busy d i = false -> settled col (view d (d_clients d i)) ->
  (2 * length ms + 1 <= k)%nat ->
  ended (exec col d (repeat (Step i) k))
    (fold_left (fun w m => merge w (from_model col m)) ms (view d (d_clients d i))) (Ok tt).
Proof.
  induction ms as [|m ms IH]; intros d k T S0 N B St Hk.
  - destruct k as [|k]; [simpl in Hk; lia|]. rewrite exec_S.
    assert (E : step col d i = finish d i (Ok tt) (view d (d_clients d i))) by (unfold step; rewrite N, T; reflexivity).
    rewrite E, (done_stays k _ (Ok tt)); unfold ended, finish; simpl; rewrite ?set_same; auto.
  - simpl in Hk. destruct k as [|[|k]]; try lia.
    assert (Sm : settled col (merge (view d (d_clients d i)) (from_model col m))).
    { intros x Hx. apply merge_in in Hx. destruct Hx as [->|Hx]; [apply col_idem|apply St, Hx]. }
    destruct (lookup (view d (d_clients d i)) m) as [r|] eqn:L.
    + destruct (same_results (m_results r) (m_results m)) eqn:E.
      * rewrite exec_S.
        assert (X : step col d i = Db (d_table d)
          (set (d_clients d) i (Client (Store ms) None (c_work (d_clients d i)) None)) (d_lock d)).
        { unfold step. rewrite N, T, S0, L, E. reflexivity. }
        rewrite X. apply same_results_true in E.
        assert (Id : merge (view d (d_clients d i)) (from_model col m) = view d (d_clients d i)).
        { apply (noop_identity col _ m r); auto. }
        simpl fold_left. rewrite Id.
        assert (V : forall z, view (Db (d_table d) (set (d_clients d) i (Client (Store ms) None (c_work (d_clients d i)) None)) z)
          (d_clients (Db (d_table d) (set (d_clients d) i (Client (Store ms) None (c_work (d_clients d i)) None)) z) i)
          = view d (d_clients d i)).
        { intros z. unfold view. simpl. rewrite set_same. reflexivity. }
        rewrite <- (V (d_lock d)). apply IH; try (simpl; rewrite set_same; reflexivity); [exact B|rewrite V; exact St|lia].
      * assert (X : exec col d (repeat (Step i) (S (S k))) = exec col (Db (d_table d)
          (set (set (d_clients d) i (Client (Store (m :: ms)) (Some (Some r)) (c_work (d_clients d i)) None)) i
             (Client (Store ms) None (Some (merge (view d (d_clients d i)) (from_model col m))) None)) (Some i)) (repeat (Step i) k)).
        { rewrite !exec_S. f_equal. unfold step at 2. rewrite N, T, S0, L, E. unfold step. simpl. rewrite set_same. simpl.
          unfold write. change (busy _ i) with (busy d i). rewrite B.
          unfold update_row, view in *. simpl. rewrite set_same. simpl. rewrite L. reflexivity. }
        rewrite X. simpl fold_left.
        match goal with |- ended (exec col ?D _) _ _ => pose proof (IH D k) as J;
          assert (V : view D (d_clients D i) = merge (view d (d_clients d i)) (from_model col m))
            by (unfold view at 1; simpl; rewrite set_same; reflexivity) end.
        rewrite V in J. apply J; try (simpl; rewrite set_same; reflexivity); auto.
        -- unfold busy. simpl. rewrite Nat.eqb_refl. reflexivity.
        -- lia.
    + assert (X : exec col d (repeat (Step i) (S (S k))) = exec col (Db (d_table d)
          (set (set (d_clients d) i (Client (Store (m :: ms)) (Some None) (c_work (d_clients d i)) None)) i
             (Client (Store ms) None (Some (merge (view d (d_clients d i)) (from_model col m))) None)) (Some i)) (repeat (Step i) k)).
      { rewrite !exec_S. f_equal. unfold step at 2. rewrite N, T, S0, L. unfold step. simpl. rewrite set_same. simpl.
        unfold write. change (busy _ i) with (busy d i). rewrite B.
        unfold insert_row, view in *. simpl. rewrite set_same. simpl. rewrite L.
        rewrite (merge_absent _ (from_model col m)) by exact L. reflexivity. }
      rewrite X. simpl fold_left.
      match goal with |- ended (exec col ?D _) _ _ => pose proof (IH D k) as J;
        assert (V : view D (d_clients D i) = merge (view d (d_clients d i)) (from_model col m))
          by (unfold view at 1; simpl; rewrite set_same; reflexivity) end.
      rewrite V in J. apply J; try (simpl; rewrite set_same; reflexivity); auto.
      * unfold busy. simpl. rewrite Nat.eqb_refl. reflexivity.
      * lia.
Qed.
End Alone.
