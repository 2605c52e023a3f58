(** Property C122: an iteration of the medcouple search counts the table and stops at a median. *)
From Verif Require Import Base BhsModel BhsSpec BhsScanSpec.
From Coq Require Import Permutation Sorted ZArith Lra Lia.
Local Open Scope R_scope.

Lemma advance_spec c steps j : let r := advance c steps j in (j <= r <= j + steps)%nat /\ (forall k, (j <= k < r)%nat -> c k = true) /\ ((r < j + steps)%nat -> c r = false).
Proof.
  revert j. induction steps as [|s IH]; intros j; cbn [advance]; [split; [lia|split; intros; lia]|].
  destruct (c j) eqn:E.
  - destruct (IH (S j)) as (A & B & C). split; [lia|]. split.
    + intros k Hk. destruct (Nat.eq_dec k j) as [->|]; [exact E|]. apply B. lia.
    + intros H. apply C. lia.
  - split; [lia|]. split; [intros; lia|auto].
Qed.
Lemma retreat_spec c j : let r := retreat c j in (r <= j)%nat /\ (forall k, (r < k <= j)%nat -> c k = true) /\ ((1 <= r)%nat -> c r = false).
Proof.
  induction j as [|j IH]; cbn [retreat]; [split; [lia|split; intros; lia]|].
  destruct (c (S j)) eqn:E.
  - destruct IH as (A & B & C). split; [lia|]. split; [|exact C].
    intros k Hk. destruct (Nat.eq_dec k (S j)) as [->|]; [exact E|]. apply B. lia.
  - split; [lia|]. split; [intros; lia|auto].
Qed.
Lemma filter_count (P : nat -> bool) n r : (r <= n)%nat -> (forall k, (1 <= k <= r)%nat -> P k = true) -> (forall k, (r < k <= n)%nat -> P k = false) -> length (filter P (seq 1 n)) = r.
Proof.
  intros Hr HT HF. replace n with (r + (n - r))%nat by lia. rewrite seq_app, filter_app, app_length.
  assert (A : filter P (seq 1 r) = seq 1 r).
  { assert (G : forall l, (forall k, In k l -> P k = true) -> filter P l = l).
    { induction l as [|a l IH]; intros H; [reflexivity|]. simpl. rewrite (H a (or_introl eq_refl)), IH; [reflexivity|]. intros k Hk. apply H. now right. }
    apply G. intros k Hk. apply in_seq in Hk. apply HT. lia. }
  assert (B : filter P (seq (1 + r) (n - r)) = []).
  { assert (G : forall l, (forall k, In k l -> P k = false) -> filter P l = []).
    { induction l as [|a l IH]; intros H; [reflexivity|]. simpl. rewrite (H a (or_introl eq_refl)), IH; [reflexivity|]. intros k Hk. apply H. now right. }
    apply G. intros k Hk. apply in_seq in Hk. apply HF. lia. }
  rewrite A, B, seq_length. simpl. lia.
Qed.
Section Scan.
Context (x : list R) (start h1 h2 : nat) (trial : R).
Let cp i k := Rltb (bhs_tol trial) (cell x start h1 k i - trial).
Let cq i k := Rltb (bhs_tol trial) (trial - cell x start h1 k i).
Hypothesis HF : falling h1 h2 (cell x start h1).
Lemma p_scan_counts rows j : (1 <= j <= h1 + 1)%nat -> (forall i, In i rows -> (1 <= i <= h2)%nat) -> StronglySorted (fun a b => (b <= a)%nat) rows ->
  (forall i k, In i rows -> (1 <= k < j)%nat -> cp i k = true) -> p_scan x start h1 trial rows j = map (fun i => length (filter (cp i) (seq 1 h1))) rows.
Proof.
  revert j. induction rows as [|i r IH]; intros j Hj HR HS HC; [reflexivity|]. cbn [p_scan map]. inversion HS as [|? ? HS' HA]; subst.
  set (j' := advance _ _ _). destruct (advance_spec (fun j => Rltb (bhs_tol trial) (cell x start h1 j i - trial)) (h1 + 1 - j) j) as (A & B & C). fold j' in A, B, C.
  assert (Hi : (1 <= i <= h2)%nat) by (apply HR; now left).
  assert (D : forall k, (1 <= k < j')%nat -> cp i k = true). { intros k Hk. destruct (Nat.lt_ge_cases k j) as [L|L]; [apply HC; [now left|lia]|]. apply B. lia. }
  f_equal.
  - symmetry. apply filter_count; [lia| |].
    + intros k Hk. apply D. lia.
    + intros k Hk. assert (F : cp i j' = false) by (apply C; lia). unfold cp in *. apply Rltb_false in F. apply Rltb_false.
      assert (cell x start h1 k i <= cell x start h1 j' i) by (apply HF; lia). lra.
  - apply IH; [lia|intros; apply HR; now right|exact HS'|]. intros i' k Hi' Hk. specialize (D k Hk). assert (Hi2 : (1 <= i' <= h2)%nat) by (apply HR; now right).
    rewrite Forall_forall in HA. specialize (HA i' Hi'). unfold cp in *. apply Rltb_true in D. apply Rltb_true.
    assert (cell x start h1 k i <= cell x start h1 k i') by (apply HF; lia). lra.
Qed.
Lemma q_scan_counts rows j : (j <= h1)%nat -> (forall i, In i rows -> (1 <= i <= h2)%nat) -> StronglySorted (fun a b => (a <= b)%nat) rows ->
  (forall i k, In i rows -> (j < k <= h1)%nat -> cq i k = true) -> map (fun v => (v - 1)%nat) (q_scan x start h1 trial rows j) = map (fun i => length (filter (fun k => negb (cq i k)) (seq 1 h1))) rows.
Proof.
  revert j. induction rows as [|i r IH]; intros j Hj HR HS HC; [reflexivity|]. cbn [q_scan map]. inversion HS as [|? ? HS' HA]; subst.
  set (j' := retreat _ _). destruct (retreat_spec (fun j => Rltb (bhs_tol trial) (trial - cell x start h1 j i)) j) as (A & B & C). fold j' in A, B, C.
  assert (Hi : (1 <= i <= h2)%nat) by (apply HR; now left).
  assert (D : forall k, (j' < k <= h1)%nat -> cq i k = true). { intros k Hk. destruct (Nat.lt_ge_cases j k) as [L|L]; [apply HC; [now left|lia]|]. apply B. lia. }
  f_equal.
  - symmetry. replace (j' + 1 - 1)%nat with j' by lia. apply filter_count; [lia| |].
    + intros k Hk. assert (F : cq i j' = false) by (apply C; lia). apply negb_true_iff. unfold cq in *. apply Rltb_false in F. apply Rltb_false.
      assert (cell x start h1 j' i <= cell x start h1 k i) by (apply HF; lia). lra.
    + intros k Hk. apply negb_false_iff. apply D. lia.
  - apply IH; [lia|intros; apply HR; now right|exact HS'|]. intros i' k Hi' Hk. specialize (D k Hk). assert (Hi2 : (1 <= i' <= h2)%nat) by (apply HR; now right).
    rewrite Forall_forall in HA. specialize (HA i' Hi'). unfold cq in *. apply Rltb_true in D. apply Rltb_true.
    assert (cell x start h1 k i' <= cell x start h1 k i) by (apply HF; lia). lra.
Qed.
End Scan.
Lemma sorted_seq s n : StronglySorted (fun a b => (a <= b)%nat) (seq s n).
Proof. revert s. induction n as [|n IH]; intros s; constructor; [apply IH|]. apply Forall_forall. intros k Hk. apply in_seq in Hk. lia. Qed.
Lemma sorted_rev_seq s n : StronglySorted (fun a b => (b <= a)%nat) (rev (seq s n)).
Proof.
  revert s. induction n as [|n IH]; intros s; [constructor|]. rewrite seq_S, rev_app_distr. simpl. constructor; [apply IH|].
  apply Forall_forall. intros k Hk. apply in_rev in Hk. apply in_seq in Hk. lia.
Qed.
Lemma count_entries (P : R -> bool) h1 h2 c : length (filter P (entries h1 h2 c)) = list_sum (map (fun i => length (filter (fun k => P (c k i)) (seq 1 h1))) (seq 1 h2)).
Proof.
  unfold entries. generalize (seq 1 h2) as l. induction l as [|i l IH]; [reflexivity|]. cbn [flat_map map]. rewrite filter_app, app_length, IH. simpl. f_equal.
  generalize (seq 1 h1) as m. induction m as [|k m IHm]; [reflexivity|]. simpl. destruct (P (c k i)); simpl; rewrite IHm; reflexivity.
Qed.
Lemma sum_p_counts x start h1 h2 trial : falling h1 h2 (cell x start h1) ->
  list_sum (rev (p_scan x start h1 trial (rev (seq 1 h2)) 1)) = above_count (trial + bhs_tol trial) (entries h1 h2 (cell x start h1)).
Proof.
  intros HF. rewrite (p_scan_counts x start h1 h2 trial HF); [|lia|intros i Hi; apply in_rev in Hi; apply in_seq in Hi; lia|apply sorted_rev_seq|intros; lia].
  rewrite map_rev, rev_involutive. unfold above_count. rewrite count_entries. f_equal. apply map_ext. intros i. f_equal. apply filter_ext. intros k.
  apply Bool.eq_iff_eq_true. rewrite !Rltb_true. split; intros; lra.
Qed.
Lemma sum_q_counts x start h1 h2 trial : falling h1 h2 (cell x start h1) ->
  list_sum (map (fun v => (v - 1)%nat) (q_scan x start h1 trial (seq 1 h2) h1)) = reach_count (trial - bhs_tol trial) (entries h1 h2 (cell x start h1)).
Proof.
  intros HF. rewrite (q_scan_counts x start h1 h2 trial HF); [|lia|intros i Hi; apply in_seq in Hi; lia|apply sorted_seq|intros; lia].
  unfold reach_count. rewrite count_entries. f_equal. apply map_ext. intros i. f_equal. apply filter_ext. intros k.
  apply Bool.eq_iff_eq_true. rewrite negb_true_iff, Rltb_false, Rleb_true. split; intros; lra.
Qed.
(** an iteration counts the table values above, and not below, its trial value, and narrows the table or stops accordingly *)
Lemma C122_iteration_holds : forall x start h1 h2 fuel knew s s', falling h1 h2 (cell x start h1) -> mc_iteration x start h1 h2 fuel knew s = Some s' ->
  let t := mc_trial s' in let table := entries h1 h2 (cell x start h1) in
  let up := above_count (t + bhs_tol t) table in let reach := reach_count (t - bhs_tol t) table in
  ((knew <= up)%nat -> mc_found s' = false /\ mc_nr s' = up /\ mc_nl s' = mc_nl s /\ list_sum (mc_right s') = up) /\
  ((up < knew <= reach)%nat -> mc_found s' = true) /\
  ((up < knew)%nat -> (reach < knew)%nat -> mc_found s' = false /\ mc_nl s' = reach /\ mc_nr s' = mc_nr s).
Proof.
  intros x start h1 h2 fuel knew s s' HF E. unfold mc_iteration in E. destruct (whi_med_i _ _ _ _) as [[t w]|]; [|discriminate]. cbv zeta in E. injection E as E.
  rewrite (sum_p_counts x start h1 h2 t HF) in E. rewrite (sum_q_counts x start h1 h2 t HF) in E.
  pose proof (sum_p_counts x start h1 h2 t HF) as SP.
  destruct (Nat.leb_spec knew (above_count (t + bhs_tol t) (entries h1 h2 (cell x start h1)))) as [L1|L1].
  - subst s'. cbn. repeat split; intros; try lia. exact SP.
  - destruct (Nat.leb_spec knew (reach_count (t - bhs_tol t) (entries h1 h2 (cell x start h1)))) as [L2|L2]; subst s'; cbn; repeat split; intros; try lia; reflexivity.
Qed.
(** the value an iteration stops at has fewer than knew table values above it and at least knew not below it *)
Lemma C122_found_holds : forall x start h1 h2 fuel knew s s', falling h1 h2 (cell x start h1) -> mc_iteration x start h1 h2 fuel knew s = Some s' -> mc_found s' = true ->
  let t := mc_trial s' in let table := entries h1 h2 (cell x start h1) in
  (above_count (t + bhs_tol t) table < knew <= reach_count (t - bhs_tol t) table)%nat.
Proof.
  intros x start h1 h2 fuel knew s s' HF E F. destruct (C122_iteration_holds x start h1 h2 fuel knew s s' HF E) as (A & B & C). cbv zeta in *.
  destruct (Nat.lt_ge_cases (above_count (mc_trial s' + bhs_tol (mc_trial s')) (entries h1 h2 (cell x start h1))) knew) as [L|L]; [|destruct (A L) as [X _]; rewrite X in F; discriminate].
  split; [exact L|]. destruct (Nat.lt_ge_cases (reach_count (mc_trial s' - bhs_tol (mc_trial s')) (entries h1 h2 (cell x start h1))) knew) as [M|M]; [destruct (C L M) as [X _]; rewrite X in F; discriminate|exact M].
Qed.
Lemma kern_mono a a' b b' : 0 <= a <= a' -> b <= b' <= 0 -> 0 < a - b' -> (a + b) / (a - b) <= (a' + b') / (a' - b').
Proof.
  intros Ha Hb Hd. apply (Rmult_le_reg_r ((a - b) * (a' - b'))); [nra|].
  replace ((a + b) / (a - b) * ((a - b) * (a' - b'))) with ((a + b) * (a' - b')) by (field; lra).
  replace ((a' + b') / (a' - b') * ((a - b) * (a' - b'))) with ((a' + b') * (a - b)) by (field; lra). nra.
Qed.
(** the kernel table of a sorted sample is falling *)
Lemma C122_table_holds : forall x start h1 h2,
  (forall k k', (1 <= k <= k')%nat -> (k' <= h1)%nat -> nth k' x 0 <= nth k x 0) ->
  (forall i i', (1 <= i <= i')%nat -> (i' <= h2)%nat -> nth (start + i' - 1) x 0 <= nth (start + i - 1) x 0) ->
  (forall k, (1 <= k <= h1)%nat -> 0 <= nth k x 0) -> (forall i, (1 <= i <= h2)%nat -> nth (start + i - 1) x 0 <= 0) ->
  (forall k i, (1 <= k <= h1)%nat -> (1 <= i <= h2)%nat -> 2 * bhs_eps1 <= nth k x 0 - nth (start + i - 1) x 0) ->
  falling h1 h2 (cell x start h1).
Proof.
  intros x start h1 h2 H1 H2 P1 P2 G k k' i i' Hk Hk' Hi Hi'. assert (EP : 0 < bhs_eps1) by (unfold bhs_eps1; apply Rdiv_lt_0_compat; [lra|apply pow_lt; lra]).
  assert (K : forall k i, (1 <= k <= h1)%nat -> (1 <= i <= h2)%nat -> cell x start h1 k i = (nth k x 0 + nth (start + i - 1) x 0) / (nth k x 0 - nth (start + i - 1) x 0)).
  { intros u v Hu Hv. unfold cell, h_kern. specialize (G u v Hu Hv). specialize (P2 v Hv). rewrite Rabs_right by lra. rewrite (proj2 (Rltb_false _ _)) by lra. rewrite (proj2 (Rltb_false 0 _)) by lra. reflexivity. }
  rewrite !K by lia. pose proof (G k' i ltac:(lia) ltac:(lia)). apply kern_mono.
  - split; [apply P1; lia|apply H1; lia].
  - split; [apply H2; lia|apply P2; lia].
  - lra.
Qed.
Definition one_cell : mc_state := MC [1%nat] [1%nat] [0] [0%nat] 1 0 0 (-2) false.
Lemma one_cell_value : cell [0; 1; -1] 2 1 1 1 = 0.
Proof.
  unfold cell, h_kern. simpl. assert (EP : bhs_eps1 < 1 / 2). { unfold bhs_eps1. apply (Rmult_lt_reg_r (10 ^ 308)); [apply pow_lt; lra|]. unfold Rdiv at 1. rewrite Rmult_assoc, Rinv_l by (apply pow_nonzero; lra).
    assert (10 ^ 1 <= 10 ^ 308) by (apply Rle_pow; [lra|lia]). lra. }
  rewrite Rabs_right by lra. rewrite (proj2 (Rltb_false _ _)) by lra. rewrite (proj2 (Rltb_false _ _)) by lra. simpl. lra.
Qed.
(** the table of the sample -1, 1 *)
Lemma C122_nonvacuous_holds : falling 1 1 (cell [0; 1; -1] 2 1) /\ exists s', mc_iteration [0; 1; -1] 2 1 1 1 1 one_cell = Some s' /\ mc_found s' = true /\ mc_trial s' = 0.
Proof.
  assert (F : falling 1 1 (cell [0; 1; -1] 2 1)) by (intros k k' i i' H1 H2 H3 H4; replace k with 1%nat by lia; replace k' with 1%nat by lia; replace i with 1%nat by lia; replace i' with 1%nat by lia; lra).
  split; [exact F|].
  assert (E : exists s', mc_iteration [0; 1; -1] 2 1 1 1 1 one_cell = Some s' /\ mc_trial s' = 0).
  { unfold mc_iteration, bounds, one_cell. cbn [mc_left mc_right mc_work mc_iwt seq combine]. cbn [filter]. change (is_open (1, (1, 1)))%nat with true. cbn [length map app skipn].
    unfold row_value, row_weight. cbn [fst snd]. change (1 + (1 - 1 + 1) / 2)%nat with 1%nat. change (1 - 1 + 1)%nat with 1%nat. rewrite one_cell_value.
    unfold whi_med_i. cbn [whi_loop]. unfold whi_round, whi_trial, whi_weight, whi_cells. cbn [ws_n ws_a ws_w ws_rest firstn combine]. change (1 / 2)%nat with 0%nat. cbn [filter fst].
    change (nth 0 (rsort [0]) 0) with 0. rewrite (proj2 (Reqb_true 0 0) eq_refl). rewrite (proj2 (Rltb_false 0 0)) by lra. cbn [map snd list_sum fold_right].
    cbn [Nat.add Nat.mul Nat.ltb Nat.leb]. cbv zeta. match goal with |- context [Some (if ?b then _ else _)] => destruct b end; [|match goal with |- context [Some (if ?b then _ else _)] => destruct b end]; eexists; split; reflexivity. }
  destruct E as (s' & E & T). exists s'. split; [exact E|]. split; [|exact T].
  destruct (C122_iteration_holds _ _ _ _ _ _ _ _ F E) as (_ & B & _). cbv zeta in B. apply B. rewrite T. unfold entries. cbn [seq flat_map map app]. rewrite one_cell_value.
  assert (P : 0 < bhs_tol 0). { unfold bhs_tol. assert (0 < bhs_eps0) by (unfold bhs_eps0; apply Rdiv_lt_0_compat; [lra|apply pow_lt; lra]). pose proof (Rabs_pos 0). nra. }
  unfold above_count, reach_count. cbn [filter]. rewrite (proj2 (Rltb_false _ _)) by lra. rewrite (proj2 (Rleb_true _ _)) by lra. simpl. lia.
Qed.
