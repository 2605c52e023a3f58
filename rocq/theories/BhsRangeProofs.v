(** The medcouple search stays inside its arrays, and its result between -1 and 1. *)
From Coq Require Import ZArith Sorted Permutation Lia Lra.
From Verif Require Import Base DecModel EdfModel GraphModel NormalLaw ExpModel NormModel BhsModel BhsSpec BhsProofs BhsStatProofs.
Local Open Scope R_scope.

Definition unit_range (v : R) : Prop := -1 <= v <= 1.

(** ** The inner loop only moves values about *)
Lemma Forall_skipn {A} (P : A -> Prop) k l : Forall P l -> Forall P (skipn k l).
Proof. intros H. rewrite <- (firstn_skipn k l) in H. apply Forall_app in H. tauto. Qed.
Lemma Forall_firstn {A} (P : A -> Prop) k l : Forall P l -> Forall P (firstn k l).
Proof. intros H. rewrite <- (firstn_skipn k l) in H. apply Forall_app in H. tauto. Qed.
Lemma Forall_rsort (P : R -> Prop) l : Forall P l -> Forall P (rsort l).
Proof. rewrite !Forall_forall. intros H v Hv. apply H, rsort_in, Hv. Qed.
Lemma Forall_nth_default {A} (P : A -> Prop) l k d : Forall P l -> P d -> P (nth k l d).
Proof. intros H Hd. destruct (nth_in_or_default k l d) as [G| ->]; [|exact Hd]. rewrite Forall_forall in H. now apply H. Qed.
Lemma unit_zero : unit_range 0.
Proof. unfold unit_range. lra. Qed.
Lemma whi_keep_range p s rest : Forall unit_range (ws_a s) -> Forall unit_range (ws_a (whi_keep p s rest)).
Proof.
  intros H. unfold whi_keep. cbn [ws_a]. apply Forall_app. split; [|now apply Forall_skipn].
  rewrite Forall_forall. intros v Hv. apply in_map_iff in Hv. destruct Hv as ([u w] & <- & Hq). apply filter_In in Hq.
  destruct Hq as [Hq _]. apply in_combine_l in Hq. apply (Forall_firstn _ (ws_n s)) in H. rewrite Forall_forall in H. now apply H.
Qed.
Lemma whi_loop_range fuel tot s v s' : Forall unit_range (ws_a s) -> whi_loop fuel tot s = Some (v, s') ->
  unit_range v /\ Forall unit_range (ws_a s').
Proof.
  revert s. induction fuel as [|f IH]; intros s Hs H; [discriminate|]. cbn [whi_loop] in H.
  unfold whi_round in H.
  destruct (tot <? _)%nat; [apply IH in H; [exact H|now apply whi_keep_range]|].
  destruct (_ <=? tot)%nat; [apply IH in H; [exact H|now apply whi_keep_range]|].
  injection H as <- <-. split; [|exact Hs]. unfold whi_trial. apply Forall_nth_default; [now apply Forall_rsort|apply unit_zero].
Qed.

(** ** The scans *)
Lemma advance_le c steps j : (advance c steps j <= j + steps)%nat.
Proof. revert j. induction steps as [|s IH]; intros j; simpl; [lia|]. destruct (c j); [specialize (IH (S j))|]; lia. Qed.
Lemma p_scan_length x start h1 trial rows j : length (p_scan x start h1 trial rows j) = length rows.
Proof. revert j. induction rows as [|i r IH]; intros j; simpl; [reflexivity|]. now rewrite IH. Qed.
Lemma p_scan_le x start h1 trial rows j : (j <= h1 + 1)%nat -> Forall (fun v => v <= h1)%nat (p_scan x start h1 trial rows j).
Proof.
  revert j. induction rows as [|i r IH]; intros j Hj; simpl; [constructor|].
  pose proof (advance_le (fun j => Rltb (bhs_tol trial) (cell x start h1 j i - trial)) (h1 + 1 - j) j) as G.
  constructor; [lia|]. apply IH. lia.
Qed.
Lemma q_scan_length x start h1 trial rows j : length (q_scan x start h1 trial rows j) = length rows.
Proof. revert j. induction rows as [|i r IH]; intros j; simpl; [reflexivity|]. now rewrite IH. Qed.
Lemma q_scan_ge x start h1 trial rows j : Forall (fun v => 1 <= v)%nat (q_scan x start h1 trial rows j).
Proof. revert j. induction rows as [|i r IH]; intros j; simpl; [constructor|]. constructor; [lia|apply IH]. Qed.

(** ** Rows that are still open *)
Lemma open_total (L : list (nat * (nat * nat))) :
  list_sum (map row_weight (filter is_open L)) = list_sum (map (fun q => snd (snd q) + 1 - fst (snd q))%nat L).
Proof.
  induction L as [|[i [l r]] L IH]; simpl; [reflexivity|]. unfold is_open at 1. simpl fst. simpl snd.
  destruct (Nat.leb_spec l r); simpl; rewrite IH; unfold row_weight; simpl; lia.
Qed.
Lemma balance (left right : list nat) : length left = length right -> Forall (fun v => 1 <= v)%nat left ->
  (list_sum (map (fun q => snd q + 1 - fst q) (combine left right)) + list_sum (map (fun v => v - 1) left) =
   list_sum right + crossed left right)%nat.
Proof.
  unfold crossed. revert right. induction left as [|l left IH]; intros [|r right] H Hf; try discriminate; simpl; [reflexivity|].
  inversion Hf as [|? ? H1 H2]; subst. specialize (IH right ltac:(simpl in H; lia) H2). lia.
Qed.
Lemma flat_map_len {A B} (f : A -> list B) l : length (flat_map f l) = list_sum (map (fun a => length (f a)) l).
Proof. induction l as [|a l IH]; simpl; [reflexivity|]. now rewrite app_length, IH. Qed.

Section Table.
Context (x : list R) (start h1 h2 n knew : nat).
Definition inside (s : mc_state) : Prop :=
  length (mc_left s) = h2 /\ length (mc_right s) = h2 /\ Forall (fun v => 1 <= v)%nat (mc_left s) /\
  Forall (fun v => v <= h1)%nat (mc_right s) /\
  mc_nr s = list_sum (mc_right s) /\ mc_nl s = list_sum (map (fun v => v - 1)%nat (mc_left s)) /\
  (crossed (mc_left s) (mc_right s) <= mc_neq s)%nat /\ (knew <= Nat.max (mc_nr s) 1)%nat.
Lemma inside_iteration fuel s s' : inside s -> mc_iteration x start h1 h2 fuel knew s = Some s' -> inside s'.
Proof.
  intros (L1 & L2 & F1 & F2 & E1 & E2 & C & K) H. unfold mc_iteration in H.
  destruct (whi_med_i fuel _ _ _) as [[trial w]|]; [|discriminate]. injection H as <-.
  assert (Lp : length (rev (p_scan x start h1 trial (rev (seq 1 h2)) 1)) = h2).
  { now rewrite rev_length, p_scan_length, rev_length, seq_length. }
  assert (Fp : Forall (fun v => v <= h1)%nat (rev (p_scan x start h1 trial (rev (seq 1 h2)) 1))).
  { apply Forall_rev, p_scan_le. lia. }
  assert (Lq : length (q_scan x start h1 trial (seq 1 h2) h1) = h2) by now rewrite q_scan_length, seq_length.
  pose proof (q_scan_ge x start h1 trial (seq 1 h2) h1) as Fq.
  destruct (Nat.leb_spec knew (list_sum (rev (p_scan x start h1 trial (rev (seq 1 h2)) 1)))) as [G|G];
    [|destruct (knew <=? _)%nat]; unfold inside; cbn [mc_left mc_right mc_nr mc_nl mc_neq]; repeat split; auto; lia.
Qed.
Lemma inside_loop fuel allowed it s s' it' : inside s -> mc_loop x start h1 h2 fuel n knew allowed it s = Some (s', it') -> inside s'.
Proof.
  revert it s. induction allowed as [|r IH]; intros it s Hs H; cbn [mc_loop] in H; destruct (negb (mc_found s) && mc_wide n s).
  - now injection H as <- _.
  - now injection H as <- _.
  - destruct (mc_iteration x start h1 h2 fuel knew s) as [s1|] eqn:E; [|discriminate]. apply inside_iteration in E; [|exact Hs].
    now apply IH in H.
  - now injection H as <- _.
Qed.
(** the last stage writes at most n entries and reads one of them *)
Lemma inside_result s e : (1 <= n)%nat -> inside s -> mc_result x start h1 h2 n knew s <> Raise e.
Proof.
  intros Hn (L1 & L2 & F1 & F2 & E1 & E2 & C & K). unfold mc_result. destruct (mc_found s); [discriminate|].
  destruct (mc_wide n s) eqn:W; [discriminate|]. unfold mc_wide in W. apply Nat.ltb_ge in W. cbv zeta.
  rewrite flat_map_len.
  assert (T : list_sum (map (fun a => length (map (fun k => - cell x start h1 k (fst a)) (seq (fst (snd a)) (row_weight a))))
    (filter is_open (bounds h2 s))) = list_sum (map (fun q => snd q + 1 - fst q)%nat (combine (mc_left s) (mc_right s)))).
  { erewrite map_ext by (intros a; rewrite map_length, seq_length; reflexivity). rewrite open_total. unfold bounds.
    rewrite <- (map_snd_combine (seq 1 h2) (combine (mc_left s) (mc_right s))) at 2.
    - now rewrite map_map.
    - rewrite seq_length, combine_length. lia. }
  rewrite T. pose proof (balance (mc_left s) (mc_right s) (eq_trans L1 (eq_sym L2)) F1) as B.
  match goal with |- context [(n <? ?m)%nat] => destruct (Nat.ltb_spec n m); [lia|] end.
  match goal with |- context [(n <? ?m)%nat] => destruct (Nat.ltb_spec n m); [lia|] end. discriminate.
Qed.

(** all table entries between -1 and 1 *)
Context (Hcell : forall k i, (k <= h1)%nat -> unit_range (cell x start h1 k i)).
Lemma row_in i l r : (l <= r)%nat -> (r <= h1)%nat -> unit_range (row_value x start h1 (i, (l, r))).
Proof.
  intros Hl Hr. unfold row_value, row_weight. cbn [fst snd]. apply Hcell.
  pose proof (Nat.div_le_upper_bound (r - l + 1) 2 (r - l) ltac:(lia)). destruct (Nat.eq_dec l r) as [->|]; [|lia].
  rewrite Nat.sub_diag. simpl. lia.
Qed.
Lemma open_in s i l r : inside s -> In (i, (l, r)) (filter is_open (bounds h2 s)) -> (1 <= l <= r)%nat /\ (r <= h1)%nat.
Proof.
  intros (L1 & L2 & F1 & F2 & _) H. apply filter_In in H. destruct H as [H O]. unfold is_open in O. apply Nat.leb_le in O. cbn [fst snd] in O.
  unfold bounds in H. apply in_combine_r in H. rewrite Forall_forall in F1, F2.
  pose proof (F1 _ (in_combine_l _ _ _ _ H)). pose proof (F2 _ (in_combine_r _ _ _ _ H)). simpl in *. lia.
Qed.
Lemma range_iteration fuel s s' : inside s -> Forall unit_range (mc_work s) ->
  mc_iteration x start h1 h2 fuel knew s = Some s' -> unit_range (mc_trial s') /\ Forall unit_range (mc_work s').
Proof.
  intros Hs Hw H. unfold mc_iteration in H.
  set (opens := filter is_open (bounds h2 s)) in *.
  destruct (whi_med_i fuel _ _ _) as [[trial w]|] eqn:E; [|discriminate]. injection H as <-.
  apply whi_loop_range in E.
  - destruct E as [E1 E2].
    destruct (knew <=? _)%nat; [|destruct (knew <=? _)%nat]; now cbn [mc_trial mc_work].
  - cbn [ws_a]. apply Forall_app. split; [|now apply Forall_skipn].
    rewrite Forall_forall. intros v Hv. apply in_map_iff in Hv. destruct Hv as ([i [l r]] & <- & Hq).
    apply open_in in Hq; [|exact Hs]. apply row_in; lia.
Qed.
Lemma range_loop fuel allowed it s s' it' : inside s -> Forall unit_range (mc_work s) -> unit_range (mc_trial s) ->
  mc_loop x start h1 h2 fuel n knew allowed it s = Some (s', it') -> unit_range (mc_trial s') /\ Forall unit_range (mc_work s').
Proof.
  revert it s. induction allowed as [|r IH]; intros it s Hs Hw Ht H; cbn [mc_loop] in H; destruct (negb (mc_found s) && mc_wide n s).
  - now injection H as <- _.
  - now injection H as <- _.
  - destruct (mc_iteration x start h1 h2 fuel knew s) as [s1|] eqn:E; [|discriminate].
    destruct (range_iteration _ _ _ Hs Hw E) as [A B]. apply inside_iteration in E; [|exact Hs]. now apply IH in H.
  - now injection H as <- _.
Qed.
Lemma range_result s v : inside s -> Forall unit_range (mc_work s) -> (unit_range (mc_trial s) \/ (mc_found s = false /\ mc_wide n s = false)) ->
  mc_result x start h1 h2 n knew s = Ok v -> unit_range v.
Proof.
  intros Hs Hw Ht. unfold mc_result. destruct (mc_found s) eqn:Ef.
  { intros H. injection H as <-. destruct Ht as [Ht|[? _]]; [exact Ht|discriminate]. }
  destruct (mc_wide n s) eqn:Ew.
  { intros H. injection H as <-. destruct Ht as [Ht|[_ ?]]; [exact Ht|discriminate]. }
  cbv zeta. destruct (_ <? _)%nat; [discriminate|]. destruct (_ <? _)%nat; [discriminate|]. intros H. injection H as <-.
  assert (G : unit_range (nth (knew - mc_nl s - 1) (rsort (firstn (knew - mc_nl s)
    (flat_map (fun r => map (fun k => - cell x start h1 k (fst r)) (seq (fst (snd r)) (row_weight r))) (filter is_open (bounds h2 s)) ++
     skipn (length (flat_map (fun r => map (fun k => - cell x start h1 k (fst r)) (seq (fst (snd r)) (row_weight r))) (filter is_open (bounds h2 s))))
       (mc_work s)))) 0)).
  2: { unfold unit_range in *. lra. }
  apply Forall_nth_default; [|apply unit_zero]. apply Forall_rsort, Forall_firstn, Forall_app. split; [|now apply Forall_skipn].
  rewrite Forall_forall. intros u Hu. apply in_flat_map in Hu. destruct Hu as ([i [l r]] & Hq & Hu). apply open_in in Hq; [|exact Hs].
  apply in_map_iff in Hu. destruct Hu as (k & <- & Hk). unfold row_weight in Hk. cbn [fst snd] in Hk. apply in_seq in Hk.
  pose proof (Hcell k i ltac:(lia)) as G. unfold unit_range in *. cbn [fst]. lra.
Qed.
End Table.

Lemma crossed_start h k : crossed (repeat 1%nat k) (repeat h k) = 0%nat.
Proof.
  unfold crossed. induction k as [|k IH]; [reflexivity|].
  cbn [repeat combine map list_sum fold_right fst snd]. unfold list_sum in IH. rewrite IH. lia.
Qed.
Lemma inside_start h1 h2 n t : inside h1 h2 (h1 * h2 / 2 + 1) (MC (repeat 1%nat h2) (repeat h1 h2) (repeat 0 n) (repeat 0%nat n) (h1 * h2) 0 0 t false).
Proof.
  unfold inside. cbn [mc_left mc_right mc_nr mc_nl mc_neq]. rewrite !repeat_length. repeat split.
  - apply Forall_forall. intros v Hv. apply repeat_spec in Hv. lia.
  - apply Forall_forall. intros v Hv. apply repeat_spec in Hv. lia.
  - now rewrite list_sum_repeat.
  - induction h2 as [|k IH]; simpl; [reflexivity|exact IH].
  - now rewrite crossed_start.
  - destruct (h1 * h2)%nat as [|[|m]] eqn:E; [simpl; lia|simpl; lia|].
    pose proof (Nat.div_le_upper_bound (S (S m)) 2 (S m) ltac:(lia) ltac:(lia)). lia.
Qed.
(** ** No index is out of range *)
Lemma mc_no_raise fuel max_it z e : mc_c_d fuel max_it z <> Some (Raise e).
Proof.
  unfold mc_c_d. destruct (Nat.ltb_spec (length z) 3); [discriminate|]. cbv zeta.
  destruct (Rltb _ _); [discriminate|]. destruct (Rltb _ _); [discriminate|].
  match goal with |- context [mc_loop ?a ?b ?c ?d ?e ?f ?g ?h ?i ?j] => destruct (mc_loop a b c d e f g h i j) as [[s1 it1]|] eqn:E end;
    [|discriminate].
  apply inside_loop in E; [|apply inside_start].
  match goal with |- context [mc_result ?a ?b ?c ?d ?e ?f ?g] => destruct (mc_result a b c d e f g) as [u|e'] eqn:E2 end;
    [discriminate|].
  apply inside_result in E2; [destruct E2|lia|exact E].
Qed.
Lemma bhs_no_raise fuel rvs e : bhs fuel rvs <> Some (Raise e).
Proof.
  unfold bhs. destruct (3 <? length rvs)%nat; [|discriminate].
  destruct (mc_c_d fuel 1000 rvs) as [[[w1 it1]|e1]|] eqn:E1; [| |discriminate].
  2: { now apply mc_no_raise in E1. }
  destruct (mc_c_d fuel it1 _) as [[[w2 it2]|e2]|] eqn:E2; [| |discriminate].
  2: { now apply mc_no_raise in E2. }
  destruct (mc_c_d fuel it2 _) as [[[w3 it3]|e3]|] eqn:E3; [discriminate| |discriminate].
  now apply mc_no_raise in E3.
Qed.
(** ** The range of a medcouple that may iterate *)
Lemma sgn_unit z : unit_range (IZR (Z.sgn z)).
Proof. unfold unit_range. destruct z; simpl; lra. Qed.
Lemma cell_unit y k i : decreasing y -> clear_of_centre y -> (3 <= length y)%nat -> (k <= (length y + 1) / 2)%nat ->
  unit_range (cell (0 :: scaled y) (length y / 2) ((length y + 1) / 2) k i).
Proof.
  intros Hd Hc Hn Hk. unfold cell, h_kern.
  destruct (Rltb_spec (Rabs (nth k (0 :: scaled y) 0 - nth (length y / 2 + i - 1) (0 :: scaled y) 0)) (2 * bhs_eps1)) as [|G1]; [apply sgn_unit|].
  destruct (Rltb_spec 0 (nth (length y / 2 + i - 1) (0 :: scaled y) 0)) as [|G2]; [apply sgn_unit|]. simpl orb.
  assert (Ha : 0 <= nth k (0 :: scaled y) 0).
  { destruct k as [|k]; [simpl; lra|]. change (nth (S k) (0 :: scaled y) 0) with (nth k (scaled y) 0).
    assert (0 < bhs_eps0 * bhs_eps0) by (pose proof eps0_range; apply Rmult_lt_0_compat; lra).
    destruct (Nat.lt_ge_cases k (length y / 2)) as [H1|H1].
    - pose proof (scaled_up y k Hd Hc ltac:(lia) H1). lra.
    - destruct (half_cases (length y)) as [(m & E1 & E2 & E3 & E4 & _)|(m & E1 & E2 & E3 & E4 & _)]; [lia|].
      assert (k = m) as -> by lia. rewrite nth_scaled by lia. unfold centre at 1. rewrite E2, E4.
      replace (nth m y 0 - (nth m y 0 + nth m y 0) / 2) with 0 by field. unfold Rdiv. rewrite Rmult_0_l. lra. }
  pose proof eps1_small as [Ez _].
  set (a := nth k (0 :: scaled y) 0) in *. set (b := nth (length y / 2 + i - 1) (0 :: scaled y) 0) in *.
  assert (D : 0 < a - b).
  { destruct (Rle_lt_or_eq_dec b a ltac:(lra)) as [G|G]; [lra|]. rewrite G, Rminus_diag_eq, Rabs_R0 in G1 by reflexivity. lra. }
  unfold unit_range. split.
  - apply Rmult_le_reg_r with (1 := D). unfold Rdiv. rewrite Rmult_assoc, Rinv_l by lra. lra.
  - apply Rmult_le_reg_r with (1 := D). unfold Rdiv. rewrite Rmult_assoc, Rinv_l by lra. lra.
Qed.
Lemma mc_range fuel r y v it : decreasing y -> clear_of_centre y -> (3 <= length y)%nat ->
  mc_c_d fuel (S r) y = Some (Ok (v, it)) -> unit_range v.
Proof.
  intros Hd Hc Hn. rewrite mc_setup by assumption. cbv zeta. cbn [mc_loop].
  set (n := length y). set (h := ((n + 1) / 2)%nat).
  assert (Hcell : forall k i, (k <= h)%nat -> unit_range (cell (0 :: scaled y) (n / 2) h k i)).
  { intros k i Hk. now apply cell_unit. }
  assert (I0 : inside h h (h * h / 2 + 1) (table_start n)) by apply inside_start.
  assert (W0 : Forall unit_range (mc_work (table_start n))).
  { apply Forall_forall. intros u Hu. apply repeat_spec in Hu. subst. apply unit_zero. }
  cbn [table_start mc_found negb andb]. destruct (mc_wide n (table_start n)) eqn:Ew.
  - destruct (mc_iteration _ _ _ _ _ _ _) as [s1|] eqn:E1; [|discriminate].
    destruct (range_iteration _ _ _ _ _ Hcell _ _ _ I0 W0 E1) as [A B].
    apply inside_iteration in E1; [|exact I0].
    destruct (mc_loop _ _ _ _ _ _ _ _ _ _) as [[s2 it2]|] eqn:E2; [|discriminate].
    destruct (range_loop _ _ _ _ _ _ Hcell _ _ _ _ _ _ E1 B A E2) as [A2 B2].
    apply inside_loop in E2; [|exact E1].
    destruct (mc_result _ _ _ _ _ _ _) as [u|e] eqn:E3; [|discriminate]. intros H. injection H as <- _.
    apply (range_result _ _ _ _ _ _ Hcell _ _ E2 B2) in E3; [exact E3|now left].
  - destruct (mc_result _ _ _ _ _ _ _) as [u|e] eqn:E3; [|discriminate]. intros H. injection H as <- _.
    apply (range_result _ _ _ _ _ _ Hcell _ _ I0 W0) in E3; [exact E3|right; split; [reflexivity|exact Ew]].
Qed.

(** ** More rounds do not change the result *)
Lemma whi_loop_more f k tot s r : whi_loop f tot s = Some r -> whi_loop (f + k) tot s = Some r.
Proof.
  revert s. induction f as [|f IH]; intros s H; [discriminate|]. cbn [whi_loop Nat.add] in *.
  destruct (whi_round tot s); [now apply IH|exact H].
Qed.
Lemma mc_iteration_more x start h1 h2 f k knew s r : mc_iteration x start h1 h2 f knew s = Some r ->
  mc_iteration x start h1 h2 (f + k) knew s = Some r.
Proof.
  unfold mc_iteration, whi_med_i. cbv zeta. intros H.
  match type of H with match ?t with _ => _ end = _ => destruct t as [[v w]|] eqn:E end; [|discriminate].
  now rewrite (whi_loop_more _ k _ _ _ E).
Qed.
Lemma mc_loop_more x start h1 h2 f k n knew allowed it s r : mc_loop x start h1 h2 f n knew allowed it s = Some r ->
  mc_loop x start h1 h2 (f + k) n knew allowed it s = Some r.
Proof.
  revert it s. induction allowed as [|a IH]; intros it s H; cbn [mc_loop] in *; destruct (negb (mc_found s) && mc_wide n s); auto.
  destruct (mc_iteration x start h1 h2 f knew s) as [s1|] eqn:E; [|discriminate].
  rewrite (mc_iteration_more _ _ _ _ _ k _ _ _ E). now apply IH.
Qed.
Lemma mc_more f k max_it z r : mc_c_d f max_it z = Some r -> mc_c_d (f + k) max_it z = Some r.
Proof.
  unfold mc_c_d. cbv zeta. destruct (length z <? 3)%nat; [auto|]. destruct (Rltb _ _); [auto|]. destruct (Rltb _ _); [auto|].
  intros H. match type of H with match ?t with _ => _ end = _ => destruct t as [[s1 it1]|] eqn:E end; [|discriminate].
  now rewrite (mc_loop_more _ _ _ _ _ k _ _ _ _ _ _ E).
Qed.
Lemma bhs_more f k rvs r : bhs f rvs = Some r -> bhs (f + k) rvs = Some r.
Proof.
  unfold bhs. cbv zeta. destruct (3 <? length rvs)%nat; [|auto].
  destruct (mc_c_d f 1000 rvs) as [o1|] eqn:E1; [|discriminate]. rewrite (mc_more _ k _ _ _ E1).
  destruct o1 as [[w1 it1]|]; [|auto].
  destruct (mc_c_d f it1 _) as [o2|] eqn:E2; [|discriminate]. rewrite (mc_more _ k _ _ _ E2).
  destruct o2 as [[w2 it2]|]; [|auto].
  destruct (mc_c_d f it2 _) as [o3|] eqn:E3; [|discriminate]. rewrite (mc_more _ k _ _ _ E3). auto.
Qed.
Lemma bhs_unique rvs v v' : returns (fun fuel => bhs fuel rvs) v -> returns (fun fuel => bhs fuel rvs) v' -> v = v'.
Proof.
  intros [f H] [f' H']. apply (bhs_more _ f') in H. apply (bhs_more _ f) in H'. rewrite Nat.add_comm in H'. congruence.
Qed.

(** ** Four observations *)
Lemma mc_four fuel max_it y : decreasing y -> clear_of_centre y -> length y = 4%nat ->
  mc_c_d fuel max_it y = Some (Ok (0, 0%nat)).
Proof.
  intros Hd Hc Hn. rewrite mc_setup by (assumption || lia). rewrite Hn.
  change (4 / 2)%nat with 2%nat. change ((4 + 1) / 2)%nat with 2%nat. cbv zeta.
  assert (L : mc_loop (0 :: scaled y) 2 2 2 fuel 4 (2 * 2 / 2 + 1) max_it 0 (table_start 4) = Some (table_start 4, 0%nat)) by now destruct max_it.
  rewrite L.
  assert (X0 := scaled_up y 0 Hd Hc ltac:(lia) ltac:(rewrite Hn; simpl; lia)).
  assert (X1 := scaled_up y 1 Hd Hc ltac:(lia) ltac:(rewrite Hn; simpl; lia)).
  assert (X2 := scaled_low y 2 Hd Hc ltac:(lia) ltac:(rewrite Hn; simpl; lia)).
  assert (E0 : 0 < bhs_eps0 * bhs_eps0) by (pose proof eps0_range; apply Rmult_lt_0_compat; lra).
  pose proof eps1_small as [Ez Eb].
  assert (C11 : cell (0 :: scaled y) 2 2 1 1 = 1).
  { unfold cell, h_kern. change (nth (2 + 1 - 1) (0 :: scaled y) 0) with (nth 1 (scaled y) 0).
    destruct (Rltb_spec 0 (nth 1 (scaled y) 0)); [|lra]. rewrite Bool.orb_true_r. reflexivity. }
  assert (C21 : cell (0 :: scaled y) 2 2 2 1 = 0).
  { unfold cell, h_kern. change (nth (2 + 1 - 1) (0 :: scaled y) 0) with (nth 1 (scaled y) 0).
    destruct (Rltb_spec 0 (nth 1 (scaled y) 0)); [|lra]. rewrite Bool.orb_true_r. reflexivity. }
  assert (C12 : 0 <= cell (0 :: scaled y) 2 2 1 2).
  { unfold cell, h_kern. change (nth (2 + 2 - 1) (0 :: scaled y) 0) with (nth 2 (scaled y) 0).
    change (nth 1 (0 :: scaled y) 0) with (nth 0 (scaled y) 0).
    destruct (Rltb_spec 0 (nth 2 (scaled y) 0)); [lra|].
    destruct (Rltb_spec (Rabs (nth 0 (scaled y) 0 - nth 2 (scaled y) 0)) (2 * bhs_eps1)) as [G|_].
    { rewrite Rabs_pos_eq in G; lra. }
    simpl orb. cbn iota. apply Rmult_le_pos; [|apply Rlt_le, Rinv_0_lt_compat; lra].
    rewrite !nth_scaled by lia. rewrite <- Rdiv_plus_distr.
    pose proof (scale_pos y Hd Hc ltac:(lia)) as Hs. unfold scale_of in Hs.
    apply Rmult_le_pos; [|apply Rlt_le, Rinv_0_lt_compat; exact Hs].
    unfold centre. rewrite Hn. simpl Nat.div. pose proof (decreasing_nth y 0 1 Hd ltac:(lia)). lra. }
  assert (M : mc_result (0 :: scaled y) 2 2 2 4 (2 * 2 / 2 + 1) (table_start 4) = Ok 0); [|now rewrite M].
  unfold mc_result. simpl mc_found. cbn iota.
  change (mc_wide 4 (table_start 4)) with false. cbv iota.
  change (filter is_open (bounds 2 (table_start 4))) with [(1%nat, (1%nat, 2%nat)); (2%nat, (1%nat, 2%nat))].
  cbv zeta. cbn [flat_map map seq row_weight fst snd Nat.sub Nat.add app length].
  change (mc_nl (table_start 4)) with 0%nat. change (2 * 2 / 2 + 1 - 0)%nat with 3%nat. simpl Nat.ltb. cbv iota.
  cbn [firstn Nat.sub app]. rewrite C11, C21. f_equal.
  assert (N : nth 2 (rsort [- (1); - 0; - cell (0 :: scaled y) 2 2 1 2]) 0 = 0).
  { apply Rle_antisym.
    - apply nth_rsort_le. rewrite cnt_all; [simpl; lia|]. intros v [<-|[<-|[<-|[]]]].
      + destruct (Rleb_spec (- (1)) 0); [reflexivity|lra].
      + destruct (Rleb_spec (- 0) 0); [reflexivity|lra].
      + destruct (Rleb_spec (- cell (0 :: scaled y) 2 2 1 2) 0); [reflexivity|lra].
    - apply nth_rsort_ge; [simpl; lia|]. unfold cnt. simpl.
      destruct (Rltb_spec (- (1)) 0), (Rltb_spec (- 0) 0), (Rltb_spec (- cell (0 :: scaled y) 2 2 1 2) 0); simpl; lra || lia. }
  rewrite N. change (Ok (- 0) = Ok 0). now rewrite Ropp_0.
Qed.
Lemma bhs_four fuel rvs y : Permutation rvs y -> decreasing y -> clear_of_centre y -> length y = 4%nat ->
  bhs fuel rvs = Some (Ok (Some (Fin (bhs_value 4 0 0 0)))).
Proof.
  intros HP Hd Hc Hn. rewrite (bhs_decreasing fuel rvs y Hd HP), mc_four by assumption.
  destruct y as [|a [|b [|c [|d [|e y]]]]]; try discriminate. reflexivity.
Qed.

(** ** More than half of the observations equal to the largest *)
Lemma mc_top fuel max_it y : decreasing y -> (3 <= length y)%nat -> nth (length y / 2) y 0 = nth 0 y 0 ->
  mc_c_d fuel max_it y = Some (Ok (-1, 0%nat)).
Proof.
  intros Hd Hn Ht. unfold mc_c_d. cbv zeta. destruct (Nat.ltb_spec (length y) 3) as [G|_]; [lia|].
  rewrite (rsort_id (map Ropp y)) by now apply opp_sorted. rewrite !nth_opp.
  assert (H2 : (1 <= length y / 2 < length y)%nat).
  { split; [apply Nat.div_le_lower_bound; lia|apply Nat.div_lt; lia]. }
  assert (M : (if Nat.even (length y) then (- nth (length y / 2 - 1) y 0 + - nth (length y / 2) y 0) / 2 else - nth (length y / 2) y 0) = - nth 0 y 0).
  { pose proof (decreasing_nth y 0 (length y / 2 - 1) Hd ltac:(lia)).
    pose proof (decreasing_nth y (length y / 2 - 1) (length y / 2) Hd ltac:(lia)).
    destruct (Nat.even (length y)); lra. }
  rewrite M. replace (- nth 0 y 0 - - nth 0 y 0) with 0 by ring. rewrite Rabs_R0.
  destruct (Rltb_spec 0 (bhs_tol (- nth 0 y 0))) as [_|G]; [reflexivity|].
  exfalso. unfold bhs_tol in G. pose proof eps0_range. pose proof (Rabs_pos (- nth 0 y 0)).
  assert (0 < bhs_eps0 * (bhs_eps0 + Rabs (- nth 0 y 0))) by (apply Rmult_lt_0_compat; lra). lra.
Qed.
Lemma firstn_dec k y : decreasing y -> decreasing (firstn k y).
Proof.
  intros H. revert k. induction H as [|v y Hs IH Hf]; intros k; destruct k; simpl; try constructor; [apply IH|].
  now apply Forall_firstn.
Qed.
Lemma nth_firstn_lt {A} (l : list A) k i d : (i < k)%nat -> nth i (firstn k l) d = nth i l d.
Proof.
  revert k i. induction l as [|x l IH]; intros k i H; destruct k; try lia; [now destruct i|].
  destruct i; simpl; [reflexivity|]. apply IH. lia.
Qed.
Lemma bhs_top fuel rvs y : Permutation rvs y -> decreasing y -> (9 <= length y)%nat -> nth (length y / 2) y 0 = nth 0 y 0 ->
  clear_of_centre (skipn (length y / 2) y) ->
  bhs fuel rvs = Some (Ok (Some (Fin (bhs_value (length y) (-1) (-2) (-1))))).
Proof.
  intros HP Hd Hn Ht Hc. rewrite (bhs_decreasing fuel rvs y Hd HP). destruct (Nat.ltb_spec 3 (length y)); [|lia].
  rewrite mc_top by (assumption || lia).
  assert (Hh : (4 <= length y / 2 /\ length y / 2 + 5 <= length y)%nat).
  { destruct (half_cases (length y)) as [(k & E1 & E2 & _)|(k & E1 & E2 & _)]; rewrite E2; lia. }
  rewrite mc_no_iterations; [|now apply skipn_dec|assumption|rewrite skipn_length; lia].
  assert (Lf : length (firstn (length y / 2) y) = (length y / 2)%nat) by (rewrite firstn_length; lia).
  rewrite mc_top; [reflexivity|now apply firstn_dec|lia|].
  rewrite Lf. assert ((length y / 2) / 2 < length y / 2)%nat by (apply Nat.div_lt; lia).
  rewrite !nth_firstn_lt by lia.
  pose proof (decreasing_nth y 0 (length y / 2 / 2) Hd ltac:(lia)).
  pose proof (decreasing_nth y (length y / 2 / 2) (length y / 2) Hd ltac:(lia)). lra.
Qed.

(** ** Location and scale *)
Definition clear_part (y : list R) : Prop := (length y < 3)%nat \/ clear_of_centre y.
Lemma nth_aff a b y i : (i < length y)%nat -> nth i (map (fun v => a + b * v) y) 0 = a + b * nth i y 0.
Proof.
  intros H. rewrite (nth_indep _ 0 ((fun v => a + b * v) 0)) by (rewrite map_length; exact H).
  now rewrite (map_nth (fun v => a + b * v)).
Qed.
Lemma centre_aff a b y : (1 <= length y)%nat -> centre (map (fun v => a + b * v) y) = a + b * centre y.
Proof.
  intros H. unfold centre. rewrite map_length, !nth_aff.
  - lra.
  - apply Nat.div_lt; lia.
  - apply Nat.le_lt_trans with (length y / 2)%nat; [apply Nat.div_le_mono; lia|apply Nat.div_lt; lia].
Qed.
Lemma decreasing_aff a b y : 0 < b -> decreasing y -> decreasing (map (fun v => a + b * v) y).
Proof.
  intros Hb. unfold decreasing. induction 1 as [|x l Hs IH Hf]; simpl; constructor; [exact IH|].
  rewrite Forall_forall in Hf |- *. intros v Hv. apply in_map_iff in Hv. destruct Hv as (u & <- & Hu). apply Hf in Hu.
  assert (b * u <= b * x) by (apply Rmult_le_compat_l; lra). lra.
Qed.
Lemma scaled_aff a b y : 0 < b -> decreasing y -> clear_of_centre y -> (2 <= length y)%nat ->
  scaled (map (fun v => a + b * v) y) = scaled y.
Proof.
  intros Hb Hd Hc Hn. unfold scaled. rewrite map_map, centre_aff, map_length, !nth_aff by lia. apply map_ext. intros v.
  replace (a + b * nth 0 y 0 - (a + b * centre y)) with (b * (nth 0 y 0 - centre y)) by ring.
  replace (a + b * centre y - (a + b * nth (length y - 1) y 0)) with (b * (centre y - nth (length y - 1) y 0)) by ring.
  rewrite RmaxRmult by lra. pose proof (scale_pos y Hd Hc Hn) as G. unfold scale_of in G.
  field. split; lra.
Qed.
Lemma mc_aff a b fuel max_it y : 0 < b -> decreasing y -> clear_part y -> clear_part (map (fun v => a + b * v) y) ->
  mc_c_d fuel max_it (map (fun v => a + b * v) y) = mc_c_d fuel max_it y.
Proof.
  intros Hb Hd H1 H2. destruct (Nat.lt_ge_cases (length y) 3) as [Hl|Hl].
  - unfold mc_c_d. rewrite map_length. destruct (Nat.ltb_spec (length y) 3); [reflexivity|lia].
  - destruct H1 as [H1|H1]; [lia|]. destruct H2 as [H2|H2]; [rewrite map_length in H2; lia|].
    rewrite !mc_setup; try assumption; [|now apply decreasing_aff|rewrite map_length; exact Hl].
    cbv zeta. rewrite map_length, scaled_aff by (assumption || lia). reflexivity.
Qed.
Lemma bhs_aff a b fuel rvs y : 0 < b -> Permutation rvs y -> decreasing y ->
  (forall z, z = y \/ z = skipn (length y / 2) y \/ z = firstn (length y / 2) y ->
     clear_part z /\ clear_part (map (fun v => a + b * v) z)) ->
  bhs fuel (map (fun v => a + b * v) rvs) = bhs fuel rvs.
Proof.
  intros Hb HP Hd Hz. rewrite (bhs_decreasing fuel rvs y Hd HP).
  rewrite (bhs_decreasing fuel _ (map (fun v => a + b * v) y)); [|now apply decreasing_aff|now apply Permutation_map].
  rewrite map_length. destruct (3 <? length y)%nat; [|reflexivity].
  destruct (Hz y ltac:(auto)) as [A1 A2]. destruct (Hz _ (or_intror (or_introl eq_refl))) as [B1 B2].
  destruct (Hz _ (or_intror (or_intror eq_refl))) as [C1 C2].
  rewrite mc_aff by assumption.
  destruct (mc_c_d fuel 1000 y) as [[[w1 it1]|e]|]; try reflexivity.
  rewrite skipn_map, mc_aff; try assumption; [|now apply skipn_dec].
  destruct (mc_c_d fuel it1 (skipn (length y / 2) y)) as [[[w2 it2]|e]|]; try reflexivity.
  rewrite firstn_map, mc_aff; try assumption; [reflexivity|now apply firstn_dec].
Qed.
