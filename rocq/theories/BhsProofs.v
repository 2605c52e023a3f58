(** Proofs about the Brys-Hubert-Struyf statistic. *)
From Coq Require Import ZArith Sorted Permutation Lia Lra.
From Verif Require Import Base DecModel EdfModel GraphModel NormalLaw ExpModel NormModel BhsModel BhsSpec.
Local Open Scope R_scope.

(** ** Counting *)
Definition cnt {A} (p : A -> bool) (l : list A) : nat := length (filter p l).
Lemma cnt_app {A} (p : A -> bool) l1 l2 : cnt p (l1 ++ l2) = (cnt p l1 + cnt p l2)%nat.
Proof. unfold cnt. now rewrite filter_app, app_length. Qed.
Lemma cnt_perm {A} (p : A -> bool) l1 l2 : Permutation l1 l2 -> cnt p l1 = cnt p l2.
Proof.
  induction 1; unfold cnt in *; simpl; auto.
  - destruct (p x); simpl; lia.
  - destruct (p x), (p y); reflexivity.
  - congruence.
Qed.
Lemma cnt_all {A} (p : A -> bool) l : (forall x, In x l -> p x = true) -> cnt p l = length l.
Proof.
  intros H. unfold cnt. induction l as [|x l IH]; simpl; [reflexivity|]. rewrite H by now left. simpl.
  f_equal. apply IH. intros y Hy. apply H. now right.
Qed.
Lemma cnt_none {A} (p : A -> bool) l : (forall x, In x l -> p x = false) -> cnt p l = 0%nat.
Proof.
  intros H. unfold cnt. induction l as [|x l IH]; simpl; [reflexivity|]. rewrite H by now left.
  apply IH. intros y Hy. apply H. now right.
Qed.
Lemma cnt_le {A} (p : A -> bool) l : (cnt p l <= length l)%nat.
Proof. unfold cnt. induction l as [|x l IH]; simpl; [lia|]. destruct (p x); simpl; lia. Qed.
Lemma in_nth_R (l : list R) x : In x l -> exists i, (i < length l)%nat /\ nth i l 0 = x.
Proof. intros H. apply (In_nth _ _ 0) in H. destruct H as (i & Hi & E). now exists i. Qed.

Lemma nth_rsort_le a t c : (t < cnt (fun v => Rleb v c) a)%nat -> nth t (rsort a) 0 <= c.
Proof.
  intros H. rewrite (cnt_perm _ _ _ (Permutation_sym (rsort_perm a))) in H.
  destruct (Rle_dec (nth t (rsort a) 0) c) as [|G]; [assumption|exfalso].
  pose proof (cnt_le (fun v => Rleb v c) (rsort a)) as Hl.
  rewrite <- (firstn_skipn t (rsort a)), cnt_app in H.
  pose proof (cnt_le (fun v => Rleb v c) (firstn t (rsort a))) as H1. rewrite firstn_length in H1.
  rewrite (cnt_none _ (skipn t (rsort a))) in H; [lia|].
  intros x Hx. apply in_nth_R in Hx. destruct Hx as (i & Hi & <-). rewrite skipn_length in Hi.
  assert (E : nth i (skipn t (rsort a)) 0 = nth (t + i) (rsort a) 0).
  { rewrite <- (firstn_skipn t (rsort a)) at 2. rewrite app_nth2; rewrite firstn_length; [|lia]. f_equal. lia. }
  rewrite E. destruct (Rleb_spec (nth (t + i) (rsort a) 0) c) as [G'|]; [|reflexivity].
  pose proof (sorted_nth_le _ t (t + i) 0 (rsort_sorted a) ltac:(lia)). lra.
Qed.
Lemma nth_rsort_ge a t c : (t < length a)%nat -> (cnt (fun v => Rltb v c) a <= t)%nat -> c <= nth t (rsort a) 0.
Proof.
  intros Hl H. rewrite (cnt_perm _ _ _ (Permutation_sym (rsort_perm a))) in H.
  destruct (Rle_dec c (nth t (rsort a) 0)) as [|G]; [assumption|exfalso].
  rewrite <- (firstn_skipn (S t) (rsort a)), cnt_app in H.
  rewrite (cnt_all _ (firstn (S t) (rsort a))) in H.
  - rewrite firstn_length, rsort_length in H. lia.
  - intros x Hx. apply in_nth_R in Hx. destruct Hx as (i & Hi & <-). rewrite firstn_length in Hi.
    assert (E : nth i (firstn (S t) (rsort a)) 0 = nth i (rsort a) 0).
    { rewrite <- (firstn_skipn (S t) (rsort a)) at 2. rewrite app_nth1; [reflexivity|]. rewrite firstn_length. lia. }
    rewrite E. pose proof (sorted_nth_le _ i t 0 (rsort_sorted a) ltac:(rewrite rsort_length in *; lia)).
    destruct (Rltb_spec (nth i (rsort a) 0) c); [reflexivity|lra].
Qed.

(** ** The inner loop *)
Lemma filter_all {A} (p : A -> bool) l : (forall x, In x l -> p x = true) -> filter p l = l.
Proof.
  induction l as [|x l IH]; simpl; intros H; [reflexivity|]. rewrite H by now left.
  f_equal. apply IH. intros y Hy. apply H. now right.
Qed.
Lemma filter_none {A} (p : A -> bool) l : (forall x, In x l -> p x = false) -> filter p l = [].
Proof.
  induction l as [|x l IH]; simpl; intros H; [reflexivity|]. rewrite H by now left.
  apply IH. intros y Hy. apply H. now right.
Qed.
Lemma map_fst_combine {A B} (l : list A) (m : list B) : length l = length m -> map fst (combine l m) = l.
Proof. revert m. induction l as [|x l IH]; destruct m; simpl; intros H; try discriminate; [reflexivity|]. f_equal. apply IH. lia. Qed.
Lemma map_snd_combine {A B} (l : list A) (m : list B) : length l = length m -> map snd (combine l m) = m.
Proof. revert m. induction l as [|x l IH]; destruct m; simpl; intros H; try discriminate; [reflexivity|]. f_equal. apply IH. lia. Qed.
(** once the candidates are positive, the trial value is not, and the weight set aside is at most half, a round
    changes nothing *)
Lemma whi_fixed tot s : (ws_n s <= length (ws_a s))%nat -> length (ws_w s) = length (ws_a s) ->
  (forall v, In v (firstn (ws_n s) (ws_a s)) -> 0 < v) -> whi_trial s <= 0 -> (2 * ws_rest s <= tot)%nat ->
  whi_round tot s = inl s.
Proof.
  intros Hn Hw Hpos Ht Hr. unfold whi_round.
  assert (Hc : forall q, In q (whi_cells s) -> whi_trial s < fst q).
  { intros [v w] Hq. apply in_combine_l in Hq. apply Hpos in Hq. simpl. lra. }
  assert (W1 : whi_weight (fun v => Rltb v (whi_trial s)) s = 0%nat).
  { unfold whi_weight. rewrite filter_none; [reflexivity|]. intros q Hq. apply Hc in Hq.
    destruct (Rltb_spec (fst q) (whi_trial s)); [lra|reflexivity]. }
  assert (W2 : whi_weight (fun v => Reqb v (whi_trial s)) s = 0%nat).
  { unfold whi_weight. rewrite filter_none; [reflexivity|]. intros q Hq. apply Hc in Hq.
    destruct (Reqb_spec (fst q) (whi_trial s)); [lra|reflexivity]. }
  cbv zeta. rewrite W1, W2. destruct (Nat.ltb_spec tot (2 * (ws_rest s + 0))); [lia|].
  destruct (Nat.leb_spec (2 * (ws_rest s + 0 + 0)) tot); [|lia].
  unfold whi_keep. rewrite filter_all.
  2: { intros q Hq. apply Hc in Hq. destruct (Rltb_spec (whi_trial s) (fst q)); [reflexivity|lra]. }
  assert (L : length (firstn (ws_n s) (ws_a s)) = length (firstn (ws_n s) (ws_w s))).
  { rewrite !firstn_length. lia. }
  unfold whi_cells. rewrite map_fst_combine, map_snd_combine, combine_length, <- L, Nat.min_id by exact L.
  assert (E : length (firstn (ws_n s) (ws_a s)) = ws_n s) by (rewrite firstn_length; lia).
  rewrite E, !firstn_skipn, !Nat.add_0_r. destruct s; reflexivity.
Qed.
Lemma whi_stuck tot s fuel : whi_round tot s = inl s -> whi_loop fuel tot s = None.
Proof. intros H. induction fuel as [|f IH]; simpl; [reflexivity|]. now rewrite H. Qed.

(** the first call, on one value per row, all rows having the same weight *)
Lemma combine_repeat {A B} (l : list A) (w : B) : combine l (repeat w (length l)) = map (fun v => (v, w)) l.
Proof. induction l as [|x l IH]; simpl; [reflexivity|]. now rewrite IH. Qed.
Lemma filter_map_swap {A B} (f : A -> B) p l : filter p (map f l) = map f (filter (fun x => p (f x)) l).
Proof. induction l as [|x l IH]; simpl; [reflexivity|]. destruct (p (f x)); simpl; now rewrite IH. Qed.
Lemma list_sum_const {A} (l : list A) c : list_sum (map (fun _ => c) l) = (c * length l)%nat.
Proof. induction l as [|x l IH]; simpl; [lia|]. rewrite IH. lia. Qed.
Lemma list_sum_repeat c n : list_sum (repeat c n) = (c * n)%nat.
Proof. induction n as [|n IH]; simpl; [lia|]. rewrite IH. lia. Qed.
Lemma cnt_split (l : list R) c : cnt (fun v => Rleb v c) l = (cnt (fun v => Rltb v c) l + cnt (fun v => Reqb v c) l)%nat.
Proof.
  unfold cnt. induction l as [|x l IH]; simpl; [reflexivity|].
  destruct (Rleb_spec x c), (Rltb_spec x c), (Reqb_spec x c); simpl; try lra; lia.
Qed.
Lemma cnt_compl (l : list R) c : (cnt (fun v => Rltb c v) l + cnt (fun v => Rleb v c) l = length l)%nat.
Proof.
  unfold cnt. induction l as [|x l IH]; simpl; [reflexivity|].
  destruct (Rltb_spec c x), (Rleb_spec x c); simpl; try lra; lia.
Qed.
Lemma whi_first_stuck rows k z fuel : (length rows / 2 < z)%nat ->
  (2 * cnt (fun v => Rleb v 0) rows <= length rows)%nat ->
  whi_med_i fuel (rows ++ repeat 0 z) (repeat k (length rows) ++ repeat 0%nat z) (length rows) = None.
Proof.
  intros Hz Hneg. unfold whi_med_i. set (h := length rows) in *.
  rewrite list_sum_app, !list_sum_repeat, Nat.mul_0_l, Nat.add_0_r.
  set (s := WS (rows ++ repeat 0 z) (repeat k h ++ repeat 0%nat z) h 0).
  assert (Cz : cnt (fun v => Rleb v 0) (repeat 0 z) = z).
  { rewrite cnt_all, repeat_length; [reflexivity|]. intros x Hx. apply repeat_spec in Hx. subst.
    destruct (Rleb_spec 0 0); [reflexivity|lra]. }
  assert (Cl : cnt (fun v => Rltb v 0) (repeat 0 z) = 0%nat).
  { apply cnt_none. intros x Hx. apply repeat_spec in Hx. subst. destruct (Rltb_spec 0 0); [lra|reflexivity]. }
  pose proof (cnt_split rows 0) as Hs.
  assert (T : whi_trial s = 0).
  { change (nth (h / 2) (rsort (rows ++ repeat 0 z)) 0 = 0). apply Rle_antisym.
    - apply nth_rsort_le. rewrite cnt_app, Cz. lia.
    - apply nth_rsort_ge.
      + rewrite app_length, repeat_length. fold h. pose proof (Nat.div_le_upper_bound h 2 h ltac:(lia) ltac:(lia)). lia.
      + rewrite cnt_app, Cl, Nat.add_0_r. apply Nat.div_le_lower_bound; lia. }
  assert (Cells : whi_cells s = map (fun v => (v, k)) rows).
  { unfold whi_cells. simpl. rewrite firstn_app. fold h. rewrite Nat.sub_diag, firstn_O, app_nil_r.
    replace (firstn h rows) with rows by (symmetry; apply firstn_all).
    rewrite firstn_app, repeat_length, Nat.sub_diag, firstn_O, app_nil_r.
    rewrite firstn_all2 by (rewrite repeat_length; lia). apply combine_repeat. }
  assert (Wt : forall p, whi_weight p s = (k * cnt p rows)%nat).
  { intros p. unfold whi_weight, cnt. rewrite Cells, filter_map_swap, map_map. simpl. apply list_sum_const. }
  destruct fuel as [|fuel]; [reflexivity|]. cbn [whi_loop]. unfold whi_round at 1. cbv zeta. rewrite T, !Wt.
  replace (ws_rest s) with 0%nat by reflexivity.
  destruct (Nat.ltb_spec (k * h) (2 * (0 + k * cnt (fun v => Rltb v 0) rows))) as [G|_]; [nia|].
  destruct (Nat.leb_spec (2 * (0 + k * cnt (fun v => Rltb v 0) rows + k * cnt (fun v => Reqb v 0) rows)) (k * h)) as [_|G];
    [|nia].
  apply whi_stuck. unfold whi_keep. rewrite Cells, filter_map_swap. simpl fst.
  assert (F : map fst (map (fun v => (v, k)) (filter (fun v => Rltb 0 v) rows)) = filter (fun v => Rltb 0 v) rows).
  { rewrite map_map. simpl. apply map_id. }
  rewrite F, map_map. simpl snd. rewrite !map_length.
  set (P := length (filter (fun v => Rltb 0 v) rows)).
  assert (HP : (P <= h)%nat) by apply cnt_le.
  assert (Sk : skipn P (ws_a s) = (skipn P rows ++ repeat 0 z)%list).
  { simpl. rewrite skipn_app. fold h. now replace (P - h)%nat with 0%nat by lia. }
  assert (Sw : skipn P (ws_w s) = (repeat k (h - P) ++ repeat 0%nat z)%list).
  { simpl. rewrite skipn_app, repeat_length. replace (P - h)%nat with 0%nat by lia. f_equal.
    replace h with (P + (h - P))%nat at 1 by lia. rewrite repeat_app, skipn_app, repeat_length, Nat.sub_diag.
    rewrite skipn_all2 by (rewrite repeat_length; lia). reflexivity. }
  rewrite Sk, Sw. apply whi_fixed; cbn [ws_n ws_a ws_w ws_rest].
  - rewrite app_length. fold P. lia.
  - rewrite !app_length, !map_length, !repeat_length, skipn_length. fold h. lia.
  - intros v Hv. rewrite firstn_app in Hv. fold P in Hv. rewrite Nat.sub_diag, firstn_O, app_nil_r in Hv.
    unfold P in Hv. rewrite firstn_all in Hv.
    apply filter_In in Hv. destruct Hv as [_ Hv]. destruct (Rltb_spec 0 v); [assumption|discriminate].
  - unfold whi_trial. cbn [ws_n ws_a]. apply nth_rsort_le. rewrite !cnt_app, Cz.
    pose proof (Nat.div_le_mono P h 2 ltac:(lia) HP). lia.
  - nia.
Qed.
Lemma whi_first_stuck_of rows h k z fuel : length rows = h -> (h / 2 < z)%nat ->
  (2 * cnt (fun v => Rleb v 0) rows <= h)%nat ->
  whi_med_i fuel (rows ++ repeat 0 z) (repeat k h ++ repeat 0%nat z) h = None.
Proof. intros <-. apply whi_first_stuck. Qed.

(** ** The start of the medcouple *)
Lemma eps0_range : 2 / 10 ^ 16 < bhs_eps0 < 3 / 10 ^ 16.
Proof. unfold bhs_eps0. lra. Qed.
Lemma eps1_small : 0 < bhs_eps1 /\ 2 * bhs_eps1 < bhs_eps0 * bhs_eps0.
Proof.
  unfold bhs_eps1. assert (P : 0 < 10 ^ 308) by (apply pow_lt; lra). split.
  - apply Rdiv_lt_0_compat; lra.
  - pose proof eps0_range as E.
    assert (Q : 10 ^ 40 <= 10 ^ 308) by (apply Rle_pow; [lra|lia]).
    assert (H : 2.225074 / 10 ^ 308 <= 3 / 10 ^ 40).
    { apply Rle_trans with (2.225074 / 10 ^ 40); [|lra].
      unfold Rdiv. apply Rmult_le_compat_l; [lra|]. apply Rinv_le_contravar; [apply pow_lt; lra|exact Q]. }
    assert (H2 : 2 / 10 ^ 16 * (2 / 10 ^ 16) < bhs_eps0 * bhs_eps0) by (apply Rmult_gt_0_lt_compat; lra).
    lra.
Qed.
Lemma nth_opp l i : nth i (map Ropp l) 0 = - nth i l 0.
Proof. rewrite <- Ropp_0 at 1. apply map_nth. Qed.
Lemma opp_sorted y : decreasing y -> sortedR (map Ropp y).
Proof.
  unfold decreasing, sortedR. induction 1 as [|x l Hs IH Hf]; simpl; constructor; [exact IH|].
  rewrite Forall_forall in Hf |- *. intros v Hv. apply in_map_iff in Hv. destruct Hv as (u & <- & Hu).
  apply Hf in Hu. lra.
Qed.
Lemma decreasing_nth y i j : decreasing y -> (i <= j < length y)%nat -> nth j y 0 <= nth i y 0.
Proof.
  intros H Hij. pose proof (sorted_nth_le _ i j 0 (opp_sorted y H) ltac:(rewrite map_length; lia)) as G.
  rewrite !nth_opp in G. lra.
Qed.
Lemma run_above_eq c l k : (k <= length l)%nat -> (forall i, (i < k)%nat -> c < nth i l 0) ->
  (k = length l \/ nth k l 0 <= c) -> run_above c l = k.
Proof.
  revert k. induction l as [|v l IH]; intros k Hk Ha Hb; simpl in *; [lia|].
  destruct k as [|k].
  - destruct Hb as [Hb|Hb]; [discriminate|]. destruct (Rltb_spec c v); [lra|reflexivity].
  - destruct (Rltb_spec c v) as [_|G]; [|specialize (Ha 0%nat ltac:(lia)); simpl in Ha; lra].
    f_equal. apply IH; [lia| |].
    + intros i Hi. apply (Ha (S i)). lia.
    + destruct Hb as [Hb|Hb]; [left; lia|now right].
Qed.
Lemma centre_between y : decreasing y -> (1 <= length y)%nat ->
  nth (length y / 2) y 0 <= centre y <= nth ((length y - 1) / 2) y 0.
Proof.
  intros H Hn. unfold centre.
  assert (G : nth (length y / 2) y 0 <= nth ((length y - 1) / 2) y 0).
  { apply decreasing_nth; [exact H|]. split; [apply Nat.div_le_mono; lia|apply Nat.div_lt; lia]. }
  lra.
Qed.
Lemma half_cases n : (exists k, n = 2 * k /\ n / 2 = k /\ (n + 1) / 2 = k /\ (n - 1) / 2 = k - 1 /\ Nat.even n = true)%nat \/
  (exists k, n = 2 * k + 1 /\ n / 2 = k /\ (n + 1) / 2 = k + 1 /\ (n - 1) / 2 = k /\ Nat.even n = false)%nat.
Proof.
  destruct (Nat.Even_or_Odd n) as [(k & ->)|(k & ->)]; [left|right]; exists k.
  - repeat split; try (apply Nat.even_spec; now exists k).
    + rewrite Nat.mul_comm. now rewrite Nat.div_mul.
    + symmetry. apply (Nat.div_unique _ 2 k 1); lia.
    + destruct k as [|k]; [reflexivity|]. symmetry. apply (Nat.div_unique _ 2 _ 1); lia.
  - repeat split.
    + symmetry. apply (Nat.div_unique _ 2 k 1); lia.
    + symmetry. apply (Nat.div_unique _ 2 (k + 1) 0); lia.
    + symmetry. apply (Nat.div_unique _ 2 k 0); lia.
    + rewrite Nat.add_1_r, Nat.even_succ, <- Nat.negb_even.
      assert (E : Nat.even (2 * k) = true) by (apply Nat.even_spec; now exists k). now rewrite E.
Qed.

Lemma abs_div a d : 0 < d -> Rabs (a / d) = Rabs a / d.
Proof. intros H. unfold Rdiv. rewrite Rabs_mult. f_equal. apply Rabs_pos_eq, Rlt_le, Rinv_0_lt_compat, H. Qed.
Lemma below_div a b d : 0 < d -> a * d < b -> a < b / d.
Proof. intros Hd H. apply (Rmult_lt_reg_r d); [exact Hd|]. now replace (b / d * d) with b by (field; lra). Qed.
Lemma above_div a b d : 0 < d -> b < a * d -> b / d < a.
Proof. intros Hd H. apply (Rmult_lt_reg_r d); [exact Hd|]. now replace (b / d * d) with b by (field; lra). Qed.

Definition scaled (y : list R) : list R :=
  map (fun v => (v - centre y) / (2 * Rmax (nth 0 y 0 - centre y) (centre y - nth (length y - 1) y 0))) y.
Definition table_start (n : nat) : mc_state :=
  let h := ((n + 1) / 2)%nat in
  MC (repeat 1%nat h) (repeat h h) (repeat 0 n) (repeat 0%nat n) (h * h) 0 0 (-2) false.
Lemma nth_scaled y i : (i < length y)%nat -> nth i (scaled y) 0 =
  (nth i y 0 - centre y) / (2 * Rmax (nth 0 y 0 - centre y) (centre y - nth (length y - 1) y 0)).
Proof.
  intros Hi. set (f := fun v => (v - centre y) / (2 * Rmax (nth 0 y 0 - centre y) (centre y - nth (length y - 1) y 0))).
  change (nth i (map f y) 0 = f (nth i y 0)).
  rewrite (nth_indep _ 0 (f 0)) by (rewrite map_length; exact Hi). apply map_nth.
Qed.
Lemma mc_setup y fuel max_it : decreasing y -> (3 <= length y)%nat -> clear_of_centre y ->
  let n := length y in let h := ((n + 1) / 2)%nat in let x := 0 :: scaled y in let knew := (h * h / 2 + 1)%nat in
  mc_c_d fuel max_it y =
    match mc_loop x (n / 2) h h fuel n knew max_it 0 (table_start n) with
    | None => None
    | Some (s1, it) => Some (match mc_result x (n / 2) h h n knew s1 with Ok v => Ok (v, it) | Raise e => Raise e end)
    end.
Proof.
  intros Hd Hn Hc n h x knew. unfold mc_c_d. fold n. cbv zeta.
  destruct (Nat.ltb_spec n 3) as [G|_]; [unfold n in G; lia|].
  rewrite (rsort_id (map Ropp y)) by now apply opp_sorted. rewrite !nth_opp.
  set (c := centre y) in *.
  assert (M : (if Nat.even n then (- nth (n / 2 - 1) y 0 + - nth (n / 2) y 0) / 2 else - nth (n / 2) y 0) = - c).
  { unfold c, centre. fold n. destruct (half_cases n) as [(k & E1 & E2 & E3 & E4 & E5)|(k & E1 & E2 & E3 & E4 & E5)];
      rewrite E5, E2, E4; lra. }
  rewrite M. pose proof eps0_range as [Ea Eb].
  set (e := (1 + Rabs c + spread y) / 10 ^ 15) in *.
  assert (Hc' : forall i, (i < n)%nat -> ((i < n / 2)%nat -> e < nth i y 0 - c) /\ ((h <= i)%nat -> e < c - nth i y 0)) by exact Hc.
  assert (Hh : (n / 2 <= h /\ h < n /\ 1 <= n / 2)%nat).
  { unfold h. destruct (half_cases n) as [(k & E1 & E2 & E3 & _)|(k & E1 & E2 & E3 & _)]; rewrite E2, E3; lia. }
  pose proof (proj1 (Hc' 0%nat ltac:(lia)) ltac:(lia)) as H0.
  pose proof (proj2 (Hc' (n - 1)%nat ltac:(lia)) ltac:(lia)) as H1.
  pose proof (Rabs_pos c) as Ac.
  assert (Sp : spread y = nth 0 y 0 - nth (n - 1) y 0) by reflexivity.
  assert (He : 0 < spread y /\ (1 + Rabs c + spread y) / 10 ^ 15 = e) .
  { split; [|reflexivity]. 
    pose proof (decreasing_nth y 0 (n - 1) Hd ltac:(fold n; lia)) as G0. 
    assert (G : 0 <= e) by (unfold e; apply Rmult_le_pos; [lra|apply Rlt_le, Rinv_0_lt_compat; lra]).
    lra. }
  destruct He as [Hsp He].
  assert (T : bhs_tol (- c) < e).
  { unfold bhs_tol. rewrite Rabs_Ropp.
    assert (G : bhs_eps0 * (bhs_eps0 + Rabs c) <= (3 / 10 ^ 16) * (1 + Rabs c)) by (apply Rmult_le_compat; lra). lra. }
  destruct (Rltb_spec (Rabs (- nth 0 y 0 - - c)) (bhs_tol (- c))) as [G|_].
  { exfalso. rewrite <- Rabs_Ropp, Rabs_pos_eq in G; lra. }
  destruct (Rltb_spec (Rabs (- nth (n - 1) y 0 - - c)) (bhs_tol (- c))) as [G|_].
  { exfalso. rewrite Rabs_pos_eq in G; lra. }
  set (D := 2 * Rmax (nth 0 y 0 - c) (c - nth (n - 1) y 0)).
  assert (HD : 0 < D /\ D <= 2 * spread y).
  { unfold D. pose proof (Rmax_l (nth 0 y 0 - c) (c - nth (n - 1) y 0)). split; [lra|].
    apply Rmult_le_compat_l; [lra|]. apply Rmax_lub; lra. }
  assert (Den : -2 * Rmax (- (- nth 0 y 0 - - c)) (- nth (n - 1) y 0 - - c) = - D).
  { unfold D. replace (- (- nth 0 y 0 - - c)) with (nth 0 y 0 - c) by ring.
    replace (- nth (n - 1) y 0 - - c) with (c - nth (n - 1) y 0) by ring. ring. }
  rewrite Den.
  assert (Xs : map (fun v => (v - - c) / - D) (map Ropp y) = scaled y).
  { unfold scaled. rewrite map_map. apply map_ext. intros v. fold n c D. field. lra. }
  rewrite Xs. replace (- c / - D) with (c / D) by (field; lra).
  assert (Ly : length (scaled y) = n) by apply map_length.
  assert (Xe : bhs_tol (c / D) * D < e /\ 0 < bhs_tol (c / D)).
  { unfold bhs_tol. rewrite abs_div by lra. split.
    - replace (bhs_eps0 * (bhs_eps0 + Rabs c / D) * D) with (bhs_eps0 * (bhs_eps0 * D + Rabs c)) by (field; lra).
      assert (G : bhs_eps0 * (bhs_eps0 * D + Rabs c) <= (3 / 10 ^ 16) * (spread y + Rabs c)).
      { apply Rmult_le_compat; try lra.
        - apply Rplus_le_le_0_compat; [apply Rmult_le_pos|]; lra.
        - apply Rplus_le_compat_r. apply Rle_trans with (bhs_eps0 * (2 * spread y)).
          + apply Rmult_le_compat_l; lra.
          + replace (spread y) with (/2 * (2 * spread y)) at 2 by field. apply Rmult_le_compat_r; lra. }
      lra.
    - apply Rmult_lt_0_compat; [lra|]. assert (0 <= Rabs c / D) by (apply Rmult_le_pos; [lra|apply Rlt_le, Rinv_0_lt_compat; lra]).
      lra. }
  destruct Xe as [Xe Xp]. set (xe := bhs_tol (c / D)) in *.
  assert (Up : forall i, (i < n / 2)%nat -> xe < nth i (scaled y) 0).
  { intros i Hi. rewrite nth_scaled by (fold n; lia). fold n c D. apply below_div; [lra|].
    pose proof (proj1 (Hc' i ltac:(lia)) Hi). lra. }
  assert (Down : forall i, (h <= i < n)%nat -> nth i (scaled y) 0 < - xe).
  { intros i Hi. rewrite nth_scaled by (fold n; lia). fold n c D. apply above_div; [lra|].
    pose proof (proj2 (Hc' i ltac:(lia)) ltac:(lia)). lra. }
  assert (Mid : forall i, (n / 2 <= i < h)%nat -> nth i (scaled y) 0 = 0).
  { intros i Hi. rewrite nth_scaled by (fold n; lia). fold n c D.
    unfold h in Hi. destruct (half_cases n) as [(k & E1 & E2 & E3 & E4 & E5)|(k & E1 & E2 & E3 & E4 & E5)];
      rewrite E2, E3 in Hi; [lia|].
    replace (nth i y 0) with c; [field; lra|]. unfold c, centre. fold n. rewrite E2, E4.
    replace i with k by lia. field. }
  assert (A1 : run_above xe (scaled y) = (n / 2)%nat).
  { apply run_above_eq; [lia|exact Up|]. right.
    destruct (Nat.lt_ge_cases (n / 2) h); [rewrite Mid; lra || lia|]. pose proof (Down (n / 2)%nat ltac:(lia)). lra. }
  rewrite A1.
  assert (Ns : forall i, nth i (skipn (n / 2) (scaled y)) 0 = nth (n / 2 + i) (scaled y) 0).
  { intros i. rewrite <- (firstn_skipn (n / 2) (scaled y)) at 2. rewrite app_nth2; rewrite firstn_length; [|lia].
    f_equal. lia. }
  assert (A2 : run_above (- xe) (skipn (n / 2) (scaled y)) = (h - n / 2)%nat).
  { apply run_above_eq.
    - rewrite skipn_length. lia.
    - intros i Hi. rewrite Ns, Mid by lia. lra.
    - right. rewrite Ns. pose proof (Down (n / 2 + (h - n / 2))%nat ltac:(lia)). lra. }
  rewrite A2. replace (n / 2 + (h - n / 2))%nat with h by lia.
  replace (n - n / 2)%nat with h; [reflexivity|].
  unfold h. destruct (half_cases n) as [(k & E1 & E2 & E3 & _)|(k & E1 & E2 & E3 & _)]; rewrite E2, E3; lia.
Qed.
