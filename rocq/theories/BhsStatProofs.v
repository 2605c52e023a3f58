(** When the Brys-Hubert-Struyf statistic returns, and what. *)
From Coq Require Import ZArith Sorted Permutation Lia Lra.
From Verif Require Import Base DecModel EdfModel GraphModel NormalLaw ExpModel NormModel BhsModel BhsSpec BhsProofs.
Local Open Scope R_scope.

(** ** The scaled sample *)
Lemma spread_nonneg y : decreasing y -> (1 <= length y)%nat -> 0 <= spread y.
Proof. intros H Hn. unfold spread. pose proof (decreasing_nth y 0 (length y - 1) H ltac:(lia)). lra. Qed.
Lemma clear_pos y i : decreasing y -> clear_of_centre y -> (i < length y / 2)%nat -> centre y < nth i y 0.
Proof.
  intros Hd Hc Hi. assert (Hn : (i < length y)%nat) by (pose proof (Nat.div_le_upper_bound (length y) 2 (length y) ltac:(lia) ltac:(lia)); lia).
  destruct (Hc i Hn) as [H _]. specialize (H Hi).
  pose proof (spread_nonneg y Hd ltac:(lia)). pose proof (Rabs_pos (centre y)).
  assert (0 <= (1 + Rabs (centre y) + spread y) / 10 ^ 15) by lra. lra.
Qed.
Lemma clear_last y : decreasing y -> clear_of_centre y -> (2 <= length y)%nat ->
  nth (length y - 1) y 0 < centre y.
Proof.
  intros Hd Hc Hn. destruct (Hc (length y - 1)%nat ltac:(lia)) as [_ H].
  assert (G : ((length y + 1) / 2 <= length y - 1)%nat) by (destruct (half_cases (length y)) as [(k & E1 & E2 & E3 & _)|(k & E1 & E2 & E3 & _)]; rewrite E3; lia).
  specialize (H G). pose proof (spread_nonneg y Hd ltac:(lia)). pose proof (Rabs_pos (centre y)).
  assert (0 <= (1 + Rabs (centre y) + spread y) / 10 ^ 15) by lra. lra.
Qed.
Definition scale_of (y : list R) : R := 2 * Rmax (nth 0 y 0 - centre y) (centre y - nth (length y - 1) y 0).
Lemma scale_pos y : decreasing y -> clear_of_centre y -> (2 <= length y)%nat -> 0 < scale_of y.
Proof.
  intros Hd Hc Hn. unfold scale_of. pose proof (Rmax_r (nth 0 y 0 - centre y) (centre y - nth (length y - 1) y 0)).
  pose proof (clear_last y Hd Hc Hn). lra.
Qed.
(** every entry of the upper part is above the square of the first tolerance, after scaling *)
Lemma scaled_up y i : decreasing y -> clear_of_centre y -> (2 <= length y)%nat -> (i < length y / 2)%nat ->
  bhs_eps0 * bhs_eps0 < nth i (scaled y) 0.
Proof.
  intros Hd Hc Hn Hi.
  assert (Hl : (i < length y)%nat) by (pose proof (Nat.div_lt (length y) 2); lia).
  rewrite nth_scaled by exact Hl. apply below_div; [now apply scale_pos|].
  destruct (Hc i Hl) as [H _]. specialize (H Hi).
  pose proof (clear_pos y 0 Hd Hc ltac:(lia)) as H0. pose proof (clear_last y Hd Hc Hn) as H1.
  pose proof eps0_range as [Ea Eb]. pose proof (Rabs_pos (centre y)).
  assert (D : 2 * Rmax (nth 0 y 0 - centre y) (centre y - nth (length y - 1) y 0) <= 2 * spread y).
  { apply Rmult_le_compat_l; [lra|]. unfold spread. apply Rmax_lub; lra. }
  assert (E2 : bhs_eps0 * bhs_eps0 <= 1 * (3 / 10 ^ 16)) by (apply Rmult_le_compat; lra).
  pose proof (spread_nonneg y Hd ltac:(lia)).
  apply Rle_lt_trans with (1 * (3 / 10 ^ 16) * (2 * spread y)).
  - apply Rmult_le_compat; try lra; [apply Rmult_le_pos; lra|].
    pose proof (scale_pos y Hd Hc Hn) as G. unfold scale_of in G. lra.
  - lra.
Qed.
Lemma scaled_low y i : decreasing y -> clear_of_centre y -> (2 <= length y)%nat -> (length y / 2 <= i)%nat ->
  nth i (scaled y) 0 <= 0.
Proof.
  intros Hd Hc Hn Hi. destruct (Nat.lt_ge_cases i (length y)) as [Hl|Hl].
  - rewrite nth_scaled by exact Hl. pose proof (scale_pos y Hd Hc Hn) as G. unfold scale_of in G.
    pose proof (centre_between y Hd ltac:(lia)) as [H _]. pose proof (decreasing_nth y (length y / 2) i Hd ltac:(lia)).
    apply Rmult_le_reg_r with (1 := G). unfold Rdiv. rewrite Rmult_assoc, Rinv_l by lra. lra.
  - rewrite nth_overflow; [lra|]. unfold scaled. rewrite map_length. exact Hl.
Qed.

(** ** The first iteration *)
Lemma combine_repeat2 {A B C} (l : list A) (u : B) (v : C) k : length l = k ->
  combine l (combine (repeat u k) (repeat v k)) = map (fun i => (i, (u, v))) l.
Proof. intros <-. induction l as [|x l IH]; simpl; [reflexivity|]. now rewrite IH. Qed.
Lemma bounds_start n : bounds ((n + 1) / 2) (table_start n) = map (fun i => (i, (1%nat, ((n + 1) / 2)%nat))) (seq 1 ((n + 1) / 2)).
Proof.
  unfold bounds, table_start. cbn [mc_left mc_right]. apply combine_repeat2, seq_length.
Qed.
Lemma open_start n : (1 <= n)%nat -> filter is_open (bounds ((n + 1) / 2) (table_start n)) =
  map (fun i => (i, (1%nat, ((n + 1) / 2)%nat))) (seq 1 ((n + 1) / 2)).
Proof.
  intros Hn. rewrite bounds_start, filter_map_swap. f_equal. apply filter_all. intros i _. unfold is_open. cbn [fst snd].
  apply Nat.leb_le. apply Nat.div_le_lower_bound; lia.
Qed.
Lemma wide_start n : (5 <= n)%nat -> mc_wide n (table_start n) = true.
Proof.
  intros Hn. unfold mc_wide, table_start. cbn [mc_nl mc_nr mc_neq]. apply Nat.ltb_lt.
  assert (H : (n <= 2 * ((n + 1) / 2))%nat).
  { destruct (half_cases n) as [(k & E1 & E2 & E3 & _)|(k & E1 & E2 & E3 & _)]; rewrite E3; lia. }
  assert (H3 : (3 <= (n + 1) / 2)%nat) by (apply Nat.div_le_lower_bound; lia). nia.
Qed.
Lemma skipn_repeat {A} (v : A) n k : skipn k (repeat v n) = repeat v (n - k).
Proof. revert n. induction k as [|k IH]; intros n; [now rewrite Nat.sub_0_r|]. destruct n; simpl; [reflexivity|apply IH]. Qed.
Lemma map_const {A B} (l : list A) (v : B) : map (fun _ => v) l = repeat v (length l).
Proof. induction l; simpl; congruence. Qed.
Lemma first_iteration_stuck y fuel knew : decreasing y -> clear_of_centre y -> (5 <= length y)%nat -> leans_up y ->
  let n := length y in let h := ((n + 1) / 2)%nat in
  mc_iteration (0 :: scaled y) (n / 2) h h fuel knew (table_start n) = None.
Proof.
  intros Hd Hc Hn Hu n h. unfold mc_iteration. fold h. unfold h at 1 2 3 4 5 6. rewrite open_start by (unfold n; lia). fold h.
  rewrite !map_length, seq_length, !map_map.
  assert (Hh : (3 <= h /\ h <= n /\ h / 2 < n / 2 /\ n <= 2 * h <= n + 1 /\ n / 2 + h = n)%nat).
  { unfold h. destruct (half_cases n) as [(k & E1 & E2 & E3 & _)|(k & E1 & E2 & E3 & _)]; rewrite E2, E3; unfold n in *;
      (repeat split; try lia; apply Nat.div_lt_upper_bound; lia). }
  destruct Hh as (Hh3 & Hhn & Hq & Hh2 & Hnh).
  set (rows := map (fun i => row_value (0 :: scaled y) (n / 2) h (i, (1%nat, h))) (seq 1 h)).
  assert (Lr : length rows = h) by (unfold rows; now rewrite map_length, seq_length).
  assert (Hw : map (fun i => row_weight (i, (1%nat, h))) (seq 1 h) = repeat h h).
  { transitivity (repeat h (length (seq 1 h))); [|now rewrite seq_length]. rewrite <- map_const. apply map_ext.
    intros i. unfold row_weight. cbn [fst snd]. lia. }
  rewrite Hw. unfold table_start at 1 2. cbn [mc_work mc_iwt]. rewrite !skipn_repeat.
  rewrite whi_first_stuck_of; [reflexivity|exact Lr| |].
  - destruct (half_cases n) as [(k & E1 & E2 & E3 & _)|(k & E1 & E2 & E3 & _)]; lia.
  - set (t := ((h + 1) / 2)%nat).
    assert (Ht : (t <= h /\ 2 * (h - t) <= h /\ 1 <= t)%nat).
    { unfold t. destruct (half_cases h) as [(k & E1 & E2 & E3 & _)|(k & E1 & E2 & E3 & _)]; rewrite E3; lia. }
    assert (Es : seq 1 h = (seq 1 t ++ seq (1 + t) (h - t))%list) by (rewrite <- seq_app; f_equal; lia).
    unfold rows. rewrite Es, map_app, cnt_app.
    rewrite (cnt_none _ (map _ (seq 1 t))).
    + pose proof (cnt_le (fun v => Rleb v 0) (map (fun i => row_value (0 :: scaled y) (n / 2) h (i, (1%nat, h))) (seq (1 + t) (h - t)))) as G.
      rewrite map_length, seq_length in G. lia.
    + intros v Hv. apply in_map_iff in Hv. destruct Hv as (i & <- & Hi). apply in_seq in Hi.
      assert (Pos : 0 < row_value (0 :: scaled y) (n / 2) h (i, (1%nat, h))).
      2: { destruct (Rleb_spec (row_value (0 :: scaled y) (n / 2) h (i, (1%nat, h))) 0); [lra|reflexivity]. }
      unfold row_value, row_weight, cell. cbn [fst snd]. replace (h - 1 + 1)%nat with h by lia.
      change (nth (1 + h / 2) (0 :: scaled y) 0) with (nth (h / 2) (scaled y) 0).
      assert (Ha := scaled_up y (h / 2) Hd Hc ltac:(lia) Hq).
      replace (n / 2 + i - 1)%nat with (S (n / 2 + i - 2)) by lia.
      change (nth (S (n / 2 + i - 2)) (0 :: scaled y) 0) with (nth (n / 2 + i - 2) (scaled y) 0).
      pose proof eps0_range as [Ea _]. pose proof eps1_small as [Ez Eb].
      unfold h_kern. destruct (Nat.eq_dec i 1) as [->|Hi1].
      * assert (Hb := scaled_up y (n / 2 + 1 - 2) Hd Hc ltac:(lia) ltac:(fold n; lia)).
        assert (0 < bhs_eps0 * bhs_eps0) by (apply Rmult_lt_0_compat; lra).
        destruct (Rltb_spec 0 (nth (n / 2 + 1 - 2) (scaled y) 0)) as [_|G]; [|lra]. rewrite Bool.orb_true_r.
        assert (S1 : (2 <= h - h / 2)%nat).
        { destruct (half_cases h) as [(k & E1 & E2 & _)|(k & E1 & E2 & _)]; rewrite E2; lia. }
        rewrite Z.sgn_pos by lia. lra.
      * assert (Hb := scaled_low y (n / 2 + i - 2) Hd Hc ltac:(lia) ltac:(fold n; lia)).
        destruct (Rltb_spec 0 (nth (n / 2 + i - 2) (scaled y) 0)) as [G|_]; [lra|].
        destruct (Rltb_spec (Rabs (nth (h / 2) (scaled y) 0 - nth (n / 2 + i - 2) (scaled y) 0)) (2 * bhs_eps1)) as [G|_].
        { rewrite Rabs_pos_eq in G; lra. }
        simpl orb. apply Rdiv_lt_0_compat; [|lra].
        rewrite !nth_scaled by (fold n; lia). fold (scale_of y). pose proof (scale_pos y Hd Hc ltac:(lia)) as Hs.
        rewrite <- Rdiv_plus_distr. apply Rdiv_lt_0_compat; [|exact Hs].
        unfold leans_up in Hu. fold n in Hu. fold h in Hu. fold t in Hu.
        pose proof (decreasing_nth y (n / 2 + i - 2) (n / 2 + t - 2) Hd ltac:(fold n; lia)). lra.
Qed.

(** ** Medcouples *)
Lemma mc_stuck y fuel r : decreasing y -> clear_of_centre y -> (5 <= length y)%nat -> leans_up y -> mc_c_d fuel (S r) y = None.
Proof.
  intros Hd Hc Hn Hu. rewrite mc_setup by (assumption || lia). cbv zeta. cbn [mc_loop].
  rewrite wide_start by exact Hn. cbn [table_start mc_found negb andb].
  now rewrite first_iteration_stuck.
Qed.
Lemma mc_no_iterations y fuel : decreasing y -> clear_of_centre y -> (5 <= length y)%nat ->
  mc_c_d fuel 0 y = Some (Ok (-2, 0%nat)).
Proof.
  intros Hd Hc Hn. rewrite mc_setup by (assumption || lia). cbv zeta. cbn [mc_loop].
  rewrite wide_start by exact Hn. cbn [table_start mc_found negb andb]. unfold mc_result.
  rewrite wide_start by exact Hn. reflexivity.
Qed.
Lemma mc_loop_count x start h1 h2 fuel n knew allowed it s s' it' :
  mc_loop x start h1 h2 fuel n knew allowed it s = Some (s', it') -> (it <= it')%nat.
Proof.
  revert it s. induction allowed as [|r IH]; intros it s H; cbn [mc_loop] in H; destruct (negb (mc_found s) && mc_wide n s).
  - injection H as _ <-. lia.
  - injection H as _ <-. lia.
  - destruct (mc_iteration x start h1 h2 fuel knew s) as [s1|]; [|discriminate]. apply IH in H. lia.
  - injection H as _ <-. lia.
Qed.
Lemma mc_iterates y fuel r v it : decreasing y -> clear_of_centre y -> (5 <= length y)%nat ->
  mc_c_d fuel (S r) y = Some (Ok (v, it)) -> (1 <= it)%nat.
Proof.
  intros Hd Hc Hn. rewrite mc_setup by (assumption || lia). cbv zeta. cbn [mc_loop].
  rewrite wide_start by exact Hn. cbn [table_start mc_found negb andb].
  match goal with |- context [mc_iteration ?a ?b ?c ?d ?e ?f ?g] => destruct (mc_iteration a b c d e f g) as [s1|] end; [|discriminate].
  match goal with |- context [mc_loop ?a ?b ?c ?d ?e ?f ?g ?h ?i ?j] => destruct (mc_loop a b c d e f g h i j) as [[s2 it2]|] eqn:E end;
    [|discriminate].
  apply mc_loop_count in E.
  match goal with |- context [mc_result ?a ?b ?c ?d ?e ?f ?g] => destruct (mc_result a b c d e f g) as [u|] end; [|discriminate].
  intros H. injection H as _ <-. exact E.
Qed.

(** ** Order of the observations *)
Lemma mc_perm fuel max_it z z' : Permutation z z' -> mc_c_d fuel max_it z = mc_c_d fuel max_it z'.
Proof.
  intros H. unfold mc_c_d. rewrite (rsort_perm_eq (map Ropp z) (map Ropp z')) by now apply Permutation_map.
  now rewrite (Permutation_length H).
Qed.
Lemma bhs_perm fuel rvs rvs' : Permutation rvs rvs' -> bhs fuel rvs = bhs fuel rvs'.
Proof.
  intros H. unfold bhs. rewrite (mc_perm fuel 1000 rvs rvs' H), (rsort_perm_eq rvs rvs' H), (Permutation_length H). reflexivity.
Qed.
Lemma dec_rev y : decreasing y -> sortedR (rev y).
Proof.
  unfold sortedR, decreasing. induction 1 as [|x l Hs IH Hf]; simpl; [constructor|].
  rewrite Forall_forall in Hf. clear Hs. revert IH Hf. generalize (rev l) (in_rev l). intros m Hm IH Hf.
  assert (Hf' : forall v, In v m -> v <= x) by (intros v Hv; apply Hm in Hv; apply Hf in Hv; lra). clear Hm Hf.
  induction IH as [|u m Hs IH' Hu]; simpl; [repeat constructor|]. constructor.
  - apply IH'. intros v Hv. apply Hf'. now right.
  - rewrite Forall_forall in Hu |- *. intros v Hv. apply in_app_or in Hv. destruct Hv as [Hv|[<-|[]]]; [now apply Hu|].
    apply Hf'. now left.
Qed.
Lemma bhs_decreasing fuel rvs y : decreasing y -> Permutation rvs y ->
  bhs fuel rvs =
    if (3 <? length y)%nat then
      match mc_c_d fuel 1000 y with
      | None => None
      | Some (Raise e) => Some (Raise e)
      | Some (Ok (w1, it1)) =>
          match mc_c_d fuel it1 (skipn (length y / 2) y) with
          | None => None
          | Some (Raise e) => Some (Raise e)
          | Some (Ok (w2, it2)) =>
              match mc_c_d fuel it2 (firstn (length y / 2) y) with
              | None => None
              | Some (Raise e) => Some (Raise e)
              | Some (Ok (w3, _)) => Some (Ok (Some (Fin (bhs_value (length y) w1 w2 w3))))
              end
          end
      end
    else Some (Ok None).
Proof.
  intros Hd HP. rewrite (bhs_perm fuel rvs y HP). unfold bhs.
  assert (E : rsort y = rev y).
  { rewrite (rsort_perm_eq y (rev y)) by apply Permutation_rev. apply rsort_id, dec_rev, Hd. }
  rewrite E.
  assert (L : (length y - (length y + 1) / 2 = length y / 2)%nat).
  { destruct (half_cases (length y)) as [(k & E1 & E2 & E3 & _)|(k & E1 & E2 & E3 & _)]; lia. }
  rewrite firstn_rev, skipn_rev, L.
  destruct (3 <? length y)%nat; [|reflexivity].
  destruct (mc_c_d fuel 1000 y) as [[[w1 it1]|e]|]; try reflexivity.
  rewrite (mc_perm fuel it1 (rev (skipn (length y / 2) y)) (skipn (length y / 2) y)) by (symmetry; apply Permutation_rev).
  destruct (mc_c_d fuel it1 (skipn (length y / 2) y)) as [[[w2 it2]|e]|]; try reflexivity.
  now rewrite (mc_perm fuel it2 (rev (firstn (length y / 2) y)) (firstn (length y / 2) y)) by (symmetry; apply Permutation_rev).
Qed.

(** ** Samples on which the statistic never returns *)
Lemma bhs_stuck fuel rvs y : Permutation rvs y -> decreasing y -> clear_of_centre y -> (5 <= length y)%nat -> leans_up y ->
  bhs fuel rvs = None.
Proof.
  intros HP Hd Hc Hn Hu. rewrite (bhs_decreasing fuel rvs y Hd HP). destruct (Nat.ltb_spec 3 (length y)); [|lia].
  now rewrite (mc_stuck y fuel 999) by assumption.
Qed.
Lemma strictly y i j : decreasing y -> NoDup y -> (i < j < length y)%nat -> nth j y 0 < nth i y 0.
Proof.
  intros Hd Hn Hij. destruct (decreasing_nth y i j Hd ltac:(lia)) as [G|G]; [exact G|].
  exfalso. apply (NoDup_nth y 0) in G; [lia|exact Hn|lia|lia].
Qed.
Lemma small_leans_up y : decreasing y -> NoDup y -> (5 <= length y <= 8)%nat -> leans_up y.
Proof.
  intros Hd Hn Hl. unfold leans_up, centre.
  assert (C : (length y = 5 \/ length y = 6 \/ length y = 7 \/ length y = 8)%nat) by lia.
  destruct C as [E|[E|[E|E]]]; rewrite E; simpl Nat.div; simpl Nat.add; simpl Nat.sub.
  - pose proof (strictly y 1 2 Hd Hn ltac:(lia)). lra.
  - pose proof (strictly y 1 2 Hd Hn ltac:(lia)). lra.
  - pose proof (strictly y 2 3 Hd Hn ltac:(lia)). lra.
  - pose proof (strictly y 2 3 Hd Hn ltac:(lia)). lra.
Qed.
Lemma symmetric_leans_up y : decreasing y -> NoDup y -> (5 <= length y)%nat -> symmetric y -> leans_up y.
Proof.
  intros Hd Hn Hl Hs. unfold leans_up. cbv zeta. set (n := length y) in *. set (h := ((n + 1) / 2)%nat).
  assert (Hh : (n / 2 + h = n)%nat /\ (3 <= h)%nat).
  { unfold h. destruct (half_cases n) as [(k & E1 & E2 & E3 & _)|(k & E1 & E2 & E3 & _)]; rewrite E2, E3; lia. }
  assert (Ht : (h / 2 + (h + 1) / 2 = h /\ 2 <= (h + 1) / 2 <= h)%nat).
  { destruct (half_cases h) as [(k & E1 & E2 & E3 & _)|(k & E1 & E2 & E3 & _)]; rewrite E2, E3; lia. }
  set (t := ((h + 1) / 2)%nat) in *.
  pose proof (Hs (n / 2 + t - 2)%nat ltac:(fold n; lia)) as G. fold n in G.
  pose proof (strictly y (h / 2) (n - 1 - (n / 2 + t - 2)) Hd Hn ltac:(fold n; lia)). lra.
Qed.
Lemma skipn_dec k y : decreasing y -> decreasing (skipn k y).
Proof.
  revert y. induction k as [|k IH]; intros y H; [exact H|]. destruct y as [|v y]; [constructor|].
  simpl. apply IH. now inversion H.
Qed.
Lemma skipn_nodup {A} k (y : list A) : NoDup y -> NoDup (skipn k y).
Proof.
  revert y. induction k as [|k IH]; intros y H; [exact H|]. destruct y as [|v y]; [constructor|].
  simpl. apply IH. now inversion H.
Qed.
(** up to sixteen different observations *)
Lemma bhs_stuck_small fuel rvs y : Permutation rvs y -> decreasing y -> NoDup y -> (5 <= length y <= 16)%nat ->
  clear_of_centre y -> clear_of_centre (skipn (length y / 2) y) -> bhs fuel rvs = None \/ exists e, bhs fuel rvs = Some (Raise e).
Proof.
  intros HP Hd Hn Hl Hc Hc2. destruct (Nat.le_gt_cases (length y) 8) as [H8|H8].
  - left. apply (bhs_stuck fuel rvs y); try assumption; [lia|]. apply small_leans_up; auto; lia.
  - rewrite (bhs_decreasing fuel rvs y Hd HP). destruct (Nat.ltb_spec 3 (length y)); [|lia].
    destruct (mc_c_d fuel 1000 y) as [[[w1 it1]|e]|] eqn:E; [|right; now exists e|now left]. left.
    apply mc_iterates in E; try assumption; [|lia]. destruct it1 as [|r]; [lia|].
    rewrite mc_stuck; try assumption; [reflexivity|now apply skipn_dec| |].
    + rewrite skipn_length. destruct (half_cases (length y)) as [(k & E1 & E2 & _)|(k & E1 & E2 & _)]; rewrite E2; lia.
    + apply small_leans_up; [now apply skipn_dec|now apply skipn_nodup|]. rewrite skipn_length.
      destruct (half_cases (length y)) as [(k & E1 & E2 & _)|(k & E1 & E2 & _)]; rewrite E2; lia.
Qed.
