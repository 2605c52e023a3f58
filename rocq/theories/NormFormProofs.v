(** The normality statistics in textbook form: L-moments, slopes of the probability plot, regression. *)
From Verif Require Import Base DecModel EdfModel EdfSpec GraphModel NormalLaw ExpModel ExpSpec NormModel NormFormSpec EdfProofs ExpProofs ExpRangeProofs NormProofs NormSymProofs NormAffProofs NormReflProofs NormRangeProofs NormFiniteProofs EdfClaims.
From Coq Require Import Lra Lia.

(** ** L-moments *)
Lemma subsamples_length k : forall l, length (subsamples k l) = choose (length l) k.
Proof.
  intros l. revert k. induction l as [|x l IH]; intros [|k]; cbn [subsamples length]; trivial.
  rewrite app_length, map_length, !IH. now rewrite choose_SS.
Qed.
(** how often the value number i is the value number j of a subsample *)
Lemma subsamples_nth l : forall k j, (j < k)%nat ->
  Rsum (map (fun s => nth j s 0) (subsamples k l))
  = Rsum (map (fun i => INR (choose i j) * INR (choose (length l - 1 - i) (k - 1 - j)) * nth i l 0) (seq 0 (length l))).
Proof.
  induction l as [|x l IH]; intros [|k] j H; try lia; [reflexivity|].
  cbn [subsamples]. rewrite map_app, Rsum_app, map_map. rewrite (IH (S k) j H).
  cbn [length seq map Rsum]. rewrite <- (seq_middle _ 1 (length l)).
  destruct j as [|j].
  - cbn [nth]. 
    rewrite Rsum_map_const, subsamples_length, choose_0. simpl (INR 1). f_equal.
    + replace (S (length l) - 1 - 0)%nat with (length l) by lia. replace (S k - 1 - 0)%nat with k by lia. ring.
    + apply Rsum_map_ext. intros i Hi. rewrite Nat.add_1_r. cbn [nth]. rewrite !choose_0.
      replace (S (length l) - 1 - S i)%nat with (length l - 1 - i)%nat by lia. ring.
  - cbn [nth]. rewrite (IH k j) by lia. rewrite choose_gt by lia. simpl (INR 0).
    rewrite !Rmult_0_l, Rplus_0_l, <- Rsum_map_plus. apply Rsum_map_ext. intros i Hi.
    rewrite Nat.add_1_r. cbn [nth]. rewrite choose_SS, plus_INR.
    replace (S (length l) - 1 - S i)%nat with (length l - 1 - i)%nat by lia.
    replace (S k - 1 - S j)%nat with (k - 1 - j)%nat by lia. ring.
Qed.
(** the coefficient of the order statistic number i *)
Definition lcoef (k j n i : nat) : R := INR (choose i j) * INR (choose (n - 1 - i) (k - 1 - j)).
Lemma subsamples_dot k j l : (j < k)%nat ->
  Rsum (map (fun s => nth j s 0) (subsamples k l)) = dot (map (lcoef k j (length l)) (seq 0 (length l))) l.
Proof.
  intros H. rewrite subsamples_nth, dot_seq by trivial. apply Rsum_map_ext. intros i _. now rewrite Nat.sub_0_r.
Qed.
Lemma dot_plus_l f g x : dot (map (fun i : nat => f i + g i) (seq 0 (length x))) x
  = dot (map f (seq 0 (length x))) x + dot (map g (seq 0 (length x))) x.
Proof. rewrite !dot_seq, <- Rsum_map_plus. apply Rsum_map_ext. intros. ring. Qed.
Lemma dot_mul_l c f x : dot (map (fun i : nat => c * f i) (seq 0 (length x))) x = c * dot (map f (seq 0 (length x))) x.
Proof. rewrite !dot_seq, <- Rsum_map_scal. apply Rsum_map_ext. intros. ring. Qed.
Lemma dot_ext_l f g x : (forall i, (i < length x)%nat -> f i = g i) -> dot (map f (seq 0 (length x))) x = dot (map g (seq 0 (length x))) x.
Proof. intros H. rewrite !dot_seq. apply Rsum_map_ext. intros i Hi. apply in_seq in Hi. rewrite H by lia. reflexivity. Qed.
(** the L-moment as a linear combination of order statistics *)
Definition lweight (t r n i : nat) : R :=
  match r with
  | 2%nat => lcoef (2 + 2 * t) (S t) n i - lcoef (2 + 2 * t) t n i
  | 3%nat => lcoef (3 + 2 * t) (S (S t)) n i - 2 * lcoef (3 + 2 * t) (S t) n i + lcoef (3 + 2 * t) t n i
  | _ => lcoef (4 + 2 * t) (S (S (S t))) n i - 3 * lcoef (4 + 2 * t) (S (S t)) n i + 3 * lcoef (4 + 2 * t) (S t) n i - lcoef (4 + 2 * t) t n i
  end.
Lemma l_moment_dot t r l : (2 <= r <= 4)%nat ->
  l_moment t r l = dot (map (lweight t r (length l)) (seq 0 (length l))) (rsort l) / (INR r * INR (choose (length l) (r + 2 * t))).
Proof.
  intros Hr. unfold l_moment. set (x := rsort l). replace (length l) with (length x) by apply rsort_length.
  unfold mean, len. rewrite map_length, subsamples_length.
  assert (E : Rsum (map (fun s => difference (r - 1) (fun i => nth i s 0) t / INR r) (subsamples (r + 2 * t) x))
    = dot (map (lweight t r (length x)) (seq 0 (length x))) x / INR r).
  { unfold Rdiv. rewrite (Rsum_map_scal_r (/ INR r) (fun s => difference (r - 1) (fun i => nth i s 0) t)). f_equal.
    assert (r = 2 \/ r = 3 \/ r = 4)%nat as [->|[->| ->]] by lia; cbn [difference lweight Nat.sub].
    - rewrite Rsum_map_minus, !subsamples_dot by lia. symmetry.
      rewrite (dot_ext_l _ (fun i => lcoef (2 + 2 * t) (S t) (length x) i + (-1) * lcoef (2 + 2 * t) t (length x) i)) by (intros; unfold lweight; ring).
      rewrite (dot_plus_l (lcoef (2 + 2 * t) (S t) (length x)) (fun i => -1 * lcoef (2 + 2 * t) t (length x) i)), dot_mul_l. ring.
    - rewrite !Rsum_map_minus, !subsamples_dot by lia. symmetry.
      rewrite (dot_ext_l _ (fun i => lcoef (3 + 2 * t) (S (S t)) (length x) i + ((-2) * lcoef (3 + 2 * t) (S t) (length x) i + lcoef (3 + 2 * t) t (length x) i))) by (intros; unfold lweight; ring).
      rewrite (dot_plus_l (lcoef (3 + 2 * t) (S (S t)) (length x)) (fun i => -2 * lcoef (3 + 2 * t) (S t) (length x) i + lcoef (3 + 2 * t) t (length x) i)).
      rewrite (dot_plus_l (fun i => -2 * lcoef (3 + 2 * t) (S t) (length x) i)), dot_mul_l. ring.
    - rewrite !Rsum_map_minus, !subsamples_dot by lia. symmetry.
      rewrite (dot_ext_l _ (fun i => lcoef (4 + 2 * t) (S (S (S t))) (length x) i + ((-3) * lcoef (4 + 2 * t) (S (S t)) (length x) i
         + (3 * lcoef (4 + 2 * t) (S t) (length x) i + (-1) * lcoef (4 + 2 * t) t (length x) i)))) by (intros; unfold lweight; ring).
      rewrite (dot_plus_l (lcoef (4 + 2 * t) (S (S (S t))) (length x)) (fun i => -3 * lcoef (4 + 2 * t) (S (S t)) (length x) i
         + (3 * lcoef (4 + 2 * t) (S t) (length x) i + -1 * lcoef (4 + 2 * t) t (length x) i))).
      rewrite (dot_plus_l (fun i => -3 * lcoef (4 + 2 * t) (S (S t)) (length x) i)
         (fun i => 3 * lcoef (4 + 2 * t) (S t) (length x) i + -1 * lcoef (4 + 2 * t) t (length x) i)).
      rewrite (dot_plus_l (fun i => 3 * lcoef (4 + 2 * t) (S t) (length x) i)), !dot_mul_l. ring. }
  rewrite E. unfold Rdiv. rewrite Rinv_mult. ring.
Qed.
Lemma pstarmod_lweight t r n i : (2 <= r <= 4)%nat -> (i < n)%nat -> pstarmod t r n (i + 1) = lweight t r n i.
Proof.
  intros Hr Hi. unfold pstarmod, lweight, lcoef. replace (i + 1 - 1)%nat with i by lia. replace (n - (i + 1))%nat with (n - 1 - i)%nat by lia.
  assert (r = 2 \/ r = 3 \/ r = 4)%nat as [->|[->| ->]] by lia; cbn [seq map Rsum].
  - replace (2 + t - 1 - 0)%nat with (S t) by lia. replace (2 + t - 1 - 1)%nat with t by lia.
    replace (2 + 2 * t - 1 - S t)%nat with (t + 0)%nat by lia. replace (2 + 2 * t - 1 - t)%nat with (t + 1)%nat by lia.
    change (choose (2 - 1) 0) with 1%nat. change (choose (2 - 1) 1) with 1%nat. simpl (INR 1). ring.
  - replace (3 + t - 1 - 0)%nat with (S (S t)) by lia. replace (3 + t - 1 - 1)%nat with (S t) by lia. replace (3 + t - 1 - 2)%nat with t by lia.
    replace (3 + 2 * t - 1 - S (S t))%nat with (t + 0)%nat by lia. replace (3 + 2 * t - 1 - S t)%nat with (t + 1)%nat by lia. replace (3 + 2 * t - 1 - t)%nat with (t + 2)%nat by lia.
    change (choose (3 - 1) 0) with 1%nat. change (choose (3 - 1) 1) with 2%nat. change (choose (3 - 1) 2) with 1%nat. simpl (INR 1). simpl (INR 2). ring.
  - replace (4 + t - 1 - 0)%nat with (S (S (S t))) by lia. replace (4 + t - 1 - 1)%nat with (S (S t)) by lia. replace (4 + t - 1 - 2)%nat with (S t) by lia. replace (4 + t - 1 - 3)%nat with t by lia.
    replace (4 + 2 * t - 1 - S (S (S t)))%nat with (t + 0)%nat by lia. replace (4 + 2 * t - 1 - S (S t))%nat with (t + 1)%nat by lia. replace (4 + 2 * t - 1 - S t)%nat with (t + 2)%nat by lia. replace (4 + 2 * t - 1 - t)%nat with (t + 3)%nat by lia.
    change (choose (4 - 1) 0) with 1%nat. change (choose (4 - 1) 1) with 3%nat. change (choose (4 - 1) 2) with 3%nat. change (choose (4 - 1) 3) with 1%nat. simpl (INR 1). simpl (INR 3). ring.
Qed.
Lemma tl_moment_is_l_moment t r l : (1 <= t)%nat -> (2 <= r <= 4)%nat -> tl_moment t r (rsort l) = l_moment t r l.
Proof.
  intros Ht Hr. rewrite tl_moment_dot, l_moment_dot by trivial. rewrite rsort_length. f_equal. f_equal.
  unfold tlw. rewrite <- seq_middle. apply map_ext_in. intros i Hi. apply in_seq in Hi. apply pstarmod_lweight; trivial; lia.
Qed.
(** untrimmed: the probability-weighted moments *)
Lemma choose_1 n : INR (choose n 1) = INR n.
Proof. pose proof (choose_step n 0) as E. rewrite choose_0 in E. simpl (INR 1) in E. simpl (INR 0) in E. lra. Qed.
Lemma choose_2 n : INR (choose n 2) = INR n * (INR n - 1) / 2.
Proof. pose proof (choose_step n 1) as E. rewrite choose_1 in E. simpl (INR 2) in E. simpl (INR 1) in E. lra. Qed.
Lemma choose_3 n : INR (choose n 3) = INR n * (INR n - 1) * (INR n - 2) / 6.
Proof. pose proof (choose_step n 2) as E. rewrite choose_2 in E. simpl (INR 3) in E. simpl (INR 2) in E. nra. Qed.
Lemma choose_4 n : INR (choose n 4) = INR n * (INR n - 1) * (INR n - 2) * (INR n - 3) / 24.
Proof. pose proof (choose_step n 3) as E. rewrite choose_3 in E. simpl (INR 4) in E. simpl (INR 3) in E. nra. Qed.
Lemma pwm_l_moments l : (4 <= length l)%nat -> let '(b0, b1, b2, b3) := pwm (rsort l) in
  2 * b1 - b0 = l_moment 0 2 l /\ 6 * b2 - 6 * b1 + b0 = l_moment 0 3 l /\ 20 * b3 - 30 * b2 + 12 * b1 - b0 = l_moment 0 4 l.
Proof.
  intros Hn. unfold pwm. rewrite !l_moment_dot by lia. set (x := rsort l). unfold len.
  replace (length l) with (length x) in * by apply rsort_length. set (n := length x) in *.
  assert (N : 4 <= INR n) by (apply (le_INR 4) in Hn; simpl in Hn; lra).
  change (2 + 2 * 0)%nat with 2%nat. change (3 + 2 * 0)%nat with 3%nat. change (4 + 2 * 0)%nat with 4%nat. rewrite choose_2, choose_3, choose_4.
  assert (E0 : Rsum x = dot (map (fun _ => 1) (seq 0 (length x))) x).
  { rewrite <- imap_dot. rewrite (imap_ext (fun i v => 1 * v) (fun i v => v)) by (intros; ring). now rewrite Rsum_imap_val, map_id. }
  rewrite E0, (imap_dot INR). rewrite (imap_dot (fun i => INR i * (INR i - 1))), (imap_dot (fun i => INR i * (INR i - 1) * (INR i - 2))).
  fold n. set (d := fun f : nat -> R => dot (map f (seq 0 n)) x).
  assert (P : forall f g, d (fun i => f i + g i) = d f + d g) by (intros; apply dot_plus_l).
  assert (M : forall c f, d (fun i => c * f i) = c * d f) by (intros; apply dot_mul_l).
  assert (X : forall f g, (forall i, (i < n)%nat -> f i = g i) -> d f = d g) by (intros; now apply dot_ext_l).
  fold (d (fun _ => 1)) (d INR) (d (fun i => INR i * (INR i - 1))) (d (fun i => INR i * (INR i - 1) * (INR i - 2))).
  fold (d (lweight 0 2 n)) (d (lweight 0 3 n)) (d (lweight 0 4 n)).
  assert (W2 : d (lweight 0 2 n) = 2 * d INR + (1 - INR n) * d (fun _ => 1)).
  { rewrite <- !M, <- P. apply X. intros i Hi. unfold lweight, lcoef. change (2 + 2 * 0 - 1 - 1)%nat with 0%nat. change (2 + 2 * 0 - 1 - 0)%nat with 1%nat.
    rewrite !choose_0, !choose_1, !minus_INR by lia. simpl (INR 1). ring. }
  assert (W3 : d (lweight 0 3 n) = 3 * d (fun i => INR i * (INR i - 1)) + (- 3 * (INR n - 2)) * d INR + (INR n - 1) * (INR n - 2) / 2 * d (fun _ => 1)).
  { rewrite <- !M, <- !P. apply X. intros i Hi. unfold lweight, lcoef. change (3 + 2 * 0 - 1 - 2)%nat with 0%nat. change (3 + 2 * 0 - 1 - 1)%nat with 1%nat. change (3 + 2 * 0 - 1 - 0)%nat with 2%nat.
    rewrite !choose_0, !choose_1, !choose_2, !minus_INR by lia. simpl (INR 1). field. }
  assert (W4 : d (lweight 0 4 n) = 10 / 3 * d (fun i => INR i * (INR i - 1) * (INR i - 2)) + (- 5 * (INR n - 3)) * d (fun i => INR i * (INR i - 1))
     + 2 * (INR n - 2) * (INR n - 3) * d INR + (- ((INR n - 1) * (INR n - 2) * (INR n - 3) / 6)) * d (fun _ => 1)).
  { rewrite <- !M, <- !P. apply X. intros i Hi. unfold lweight, lcoef. change (4 + 2 * 0 - 1 - 3)%nat with 0%nat. change (4 + 2 * 0 - 1 - 2)%nat with 1%nat. change (4 + 2 * 0 - 1 - 1)%nat with 2%nat. change (4 + 2 * 0 - 1 - 0)%nat with 3%nat.
    rewrite !choose_0, !choose_1, !choose_2, !choose_3, !minus_INR by lia. simpl (INR 1). field. }
  rewrite W2, W3, W4. simpl (INR 2). simpl (INR 3). simpl (INR 4).
  split; [|split]; field; lra.
Qed.
Lemma by_size_null t n : (t <= 3)%nat -> hosking_constants t n = null_moments t n.
Proof.
  intros H. unfold hosking_constants, null_moments, by_size.
  assert (t = 0 \/ t = 1 \/ t = 2 \/ t = 3)%nat as [->|[->|[->| ->]]] by lia; destruct (n <=? 25)%nat, (n <=? 50)%nat; reflexivity.
Qed.
(** ** slopes of the probability plot *)
Lemma scores_blom n i : (i < n)%nat -> nth i (scores 0.375 n) 0 = blom n i.
Proof.
  intros H. rewrite scores_nth by trivial. unfold blom, pos. replace 0.375 with (3 / 8) by lra. f_equal. f_equal. lra.
Qed.
Lemma blom_lt n i j : (i < j < n)%nat -> blom n i < blom n j.
Proof. intros H. rewrite <- !scores_blom by lia. apply scores_lt; [lra|trivial]. Qed.
Lemma zq_a_slopes l : (2 <= length l)%nat -> dot (zq_a (length l)) (rsort l) = slopes_from_first l.
Proof.
  intros Hn. set (n := length l) in *. assert (N : 2 <= INR n) by (now apply (le_INR 2)).
  rewrite dot_nth by (rewrite rsort_length; apply zq_a_length; lia). rewrite rsort_length. fold n.
  set (x := fun i => nth i (rsort l) 0).
  assert (T : forall i, (1 <= i < n)%nat -> nth i (zq_a n) 0 = 1 / ((INR n - 1) * (blom n i - blom n 0))).
  { intros i Hi. unfold zq_a. cbv zeta. destruct i as [|i]; [lia|]. cbn [nth].
    rewrite <- (seq_middle (fun i => 1 / ((INR n - 1) * (nth i (scores 0.375 n) 0 - nth 0 (scores 0.375 n) 0)))).
    rewrite nth_map_seq, !scores_blom by lia. now rewrite Nat.add_1_r. }
  assert (S0 : nth 0 (zq_a n) 0 = - Rsum (map (fun i => 1 / ((INR n - 1) * (blom n i - blom n 0))) (seq 1 (n - 1)))).
  { unfold zq_a. cbv zeta. cbn [nth]. f_equal. apply Rsum_map_ext. intros i Hi. apply in_seq in Hi. now rewrite !scores_blom by lia. }
  assert (Sn : seq 0 n = 0%nat :: seq 1 (n - 1)) by (replace n with (S (n - 1)) at 1 by lia; reflexivity). rewrite Sn. cbn [map Rsum]. rewrite S0.
  unfold slopes_from_first, mean, len. fold n. rewrite map_length, seq_length, minus_INR by lia. simpl (INR 1).
  unfold Rdiv at 2. rewrite <- Rsum_map_scal_r. rewrite <- Rsum_map_opp, <- Rsum_map_scal_r, <- Rsum_map_plus. apply Rsum_map_ext. intros i Hi. apply in_seq in Hi.
  rewrite T by lia. unfold slope. fold n. pose proof (blom_lt n 0 i ltac:(lia)). field. lra.
Qed.
Lemma zq_b_slopes l : (8 <= length l)%nat -> dot (zq_b (length l)) (rsort l) = slopes_over_four l.
Proof.
  intros Hn. set (n := length l) in *. set (x := fun i => nth i (rsort l) 0). set (u := fun i => nth i (scores 0.375 n) 0).
  set (c := fun i => 1 / ((INR n - 4) * (u (i + 4)%nat - u i))).
  assert (L8 : 8 <= INR n) by (apply (le_INR 8) in Hn; simpl in Hn; lra).
  assert (Hu : forall i j, (i < j < n)%nat -> u i < u j) by (intros; unfold u; apply scores_lt; [lra|lia]).
  assert (Su : forall j, (j < n)%nat -> u (n - 1 - j)%nat = - u j).
  { intros j Hj. unfold u. pose proof (antisym_nth (scores 0.375 n) j) as E. rewrite scores_length in E. apply E; trivial. apply scores_antisym. lra. }
  set (b := fun i => nth i (zq_b n) 0).
  assert (B1 : forall i, (i < 4)%nat -> b i = - c i).
  { intros i Hi. unfold b, zq_b. cbv zeta. rewrite nth_map_seq by lia. rewrite (proj2 (Nat.ltb_lt i 4) Hi). fold (u i) (u (i + 4)%nat). unfold c. pose proof (Hu i (i + 4)%nat ltac:(lia)). field. lra. }
  assert (B3 : forall i, (n - 4 <= i < n)%nat -> b i = c (i - 4)%nat).
  { intros i Hi. unfold b, zq_b. cbv zeta. rewrite nth_map_seq by lia. rewrite (proj2 (Nat.ltb_ge i 4)) by lia. rewrite (proj2 (Nat.leb_le (n - 4) i)) by lia.
    fold (u (n - 1 - i)%nat) (u (n + 3 - i)%nat). replace (n + 3 - i)%nat with (n - 1 - (i - 4))%nat by lia. rewrite !Su by lia. unfold c. replace (i - 4 + 4)%nat with i by lia.
    pose proof (Hu (i - 4)%nat i ltac:(lia)). field. lra. }
  assert (B2 : forall i, (4 <= i < n - 4)%nat -> b i = c (i - 4)%nat - c i).
  { intros i Hi. unfold b, zq_b. cbv zeta. rewrite nth_map_seq by lia. rewrite (proj2 (Nat.ltb_ge i 4)) by lia. rewrite (proj2 (Nat.leb_gt (n - 4) i)) by lia.
    fold (u i) (u (i + 4)%nat) (u (i - 4)%nat). unfold c. replace (i - 4 + 4)%nat with i by lia.
    pose proof (Hu (i - 4)%nat i ltac:(lia)). pose proof (Hu i (i + 4)%nat ltac:(lia)). field. lra. }
  assert (E : dot (zq_b n) (rsort l) = Rsum (map (fun i => c i * (x (i + 4)%nat - x i)) (seq 0 (n - 4)))).
  { rewrite dot_nth by (now rewrite zq_b_length, rsort_length). rewrite rsort_length. fold n.
    transitivity (Rsum (map (fun i => b i * x i) (seq 0 n))); [reflexivity|].
    assert (S1 : Rsum (map (fun i => c i * x i) (seq 0 (n - 4))) = Rsum (map (fun i => (if (i <? n - 4)%nat then c i else 0) * x i) (seq 0 n))).
    { assert (Sn : seq 0 n = seq 0 (n - 4) ++ seq (0 + (n - 4)) 4) by (rewrite <- seq_app; f_equal; lia). rewrite Sn, map_app, Rsum_app.
      rewrite (Rsum_map_ext (fun i => (if (i <? n - 4)%nat then c i else 0) * x i) (fun i => c i * x i) (seq 0 (n - 4))).
      rewrite (Rsum_map_ext (fun i => (if (i <? n - 4)%nat then c i else 0) * x i) (fun i => 0) (seq (0 + (n - 4)) 4)). rewrite Rsum_map_const. ring.
      intros i Hi. apply in_seq in Hi. rewrite (proj2 (Nat.ltb_ge _ _)) by lia. ring. intros i Hi. apply in_seq in Hi. now rewrite (proj2 (Nat.ltb_lt _ _)) by lia. }
    assert (S2 : Rsum (map (fun i => c i * x (i + 4)%nat) (seq 0 (n - 4))) = Rsum (map (fun i => (if (i <? 4)%nat then 0 else c (i - 4)%nat) * x i) (seq 0 n))).
    { assert (Sn : seq 0 n = seq 0 4 ++ seq (0 + 4) (n - 4)) by (rewrite <- seq_app; f_equal; lia). rewrite Sn, map_app, Rsum_app.
      rewrite (Rsum_map_ext (fun i => (if (i <? 4)%nat then 0 else c (i - 4)%nat) * x i) (fun i => 0) (seq 0 4)).
      rewrite Rsum_map_const. rewrite Rmult_0_r, Rplus_0_l, Nat.add_0_l. rewrite <- (seq_middle (fun i => (if (i <? 4)%nat then 0 else c (i - 4)%nat) * x i)). apply Rsum_map_ext. intros i Hi.
      rewrite (proj2 (Nat.ltb_ge _ _)) by lia. now replace (i + 4 - 4)%nat with i by lia.
      intros i Hi. apply in_seq in Hi. rewrite (proj2 (Nat.ltb_lt _ _)) by lia. ring. }
    rewrite (Rsum_map_ext (fun i => c i * (x (i + 4)%nat - x i)) (fun i => c i * x (i + 4)%nat - c i * x i)) by (intros; ring).
    rewrite Rsum_map_minus, S1, S2, <- Rsum_map_minus. apply Rsum_map_ext. intros i Hi. apply in_seq in Hi.
    destruct (Nat.ltb_spec i 4). rewrite B1, (proj2 (Nat.ltb_lt i (n - 4))) by lia. ring.
    destruct (Nat.ltb_spec i (n - 4)). rewrite B2 by lia. ring. rewrite B3 by lia. ring. }
  rewrite E. unfold slopes_over_four, mean, len. fold n. rewrite map_length, seq_length, minus_INR by lia. simpl (INR 4).
  unfold Rdiv at 1. rewrite <- Rsum_map_scal_r. apply Rsum_map_ext. intros i Hi. apply in_seq in Hi. unfold slope, c. fold n (x i) (x (i + 4)%nat).
  pose proof (Hu i (i + 4)%nat ltac:(lia)) as Hi4. unfold u in *. rewrite !scores_blom in * by lia. field. lra.
Qed.
Lemma map_seq_nth (x : list R) : x = map (fun i => nth i x 0) (seq 0 (length x)).
Proof. symmetry. apply map_nth_seq. Qed.
Lemma straight_slope l : straight l -> exists b, 0 < b /\ forall i j, (i < j < length l)%nat -> slope l i j = b.
Proof.
  intros (a & b & Hb & E). exists b. split; trivial. intros i j H. unfold slope. rewrite E, !nth_map_seq by lia.
  pose proof (blom_lt (length l) i j H). field. lra.
Qed.
Lemma mean_of_const {A} c (f : A -> R) l : l <> [] -> (forall x, In x l -> f x = c) -> mean (map f l) = c.
Proof.
  intros Hn H. unfold mean, len. rewrite (Rsum_map_ext f (fun _ => c)) by trivial. rewrite Rsum_map_const, map_length.
  field. destruct l; [easy|]. cbn [length]. rewrite S_INR. pose proof (pos_INR (length l)). lra.
Qed.
Lemma straight_slopes l : straight l -> (5 <= length l)%nat -> exists b, 0 < b /\
  slopes_from_first l = b /\ slopes_over_four l = b /\ slopes_of_neighbours l = b.
Proof.
  intros H Hn. destruct (straight_slope l H) as (b & Hb & Hs). exists b. split; trivial.
  assert (Q : forall s k, (0 < k)%nat -> seq s k <> []) by (intros s [|k]; [lia|discriminate]).
  split; [|split]; apply mean_of_const; try (apply Q; lia); intros i Hi; apply in_seq in Hi; apply Hs; lia.
Qed.
Lemma cs_slopes l : (4 <= length l)%nat -> 
  Rsum (map (fun p => fst p / snd p) (combine (diff (rsort l)) (diff (scores 0.375 (length l))))) = (len l - 1) * slopes_of_neighbours l.
Proof.
  intros Hn. unfold slopes_of_neighbours, mean, len. rewrite map_length, seq_length, minus_INR by lia. simpl (INR 1).
  assert (N : 4 <= INR (length l)) by (apply (le_INR 4) in Hn; simpl in Hn; lra).
  set (g := fun i => slope l i (S i)). transitivity (Rsum (map g (seq 0 (length l - 1)))); [|field; lra].
  f_equal. apply (nth_ext_R 0).
  - rewrite !map_length, combine_length, !diff_length, rsort_length, scores_length, seq_length. lia.
  - intros i Hi. rewrite map_length, combine_length, !diff_length, rsort_length, scores_length in Hi.
    rewrite nth_map_seq by lia. unfold g, slope. rewrite <- !scores_blom by lia.
    set (f := fun p : R * R => fst p / snd p). rewrite (nth_indep _ 0 (f (0, 0))) by (rewrite map_length, combine_length, !diff_length, rsort_length, scores_length; lia).
    rewrite map_nth, combine_nth by (now rewrite !diff_length, rsort_length, scores_length). unfold f. cbn [fst snd].
    assert (D : forall x k, (S k < length x)%nat -> nth k (diff x) 0 = nth (S k) x 0 - nth k x 0).
    { induction x as [|u [|w x] IH]; intros k Hk; simpl in Hk; try lia. destruct k; [reflexivity|].
      change (diff (u :: w :: x)) with (w - u :: diff (w :: x)). cbn [nth]. apply (IH k). simpl. lia. }
    now rewrite !D by (rewrite ?rsort_length, ?scores_length; lia).
Qed.

(** ** regression *)
Lemma cubic_error_expand a z b1 b3 : length a = length z ->
  cubic_error a z b1 b3 = Rsum (map (fun x => x ^ 2) z) - 2 * b1 * dot a z - 2 * b3 * dot (map (fun x => x ^ 3) a) z
    + b1 ^ 2 * Rsum (map (fun x => x ^ 2) a) + 2 * b1 * b3 * Rsum (map (fun x => x ^ 4) a) + b3 ^ 2 * Rsum (map (fun x => x ^ 6) a).
Proof.
  unfold cubic_error, dot. revert z. induction a as [|u a IH]; intros [|w z] L; try discriminate; cbn [map combine Rsum fst snd]; [ring|].
  injection L as L. rewrite IH by trivial. ring.
Qed.
Lemma best_cubic_unique a z b1 b3 c1 c3 : length a = length z -> 
  0 < Rsum (map (fun x => x ^ 2) a) * Rsum (map (fun x => x ^ 6) a) - Rsum (map (fun x => x ^ 4) a) ^ 2 ->
  best_cubic a z b1 b3 -> best_cubic a z c1 c3 -> b3 = c3.
Proof.
  intros L D H1 H2. pose proof (H1 ((b1 + c1) / 2) ((b3 + c3) / 2)) as M1. pose proof (H2 ((b1 + c1) / 2) ((b3 + c3) / 2)) as M2.
  rewrite !cubic_error_expand in M1, M2 by trivial.
  set (s2 := Rsum (map (fun x => x ^ 2) a)) in *. set (s4 := Rsum (map (fun x => x ^ 4) a)) in *. set (s6 := Rsum (map (fun x => x ^ 6) a)) in *.
  set (p := dot a z) in *. set (q := dot (map (fun x => x ^ 3) a) z) in *. set (zz := Rsum (map (fun x => x ^ 2) z)) in *.
  assert (P2 : 0 <= s2) by (apply Rsum_map_nonneg; intros; nra).
  assert (K : (b1 - c1) ^ 2 * s2 + 2 * (b1 - c1) * (b3 - c3) * s4 + (b3 - c3) ^ 2 * s6 <= 0) by nra.
  assert (P : 0 < s2) by (destruct P2 as [|Z]; [trivial|rewrite <- Z in D; nra]).
  assert (K2 : (s2 * (b1 - c1) + s4 * (b3 - c3)) ^ 2 + (s2 * s6 - s4 ^ 2) * (b3 - c3) ^ 2 <= 0) by nra.
  assert ((b3 - c3) ^ 2 <= 0) by (pose proof (pow2_ge_0 (s2 * (b1 - c1) + s4 * (b3 - c3))); nra). nra.
Qed.
Lemma coin_best a z : length a = length z ->
  let s k := Rsum (map (fun x => x ^ k) a) in
  let p := dot a z in let q := dot (map (fun x => x ^ 3) a) z in
  0 < s 2%nat * s 6%nat - s 4%nat ^ 2 ->
  best_cubic a z ((s 6%nat * p - s 4%nat * q) / (s 2%nat * s 6%nat - s 4%nat ^ 2)) ((s 4%nat * p - s 2%nat * q) / (s 4%nat * s 4%nat - s 2%nat * s 6%nat)).
Proof.
  intros L s p q D c1 c3. rewrite !cubic_error_expand by trivial. unfold s in *. fold p q.
  set (s2 := Rsum (map (fun x => x ^ 2) a)) in *. set (s4 := Rsum (map (fun x => x ^ 4) a)) in *. set (s6 := Rsum (map (fun x => x ^ 6) a)) in *.
  set (zz := Rsum (map (fun x => x ^ 2) z)) in *. set (d := s2 * s6 - s4 ^ 2) in *.
  set (b1 := (s6 * p - s4 * q) / d). set (b3 := (s4 * p - s2 * q) / (s4 * s4 - s2 * s6)).
  assert (E1 : b1 * s2 + b3 * s4 = p) by (unfold b1, b3; replace (s4 * s4 - s2 * s6) with (- d) by (unfold d; ring); field_simplify; [|lra]; unfold d; field; fold d; lra).
  assert (E3 : b1 * s4 + b3 * s6 = q) by (unfold b1, b3; replace (s4 * s4 - s2 * s6) with (- d) by (unfold d; ring); field_simplify; [|lra]; unfold d; field; fold d; lra).
  rewrite <- E1, <- E3.
  assert (P2 : 0 <= s2) by (apply Rsum_map_nonneg; intros; nra).
  assert (P : 0 < s2) by (destruct P2 as [|Z]; [trivial|unfold d in D; rewrite <- Z in D; nra]).
  assert (K : 0 <= (c1 - b1) ^ 2 * s2 + 2 * (c1 - b1) * (c3 - b3) * s4 + (c3 - b3) ^ 2 * s6).
  { assert (0 <= s2 * ((c1 - b1) ^ 2 * s2 + 2 * (c1 - b1) * (c3 - b3) * s4 + (c3 - b3) ^ 2 * s6)).
    { replace (s2 * ((c1 - b1) ^ 2 * s2 + 2 * (c1 - b1) * (c3 - b3) * s4 + (c3 - b3) ^ 2 * s6))
        with ((s2 * (c1 - b1) + s4 * (c3 - b3)) ^ 2 + d * (c3 - b3) ^ 2) by (unfold d; ring).
      pose proof (pow2_ge_0 (s2 * (c1 - b1) + s4 * (c3 - b3))). pose proof (pow2_ge_0 (c3 - b3)). nra. }
    nra. }
  nra.
Qed.
(** the determinant is never negative *)
Lemma cauchy_46 a : 0 <= Rsum (map (fun x => x ^ 2) a) * Rsum (map (fun x => x ^ 6) a) - Rsum (map (fun x => x ^ 4) a) ^ 2.
Proof.
  pose proof (dot_cauchy a (map (fun x => x ^ 3) a)) as C.
  assert (E1 : dot a (map (fun x => x ^ 3) a) = Rsum (map (fun x => x ^ 4) a)) by (unfold dot; clear C; induction a as [|u a IH]; cbn [map combine Rsum fst snd]; [reflexivity|rewrite IH; ring]).
  assert (E2 : sumsqs (map (fun x => x ^ 3) a) = Rsum (map (fun x => x ^ 6) a)) by (unfold sumsqs; rewrite map_map; apply Rsum_map_ext; intros; ring).
  rewrite E1, E2 in C. unfold sumsqs in C. specialize (C ltac:(now rewrite map_length)). lra.
Qed.
