(** Symmetric coefficients of the normality statistics, binomial coefficients. *)
From Verif Require Import Base DecModel EdfModel GraphModel NormalLaw ExpModel NormModel EdfProofs ExpProofs ExpRangeProofs NormProofs.
From Coq Require Import Lra Lia.

Definition antisym (w : list R) : Prop := rev w = map Ropp w.
Lemma Rsum_rev l : Rsum (rev l) = Rsum l.
Proof. apply Rsum_perm. symmetry. apply Permutation_rev. Qed.
Lemma Rsum_opp l : Rsum (map Ropp l) = - Rsum l.
Proof. rewrite (Rsum_map_opp (fun x => x)). now rewrite map_id. Qed.
Lemma antisym_sum w : antisym w -> Rsum w = 0.
Proof. intros H. pose proof (Rsum_rev w). rewrite H, Rsum_opp in H0. lra. Qed.
Lemma antisym_scal c w : antisym w -> antisym (map (fun x => c * x) w).
Proof. unfold antisym. intros H. rewrite <- map_rev, H, !map_map. apply map_ext. intros. ring. Qed.
Lemma antisym_opp w : antisym w -> antisym (map Ropp w).
Proof. unfold antisym. intros H. now rewrite <- map_rev, H. Qed.
Lemma antisym_map f w : (forall x, In x w -> f (- x) = - f x) -> antisym w -> antisym (map f w).
Proof.
  unfold antisym. intros Hf H. rewrite <- map_rev, H, !map_map. apply map_ext_in. exact Hf.
Qed.
Lemma rev_seq_map {A} (f : nat -> A) n : rev (map f (seq 0 n)) = map (fun i => f (n - 1 - i)%nat) (seq 0 n).
Proof.
  induction n as [|n IH]; [reflexivity|]. rewrite seq_S at 1. rewrite map_app, rev_app_distr, IH.
  change (seq 0 (S n)) with (0%nat :: seq 1 n). cbn [map rev app].
  replace (S n - 1 - 0)%nat with (0 + n)%nat by lia. apply (f_equal (cons _)).
  rewrite <- seq_shift, map_map. apply map_ext. intros i. f_equal. lia.
Qed.
Lemma antisym_seq f n : (forall i, (i < n)%nat -> f (n - 1 - i)%nat = - f i) -> antisym (map f (seq 0 n)).
Proof.
  intros H. unfold antisym. rewrite rev_seq_map, map_map. apply map_ext_in. intros i Hi. apply in_seq in Hi. apply H. lia.
Qed.
Lemma antisym_seq1 f n : (forall k, (1 <= k <= n)%nat -> f (n + 1 - k)%nat = - f k) -> antisym (map f (seq 1 n)).
Proof.
  intros H. rewrite <- seq_shift, map_map. apply antisym_seq. intros i Hi.
  replace (S (n - 1 - i)) with (n + 1 - S i)%nat by lia. apply H. lia.
Qed.
Lemma nth_map_seq {A} (f : nat -> A) n i d : (i < n)%nat -> nth i (map f (seq 0 n)) d = f i.
Proof.
  intros H. rewrite (nth_indep _ d (f 0%nat)) by (now rewrite map_length, seq_length).
  rewrite map_nth, seq_nth by trivial. reflexivity.
Qed.
Lemma antisym_nth w i : antisym w -> (i < length w)%nat -> nth (length w - 1 - i) w 0 = - nth i w 0.
Proof.
  intros H Hi. replace (length w - 1 - i)%nat with (length w - S i)%nat by lia.
  rewrite <- rev_nth by trivial. rewrite H. rewrite <- Ropp_0 at 1. now rewrite map_nth.
Qed.

(** *** plotting positions *)
Lemma plotting_length al n : length (plotting al n) = n.
Proof. unfold plotting. now rewrite map_length, seq_length. Qed.
Lemma scores_length al n : length (scores al n) = n.
Proof. unfold scores. now rewrite map_length, plotting_length. Qed.
Definition pos (al : R) (n i : nat) : R := (INR (S i) - al) / (INR n - 2 * al + 1).
Lemma pos_bounds al n i : 0 <= al < 1 -> (i < n)%nat -> 0 < pos al n i < 1.
Proof.
  intros Ha Hi. unfold pos. assert (INR (S i) <= INR n) by (apply le_INR; lia).
  assert (1 <= INR (S i)) by (rewrite S_INR; pose proof (pos_INR i); lra).
  split. apply Rdiv_lt_0_compat; lra. apply Rmult_lt_reg_r with (INR n - 2 * al + 1). lra.
  unfold Rdiv. rewrite Rmult_assoc, Rinv_l by lra. lra.
Qed.
Lemma pos_sym al n i : 0 <= al < 1 -> (i < n)%nat -> pos al n (n - 1 - i) = 1 - pos al n i.
Proof.
  intros Ha Hi. unfold pos. assert (INR (S i) <= INR n) by (apply le_INR; lia).
  replace (S (n - 1 - i)) with (n - i)%nat by lia. rewrite minus_INR by lia. rewrite S_INR in *.
  pose proof (pos_INR i). field. lra.
Qed.
Lemma pos_lt al n i j : 0 <= al < 1 -> (i < j)%nat -> (1 <= n)%nat -> pos al n i < pos al n j.
Proof.
  intros Ha Hij Hn. unfold pos. apply Rmult_lt_compat_r.
  apply Rinv_0_lt_compat. assert (1 <= INR n) by (now apply (le_INR 1)). lra.
  assert (INR (S i) < INR (S j)) by (apply lt_INR; lia). lra.
Qed.
Lemma scores_seq al n : scores al n = map (fun i => norm_ppf (pos al n i)) (seq 0 n).
Proof. unfold scores, plotting. now rewrite map_map. Qed.
Lemma scores_nth al n i : (i < n)%nat -> nth i (scores al n) 0 = norm_ppf (pos al n i).
Proof. intros H. rewrite scores_seq. now apply (nth_map_seq (fun i => norm_ppf (pos al n i))). Qed.
Lemma scores_antisym al n : 0 <= al < 1 -> antisym (scores al n).
Proof.
  intros Ha. rewrite scores_seq. apply antisym_seq. intros i Hi. rewrite pos_sym by trivial.
  apply norm_ppf_sym. now apply pos_bounds.
Qed.
Lemma scores_lt al n i j : 0 <= al < 1 -> (i < j < n)%nat -> nth i (scores al n) 0 < nth j (scores al n) 0.
Proof.
  intros Ha H. rewrite !scores_nth by lia. apply norm_ppf_increasing.
  apply pos_bounds; trivial; lia. apply pos_lt; trivial; lia. apply pos_bounds; trivial; lia.
Qed.

(** *** Shapiro-Wilk coefficients *)
Lemma antisym_wrap c w : antisym w -> antisym (- c :: w ++ [c]).
Proof.
  unfold antisym. intros H. simpl. rewrite rev_app_distr. simpl. rewrite H, map_app. simpl. now rewrite Ropp_involutive.
Qed.
Lemma seq_middle {A} (f : nat -> A) k n : map (fun i => f (i + k)%nat) (seq 0 n) = map f (seq k n).
Proof.
  revert k. induction n as [|n IH]; intros k; [reflexivity|]. simpl. f_equal.
  rewrite <- seq_shift, map_map. rewrite <- (IH (S k)). apply map_ext. intros i. f_equal. lia.
Qed.
Lemma antisym_inner al n k s : 0 <= al < 1 -> (2 * k <= n)%nat -> antisym (map (fun i => nth i (scores al n) 0 / s) (seq k (n - 2 * k))).
Proof.
  intros Ha Hk. rewrite <- seq_middle. apply antisym_seq. intros i Hi.
  pose proof (antisym_nth (scores al n) (i + k) (scores_antisym al n Ha)) as E. rewrite scores_length in E.
  replace (n - 2 * k - 1 - i + k)%nat with (n - 1 - (i + k))%nat by lia. rewrite E by lia. unfold Rdiv. ring.
Qed.
Lemma sw_coefficients_cases n : (3 <= n)%nat -> sw_coefficients n = Ok None \/
  exists a, sw_coefficients n = Ok (Some a) /\ length a = n /\ (antisym a).
Proof.
  intros Hn. unfold sw_coefficients.
  destruct n as [|[|[|[|n]]]]; try lia.
  { right. eexists. split; [reflexivity|]. split; trivial. unfold antisym. cbn [rev map app]. now rewrite Ropp_0, Ropp_involutive. }
  set (N := S (S (S (S n)))). cbv zeta.
  destruct (N <=? 5)%nat eqn:E.
  - match goal with |- context [Ok (if ?c then _ else _)] => destruct c end; [right | now left].
    eexists. split; [reflexivity|]. split.
    + simpl length. rewrite app_length, map_length, seq_length. simpl. lia.
    + apply antisym_wrap. apply (antisym_inner (3 / 8) N 1). lra. lia.
  - match goal with |- context [Ok (if ?c then _ else _)] => destruct c end; [right | now left].
    eexists. split; [reflexivity|]. apply Nat.leb_gt in E. split.
    + rewrite !app_length, map_length, seq_length. simpl length. lia.
    + match goal with |- antisym ([- ?x; - ?y] ++ ?m ++ _) =>
        change (antisym (- x :: ((- y :: m ++ [y; x])))); replace (- y :: m ++ [y; x]) with ((- y :: m ++ [y]) ++ [x]) by (simpl; now rewrite <- app_assoc) end.
      apply antisym_wrap, antisym_wrap. replace (N - 4)%nat with (N - 2 * 2)%nat by lia. apply antisym_inner. lra. lia.
Qed.
Lemma wrg_term_sym n k : (k <= n + 1)%nat -> wrg_term n (n + 1 - k) = - wrg_term n k.
Proof.
  intros Hk. unfold wrg_term.
  destruct (Nat.eqb_spec k 0) as [-> | Hk0].
  { replace (n + 1 - 0)%nat with (n + 1)%nat by lia. rewrite (proj2 (Nat.ltb_lt n (n + 1))) by lia. rewrite orb_true_r. simpl. lra. }
  destruct (Nat.ltb_spec n k) as [Hk1 | Hk1].
  { replace (n + 1 - k)%nat with 0%nat by lia. simpl. lra. }
  rewrite (proj2 (Nat.eqb_neq (n + 1 - k) 0)) by lia. rewrite (proj2 (Nat.ltb_ge n (n + 1 - k))) by lia. cbn [orb].
  assert (E : INR (n + 1 - k) / (INR n + 1) = 1 - INR k / (INR n + 1)).
  { rewrite minus_INR, plus_INR by lia. simpl (INR 1). pose proof (pos_INR n). field. lra. }
  rewrite E. assert (0 < INR k / (INR n + 1) < 1).
  { assert (INR k <= INR n) by (apply le_INR; lia). assert (0 < INR k) by (apply lt_0_INR; lia).
    split. apply Rdiv_lt_0_compat; lra. apply Rmult_lt_reg_r with (INR n + 1). lra. unfold Rdiv. rewrite Rmult_assoc, Rinv_l by lra. lra. }
  rewrite norm_ppf_sym by trivial. cbv zeta. rewrite norm_pdf_even. ring.
Qed.
Lemma wrg_star_length n : length (wrg_star n) = n.
Proof. unfold wrg_star. now rewrite map_length, seq_length. Qed.
Lemma wrg_star_antisym n : antisym (wrg_star n).
Proof.
  apply antisym_seq1. intros k Hk.
  assert (E : INR (n + 1 - k) / (INR n + 1) = 1 - INR k / (INR n + 1)).
  { rewrite minus_INR, plus_INR by lia. simpl (INR 1). pose proof (pos_INR n). field. lra. }
  rewrite E. assert (0 < INR k / (INR n + 1) < 1).
  { assert (INR k <= INR n) by (apply le_INR; lia). assert (0 < INR k) by (apply lt_0_INR; lia).
    split. apply Rdiv_lt_0_compat; lra. apply Rmult_lt_reg_r with (INR n + 1). lra. unfold Rdiv. rewrite Rmult_assoc, Rinv_l by lra. lra. }
  rewrite norm_ppf_sym by trivial. rewrite norm_pdf_even.
  replace (n + 1 - k - 1)%nat with (n + 1 - (k + 1))%nat by lia.
  replace (n + 1 - k + 1)%nat with (n + 1 - (k - 1))%nat by lia.
  rewrite !wrg_term_sym by lia. ring.
Qed.

(** *** Zhang's coefficients *)
Lemma zq_a_length n : (1 <= n)%nat -> length (zq_a n) = n.
Proof. intros H. unfold zq_a. simpl. rewrite map_length, seq_length. lia. Qed.
Lemma zq_a_sum n : Rsum (zq_a n) = 0.
Proof. unfold zq_a. cbn [Rsum]. ring. Qed.
Lemma zq_b_length n : length (zq_b n) = n.
Proof. unfold zq_b. now rewrite map_length, seq_length. Qed.
Lemma zq_b_antisym n : (8 <= n)%nat -> antisym (zq_b n).
Proof.
  intros Hn. unfold zq_b. cbv zeta. apply antisym_seq. intros i Hi.
  assert (S : forall j, (j < n)%nat -> nth (n - 1 - j) (scores 0.375 n) 0 = - nth j (scores 0.375 n) 0).
  { intros j Hj. pose proof (antisym_nth (scores 0.375 n) j) as E. rewrite scores_length in E. apply E; trivial.
    apply scores_antisym. lra. }
  destruct (Nat.ltb_spec i 4) as [h1 | h1].
  - rewrite (proj2 (Nat.ltb_ge (n - 1 - i) 4)) by lia. rewrite (proj2 (Nat.leb_le (n - 4) (n - 1 - i))) by lia.
    replace (n - 1 - (n - 1 - i))%nat with i by lia. replace (n + 3 - (n - 1 - i))%nat with (i + 4)%nat by lia. reflexivity.
  - destruct (Nat.leb_spec (n - 4) i) as [h2 | h2].
    + rewrite (proj2 (Nat.ltb_lt (n - 1 - i) 4)) by lia.
      replace (n - 1 - i + 4)%nat with (n + 3 - i)%nat by lia. now rewrite Ropp_involutive.
    + rewrite (proj2 (Nat.ltb_ge (n - 1 - i) 4)) by lia. rewrite (proj2 (Nat.leb_gt (n - 4) (n - 1 - i))) by lia.
      replace (n - 1 - i + 4)%nat with (n - 1 - (i - 4))%nat by lia.
      replace (n - 1 - i - 4)%nat with (n - 1 - (i + 4))%nat by lia. rewrite !S by lia.
      replace (- nth i (scores 0.375 n) 0 - - nth (i - 4) (scores 0.375 n) 0) with (nth (i - 4) (scores 0.375 n) 0 - nth i (scores 0.375 n) 0) by ring.
      replace (- nth (i + 4) (scores 0.375 n) 0 - - nth i (scores 0.375 n) 0) with (nth i (scores 0.375 n) 0 - nth (i + 4) (scores 0.375 n) 0) by ring.
      unfold Rdiv. ring.
Qed.

(** *** binomial coefficients *)
Lemma choose_0 n : choose n 0 = 1%nat. Proof. now destruct n. Qed.
Lemma choose_SS n k : choose (S n) (S k) = (choose n k + choose n (S k))%nat. Proof. reflexivity. Qed.
Lemma choose_gt n k : (n < k)%nat -> choose n k = 0%nat.
Proof.
  revert k. induction n as [|n IH]; intros [|k] H; try lia; trivial. rewrite choose_SS, !IH by lia. reflexivity.
Qed.
Lemma choose_diag n : choose n n = 1%nat.
Proof. induction n; trivial. rewrite choose_SS, IHn, choose_gt by lia. lia. Qed.
Lemma choose_pos n k : (k <= n)%nat -> (0 < choose n k)%nat.
Proof.
  revert k. induction n as [|n IH]; intros [|k] H; try lia; try (simpl; lia). rewrite choose_SS. specialize (IH k). lia.
Qed.
(** (k+1) C(n,k+1) = (n-k) C(n,k) *)
Lemma choose_step n k : INR (S k) * INR (choose n (S k)) = (INR n - INR k) * INR (choose n k).
Proof.
  revert k. induction n as [|n IH]; intros k.
  - simpl choose. destruct k; simpl; lra.
  - rewrite choose_SS, plus_INR. destruct k as [|k].
    + rewrite !choose_0. specialize (IH 0%nat). rewrite choose_0 in IH. rewrite !S_INR in *. simpl INR in *. lra.
    + rewrite choose_SS, plus_INR. pose proof (IH k) as I1. pose proof (IH (S k)) as I2. rewrite !S_INR in *. lra.
Qed.
(** sum over the positions of the middle element *)
Lemma hockey n k : Rsum (map (fun i => INR (choose i k)) (seq 0 n)) = INR (choose n (S k)).
Proof.
  induction n as [|n IH]; [reflexivity|]. rewrite seq_S, map_app, Rsum_app, IH. cbn [map Rsum]. rewrite choose_SS, plus_INR. simpl plus. lra.
Qed.
Lemma vandermonde n : forall k b, Rsum (map (fun i => INR (choose i k) * INR (choose (n - 1 - i) b)) (seq 0 n)) = INR (choose n (k + b + 1)).
Proof.
  induction n as [|n IH]; intros k b; [now destruct (k + b + 1)%nat eqn:E; [lia|] |].
  destruct b as [|b].
  - rewrite (Rsum_map_ext _ (fun i => INR (choose i k))). rewrite hockey. f_equal. f_equal. lia.
    intros i _. rewrite choose_0. simpl. ring.
  - rewrite seq_S, map_app, Rsum_app. cbn [map Rsum].
    replace (S n - 1 - (0 + n))%nat with 0%nat by lia. change (choose 0 (S b)) with 0%nat. change (INR 0) with 0.
    rewrite (Rsum_map_ext _ (fun i => INR (choose i k) * INR (choose (n - 1 - i) b) + INR (choose i k) * INR (choose (n - 1 - i) (S b)))).
    2: { intros i Hi. apply in_seq in Hi. replace (S n - 1 - i)%nat with (S (n - 1 - i)) by lia. rewrite choose_SS, plus_INR. ring. }
    rewrite Rsum_map_plus, !IH. replace (k + S b + 1)%nat with (S (k + b + 1)) by lia. rewrite choose_SS, plus_INR. ring.
Qed.

Lemma dot_comm a b : dot a b = dot b a.
Proof.
  unfold dot. revert b. induction a as [|x a IH]; intros [|y b]; cbn [combine map Rsum fst snd]; trivial. rewrite IH. ring.
Qed.
Lemma dot_seq f x : forall k, dot (map f (seq k (length x))) x = Rsum (map (fun i => f i * nth (i - k) x 0) (seq k (length x))).
Proof.
  unfold dot. induction x as [|y x IH]; intros k; [reflexivity|].
  cbn [length seq map combine Rsum fst snd]. rewrite Nat.sub_diag. f_equal. rewrite IH.
  apply Rsum_map_ext. intros i Hi. apply in_seq in Hi. f_equal. replace (i - k)%nat with (S (i - S k)) by lia. reflexivity.
Qed.
(** *** trimmed L-moments *)
Definition tlw (t r n : nat) : list R := map (pstarmod t r n) (seq 1 n).
Lemma tlw_length t r n : length (tlw t r n) = n.
Proof. unfold tlw. now rewrite map_length, seq_length. Qed.
Lemma pstarmod_first t r n : (1 <= t)%nat -> pstarmod t r n 1 = 0.
Proof.
  intros Ht. unfold pstarmod. rewrite (Rsum_map_ext _ (fun _ => 0)). rewrite Rsum_map_const. ring.
  intros k Hk. apply in_seq in Hk. change (1 - 1)%nat with 0%nat. rewrite (choose_gt 0) by lia. simpl (INR 0). ring.
Qed.
Lemma pstarmod_last t r n : (1 <= t)%nat -> pstarmod t r n n = 0.
Proof.
  intros Ht. unfold pstarmod. rewrite (Rsum_map_ext _ (fun _ => 0)). rewrite Rsum_map_const. ring.
  intros k Hk. apply in_seq in Hk. rewrite Nat.sub_diag. rewrite (choose_gt 0) by lia. simpl (INR 0). ring.
Qed.
Lemma tl_moment_dot t r x : (1 <= t)%nat ->
  tl_moment t r x = dot (tlw t r (length x)) x / (INR r * INR (choose (length x) (r + 2 * t))).
Proof.
  intros Ht. unfold tl_moment. f_equal. unfold tlw. rewrite dot_seq.
  rewrite (Rsum_map_ext _ (fun i => pstarmod t r (length x) i * nth (i - 1) x 0)) by (intros; ring).
  destruct (length x) as [|[|n]]; [reflexivity | |].
  - cbn [seq map Rsum Nat.sub]. rewrite pstarmod_first by trivial. ring.
  - replace (S (S n) - 2)%nat with n by lia.
    replace (seq 1 (S (S n))) with (1%nat :: seq 2 n ++ [S (S n)]).
    2: { change (seq 1 (S (S n))) with (1%nat :: seq 2 (S n)). rewrite seq_S. simpl. reflexivity. }
    cbn [map Rsum]. rewrite map_app, Rsum_app. cbn [map Rsum]. rewrite pstarmod_first, pstarmod_last by trivial. ring.
Qed.
Lemma tlw_sum_gen t r n : Rsum (tlw t r n)
  = Rsum (map (fun k => (-1) ^ k * INR (choose (r - 1) k) * INR (choose n (r + 2 * t))) (seq 0 r)).
Proof.
  unfold tlw, pstarmod. rewrite Rsum_map_swap. apply Rsum_map_ext. intros k Hk. apply in_seq in Hk.
  rewrite (Rsum_map_ext _ (fun i => ((-1) ^ k * INR (choose (r - 1) k)) * (INR (choose (i - 1) (r + t - 1 - k)) * INR (choose (n - i) (t + k)))))
    by (intros; ring).
  rewrite Rsum_map_scal. f_equal. rewrite <- seq_shift, map_map.
  rewrite (Rsum_map_ext _ (fun i => INR (choose i (r + t - 1 - k)) * INR (choose (n - 1 - i) (t + k)))).
  rewrite vandermonde. f_equal. f_equal. lia.
  intros i Hi. replace (S i - 1)%nat with i by lia. replace (n - S i)%nat with (n - 1 - i)%nat by lia. reflexivity.
Qed.
Lemma tlw_sum t r n : (2 <= r <= 4)%nat -> Rsum (tlw t r n) = 0.
Proof.
  intros H. rewrite tlw_sum_gen. generalize (INR (choose n (r + 2 * t))); intros c.
  assert (r = 2 \/ r = 3 \/ r = 4)%nat as [-> | [-> | ->]] by lia; cbn [seq map Rsum]; simpl choose; simpl; ring.
Qed.
Lemma tl_moment_aff t r a b x : (1 <= t)%nat -> (2 <= r <= 4)%nat -> tl_moment t r (aff a b x) = b * tl_moment t r x.
Proof.
  intros Ht Hr. rewrite !tl_moment_dot by trivial. rewrite aff_length, dot_aff by apply tlw_length.
  rewrite tlw_sum by trivial. unfold Rdiv. ring.
Qed.
(** reflection of the sample changes the sign of the even orders only *)
Lemma pstarmod_sym t r n i : (2 <= r <= 4)%nat -> (1 <= i <= n)%nat -> pstarmod t r n (n + 1 - i) = (-1) ^ (r - 1) * pstarmod t r n i.
Proof.
  intros Hr Hi. unfold pstarmod. replace (n + 1 - i - 1)%nat with (n - i)%nat by lia. replace (n - (n + 1 - i))%nat with (i - 1)%nat by lia.
  assert (r = 2 \/ r = 3 \/ r = 4)%nat as [-> | [-> | ->]] by lia; cbn [seq map Rsum]; rewrite ?Nat.add_0_r.
  - replace (2 + t - 1 - 0)%nat with (t + 1)%nat by lia. replace (2 + t - 1 - 1)%nat with t by lia.
    change (choose (2 - 1) 0) with 1%nat. change (choose (2 - 1) 1) with 1%nat.
    generalize (choose (n - i) t) (choose (n - i) (t + 1)) (choose (i - 1) t) (choose (i - 1) (t + 1)). intros. simpl. ring.
  - replace (3 + t - 1 - 0)%nat with (t + 2)%nat by lia. replace (3 + t - 1 - 1)%nat with (t + 1)%nat by lia.
    replace (3 + t - 1 - 2)%nat with t by lia.
    change (choose (3 - 1) 0) with 1%nat. change (choose (3 - 1) 1) with 2%nat. change (choose (3 - 1) 2) with 1%nat.
    generalize (choose (n - i) t) (choose (n - i) (t + 1)) (choose (n - i) (t + 2)) (choose (i - 1) t) (choose (i - 1) (t + 1)) (choose (i - 1) (t + 2)).
    intros. simpl. ring.
  - replace (4 + t - 1 - 0)%nat with (t + 3)%nat by lia. replace (4 + t - 1 - 1)%nat with (t + 2)%nat by lia.
    replace (4 + t - 1 - 2)%nat with (t + 1)%nat by lia. replace (4 + t - 1 - 3)%nat with t by lia.
    change (choose (4 - 1) 0) with 1%nat. change (choose (4 - 1) 1) with 3%nat. change (choose (4 - 1) 2) with 3%nat. change (choose (4 - 1) 3) with 1%nat.
    generalize (choose (n - i) t) (choose (n - i) (t + 1)) (choose (n - i) (t + 2)) (choose (n - i) (t + 3))
      (choose (i - 1) t) (choose (i - 1) (t + 1)) (choose (i - 1) (t + 2)) (choose (i - 1) (t + 3)).
    intros. simpl. ring.
Qed.
