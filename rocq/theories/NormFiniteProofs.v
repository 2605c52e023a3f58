(** When the normality statistics are finite numbers. *)
From Verif Require Import Base DecModel EdfModel EdfSpec GraphModel NormalLaw ExpModel ExpSpec NormModel EdfProofs ExpProofs ExpRangeProofs NormProofs NormSymProofs NormAffProofs NormReflProofs NormRangeProofs.
From Coq Require Import Lra Lia.

Definition fin (o : outcome) : Prop := exists v, o = Ok (Some (Fin v)).
Lemma num_fin b v : b = true -> fin (num b v).
Proof. intros ->. now exists v. Qed.
Lemma num_fin_iff b v : fin (num b v) <-> b = true.
Proof. split; [|apply num_fin]. intros [w E]. unfold num in E. now destruct b. Qed.
Lemma gt3_fin l o : (3 < length l)%nat -> fin o -> fin (gt3 l o).
Proof. intros H F. unfold gt3. now rewrite (proj2 (Nat.ltb_lt _ _) H). Qed.

(** ** samples with distinct values *)
Lemma two_values l a b : In a l -> In b l -> a <> b -> 0 < ssq l.
Proof.
  intros Ha Hb N. pose proof (ssq_nonneg l). destruct (Req_dec (ssq l) 0) as [E|]; [|lra]. exfalso. apply N.
  rewrite <- dev_sumsqs in E. assert (D : forall x, In x l -> x - mean l = 0).
  { intros x Hx. apply (sumsqs_zero _ E). unfold dev. apply in_map_iff. now exists x. }
  pose proof (D a Ha). pose proof (D b Hb). lra.
Qed.
Lemma nodup_ssq l : NoDup l -> (2 <= length l)%nat -> 0 < ssq l.
Proof.
  intros Hd Hl. destruct l as [|a [|b l]]; simpl in Hl; try lia. apply two_values with a b; simpl; auto.
  intros ->. inversion Hd as [|? ? Hn]. apply Hn. now left.
Qed.
Lemma nodup_varying l : NoDup l -> (2 <= length l)%nat -> varying l = true.
Proof. intros. apply varying_pos. now apply nodup_ssq. Qed.
Lemma nodup_nth_lt l i j : NoDup l -> (i < j < length l)%nat -> nth i (rsort l) 0 < nth j (rsort l) 0.
Proof.
  intros Hd Hij. assert (Hle : nth i (rsort l) 0 <= nth j (rsort l) 0).
  { apply sorted_nth_le; [apply rsort_sorted|]. rewrite rsort_length. lia. }
  assert (nth i (rsort l) 0 <> nth j (rsort l) 0); [|lra]. intros E.
  pose proof (proj1 (NoDup_nth (rsort l) 0) (rsort_nodup l Hd) i j) as Q. rewrite rsort_length in Q. specialize (Q ltac:(lia) ltac:(lia) E). lia.
Qed.
Lemma neg_nodup l : NoDup l -> NoDup (neg l).
Proof. intros. apply FinFun.Injective_map_NoDup; trivial. intros x y H0. apply (f_equal Ropp) in H0. now rewrite !Ropp_involutive in H0. Qed.
Lemma map_minus_nodup c l : NoDup l -> NoDup (map (fun x => x - c) l).
Proof. intros. apply FinFun.Injective_map_NoDup; trivial. intros x y H0. lra. Qed.

(** ** the order statistics *)
Lemma ks_fin alt u : u <> [] -> fin (lift (ks_do_execute alt u)).
Proof. intros H. rewrite ks_eval by trivial. eexists. reflexivity. Qed.
Lemma cvm_fin u : u <> [] -> fin (lift (cvm_do_execute u)).
Proof. intros H. rewrite cvm_eval by trivial. eexists. reflexivity. Qed.
Lemma ad_fin u : (forall p, In p u -> 0 < p < 1) -> exists v, ad_of_cdf u = Fin v.
Proof.
  intros H. unfold ad_of_cdf. rewrite (proj2 (forallb_forall _ u)). eexists; reflexivity.
  intros p Hp. apply H in Hp. apply andb_true_iff. split; apply Rltb_true; lra.
Qed.
Lemma ne_of_len (l : list R) k : (k < length l)%nat -> l <> [].
Proof. now destruct l; simpl; try lia. Qed.
Lemma match_ne {A} (l : list R) (x y : A) : l <> [] -> match l with [] => x | _ :: _ => y end = y.
Proof. now destruct l. Qed.
Lemma pearsonr_fin x y : (2 <= length x)%nat -> 0 < ssq x -> 0 < ssq y -> fin (pearsonr x y).
Proof.
  intros H Hx Hy. unfold pearsonr. rewrite (proj2 (Nat.ltb_ge _ _) H). apply num_fin. now rewrite !varying_pos.
Qed.
Lemma scores_ssq al n : 0 <= al < 1 -> (2 <= n)%nat -> 0 < ssq (scores al n).
Proof.
  intros Ha Hn. pose proof (scores_lt al n 0 1 Ha ltac:(lia)) as H.
  apply two_values with (nth 0 (scores al n) 0) (nth 1 (scores al n) 0); try (apply nth_In; rewrite scores_length; lia). lra.
Qed.
Lemma filli_ssq n : (2 <= n)%nat -> 0 < ssq (map norm_ppf (filli_medians n)).
Proof.
  intros Hn. set (m := map norm_ppf (filli_medians n)). assert (Lm : length m = n) by (unfold m, filli_medians; now rewrite !map_length, seq_length).
  assert (L1 : 2 <= INR n) by (now apply (le_INR 2)).
  assert (H0 : nth 0 m 0 < 0).
  { unfold m, filli_medians. rewrite map_map, nth_map_seq by lia. rewrite (proj2 (Nat.eqb_neq 0 (n - 1))) by lia. rewrite Nat.eqb_refl. apply norm_ppf_neg.
    assert (Rpower 0.5 (1 / INR n) < 1).
    { unfold Rpower. apply Rlt_le_trans with (exp 0); [|rewrite exp_0; lra]. apply exp_increasing. assert (ln 0.5 < 0) by (rewrite <- ln_1; apply ln_increasing; lra).
      assert (0 < 1 / INR n) by (apply Rdiv_lt_0_compat; lra). revert H H0. generalize (1 / INR n) (ln 0.5). intros; nra. }
    assert (1 / 2 < Rpower 0.5 (1 / INR n)).
    { replace (1 / 2) with (Rpower 0.5 1) by (rewrite Rpower_1; lra). unfold Rpower. apply exp_increasing.
      assert (ln 0.5 < 0) by (rewrite <- ln_1; apply ln_increasing; lra).
      assert (1 / INR n < 1) by (apply Rmult_lt_reg_r with (INR n); [lra|]; field_simplify; lra). revert H0 H1. generalize (1 / INR n) (ln 0.5). intros; nra. }
    lra. }
  pose proof (antisym_nth m 0 (filli_antisym n)) as A. rewrite Lm in A. specialize (A ltac:(lia)).
  apply two_values with (nth 0 m 0) (nth (n - 1 - 0) m 0); try (apply nth_In; lia). lra.
Qed.
Lemma filli_fin l : NoDup l -> (2 <= length l)%nat -> fin (filli_norm l).
Proof.
  intros Hd Hn. unfold filli_norm. rewrite match_ne by (now apply (ne_of_len l 0); lia). apply pearsonr_fin.
  now rewrite rsort_length. rewrite ssq_rsort. now apply nodup_ssq. now apply filli_ssq.
Qed.
Lemma filter_self_none (x u : list R) v : ~ In v x -> filter (fun p : R * R => Reqb (fst p) v) (combine x u) = [].
Proof.
  revert u. induction x as [|a x IH]; intros [|b u] H; trivial. cbn [combine filter fst]. destruct (Reqb_spec a v) as [->|].
  exfalso; apply H; now left. apply IH. intros Q; apply H; now right.
Qed.
Lemma tie_averaged_nodup x : forall u, NoDup x -> length x = length u -> tie_averaged x u = u.
Proof.
  unfold tie_averaged. induction x as [|a x IH]; intros [|b u] Hd L; try discriminate; trivial. injection L as L. apply NoDup_cons_iff in Hd as [Hn Hd].
  cbn [map]. f_equal.
  - cbn [combine filter fst]. rewrite (proj2 (Reqb_true a a)) by reflexivity. rewrite filter_self_none by trivial. unfold mean, len. simpl. field.
  - etransitivity; [|exact (IH u Hd L)]. apply map_ext_in. intros v Hv. cbn [combine filter fst]. destruct (Reqb_spec a v) as [->|]; [easy|reflexivity].
Qed.
Lemma rj_fin w al l : 0 <= al < 1 -> NoDup l -> (2 <= length l)%nat -> fin (rj_norm w al l).
Proof.
  intros Ha Hd Hn. unfold rj_norm. cbv zeta. assert (E : (if w then tie_averaged (rsort l) (plotting al (length l)) else plotting al (length l)) = plotting al (length l)).
  { destruct w; trivial. apply tie_averaged_nodup. now apply rsort_nodup. now rewrite plotting_length, rsort_length. }
  rewrite E. apply pearsonr_fin. now rewrite map_length, plotting_length. now apply scores_ssq. rewrite ssq_rsort. now apply nodup_ssq.
Qed.
Lemma sumsqs_pos_in w x : In x w -> x <> 0 -> 0 < sumsqs w.
Proof.
  intros Hx Hn. pose proof (sumsqs_nonneg w). destruct (Req_dec (sumsqs w) 0) as [E|]; [|lra]. now apply (sumsqs_zero w) with (x := x) in E.
Qed.
Lemma sf_fin l : NoDup l -> (2 <= length l)%nat -> fin (sf_norm l).
Proof.
  intros Hd Hn. unfold sf_norm. cbv zeta. apply num_fin. rewrite nodup_varying by trivial. cbn [andb]. fold (neg (scores 0.375 (length l))). rewrite neg_sumsq.
  fold (sumsqs (scores 0.375 (length l))). set (m := scores 0.375 (length l)).
  assert (H : nth 0 m 0 < nth 1 m 0) by (apply scores_lt; [lra|lia]).
  assert (Lm : length m = length l) by apply scores_length.
  assert (0 < sumsqs m).
  { destruct (Req_dec (nth 0 m 0) 0). apply sumsqs_pos_in with (nth 1 m 0); [apply nth_In; lia | lra]. apply sumsqs_pos_in with (nth 0 m 0); [apply nth_In; lia | lra]. }
  now rewrite Reqb_pos.
Qed.

(** ** weighted sums of the order statistics *)
Lemma weighted_pos w x mu j : length w = length x -> Rsum w = 0 ->
  (forall i, (i < length x)%nat -> 0 <= nth i w 0 * (nth i x 0 - mu)) ->
  (j < length x)%nat -> 0 < nth j w 0 * (nth j x 0 - mu) -> 0 < dot w x.
Proof.
  intros L S H Hj Hp. assert (E : dot w x = dot w (map (fun v => v - mu) x)).
  { assert (E : map (fun v => v - mu) x = aff (- mu) 1 x) by (unfold aff; apply map_ext; intros; ring).
    rewrite E, dot_aff by trivial. rewrite S. ring. }
  rewrite E. clear E S. revert x j L H Hj Hp. unfold dot. induction w as [|a w IH]; intros [|b x] j L H Hj Hp; try discriminate; [simpl in Hj; lia|].
  injection L as L. cbn [map combine Rsum fst snd].
  assert (T : forall w x : list R, length w = length x -> (forall i, (i < length x)%nat -> 0 <= nth i w 0 * (nth i x 0 - mu)) ->
    0 <= Rsum (map (fun p => fst p * snd p) (combine w (map (fun v => v - mu) x)))).
  { clear. intros w. induction w as [|a w IH]; intros [|b x] L H; try discriminate; [simpl; lra|]. injection L as L. cbn [map combine Rsum fst snd].
    pose proof (H 0%nat ltac:(simpl; lia)) as H0. simpl in H0. assert (0 <= Rsum (map (fun p => fst p * snd p) (combine w (map (fun v => v - mu) x)))); [|lra].
    apply IH; trivial. intros i Hi. apply (H (S i)). simpl. lia. }
  pose proof (H 0%nat ltac:(simpl; lia)) as H0. cbn [nth] in H0. destruct j as [|j].
  - cbn [nth] in Hp. pose proof (T w x L (fun i Hi => H (S i) ltac:(simpl; lia))). lra.
  - cbn [nth] in Hp. simpl in Hj. pose proof (IH x j L (fun i Hi => H (S i) ltac:(simpl; lia)) ltac:(lia) Hp). lra.
Qed.
(** weights of the sign of 2i - (n-1) *)
Lemma sign_weights_pos w l j : NoDup l -> length w = length l -> Rsum w = 0 ->
  (forall i, (i < length l)%nat -> (2 * i + 1 <= length l)%nat -> nth i w 0 <= 0) -> (forall i, (i < length l)%nat -> (length l <= 2 * i + 1)%nat -> 0 <= nth i w 0) ->
  j = S (length l / 2) -> (j < length l)%nat -> 0 < nth j w 0 -> 0 < dot w (rsort l).
Proof.
  intros Hd L S H1 H2 -> Hj Hp. set (h := (length l / 2)%nat) in *. assert (Hh : (2 * h <= length l < 2 * h + 2)%nat).
  { unfold h. pose proof (Nat.div_mod (length l) 2 ltac:(lia)). pose proof (Nat.mod_upper_bound (length l) 2 ltac:(lia)). lia. }
  apply (weighted_pos w (rsort l) (nth h (rsort l) 0) (Datatypes.S h)); rewrite ?rsort_length; trivial.
  - intros i Hi. destruct (lt_eq_lt_dec i h) as [[h1|h1]|h1].
    + pose proof (H1 i Hi ltac:(lia)). pose proof (nodup_nth_lt l i h Hd ltac:(lia)). nra.
    + subst i. lra.
    + pose proof (H2 i Hi ltac:(lia)). pose proof (nodup_nth_lt l h i Hd ltac:(lia)). nra.
  - pose proof (nodup_nth_lt l h (Datatypes.S h) Hd ltac:(lia)). nra.
Qed.
Lemma pstarmod_2 t n i : (1 <= i <= n)%nat ->
  pstarmod t 2 n i * (INR t + 1) = INR (choose (i - 1) t) * INR (choose (n - i) t) * (2 * INR i - INR n - 1).
Proof.
  intros Hi. unfold pstarmod. cbn [seq map Rsum]. change (2 - 1)%nat with 1%nat. change (choose 1 0) with 1%nat. change (choose 1 1) with 1%nat.
  replace (2 + t - 1 - 0)%nat with (S t) by lia. replace (2 + t - 1 - 1)%nat with t by lia. replace (t + 0)%nat with t by lia. replace (t + 1)%nat with (S t) by lia.
  pose proof (choose_step (i - 1) t) as A. pose proof (choose_step (n - i) t) as B. rewrite !minus_INR in A, B by lia. rewrite S_INR in A, B. change (INR 1) with 1 in *.
  replace ((-1) ^ 0) with 1 by ring. replace ((-1) ^ 1) with (-1) by ring.
  transitivity (INR (choose (n - i) t) * ((INR t + 1) * INR (choose (i - 1) (S t))) - INR (choose (i - 1) t) * ((INR t + 1) * INR (choose (n - i) (S t)))). ring.
  rewrite A, B. ring.
Qed.
Lemma tl_moment2_pos t l : NoDup l -> (1 <= t)%nat -> (2 * t + 4 <= length l)%nat -> 0 < tl_moment t 2 (rsort l).
Proof.
  intros Hd Ht Hn. rewrite tl_moment_dot by trivial. rewrite rsort_length. set (n := length l) in *.
  apply Rdiv_lt_0_compat.
  - assert (Hw : forall i, (i < n)%nat -> nth i (tlw t 2 n) 0 * (INR t + 1) = INR (choose i t) * INR (choose (n - 1 - i) t) * (2 * INR i + 1 - INR n)).
    { intros i Hi. unfold tlw. rewrite <- (seq_middle (pstarmod t 2 n)), nth_map_seq by trivial. rewrite pstarmod_2 by lia.
      replace (i + 1 - 1)%nat with i by lia. replace (n - (i + 1))%nat with (n - 1 - i)%nat by lia. rewrite plus_INR. simpl (INR 1). ring. }
    assert (Pt : 0 < INR t + 1) by (pose proof (pos_INR t); lra).
    apply (sign_weights_pos (tlw t 2 n) l (S (n / 2))); fold n; trivial.
    + apply tlw_length.
    + apply tlw_sum. lia.
    + intros i Hi H. pose proof (Hw i Hi) as E. apply le_INR in H. rewrite plus_INR, mult_INR in H. simpl (INR 2) in H. simpl (INR 1) in H.
      pose proof (Rmult_le_pos _ _ (pos_INR (choose i t)) (pos_INR (choose (n - 1 - i) t))). nra.
    + intros i Hi H. pose proof (Hw i Hi) as E. apply le_INR in H. rewrite plus_INR, mult_INR in H. simpl (INR 2) in H. simpl (INR 1) in H.
      pose proof (Rmult_le_pos _ _ (pos_INR (choose i t)) (pos_INR (choose (n - 1 - i) t))). nra.
    + pose proof (Nat.div_mod n 2 ltac:(lia)). pose proof (Nat.mod_upper_bound n 2 ltac:(lia)). lia.
    + pose proof (Nat.div_mod n 2 ltac:(lia)). pose proof (Nat.mod_upper_bound n 2 ltac:(lia)).
      pose proof (Hw (S (n / 2)) ltac:(lia)) as E.
      assert (0 < INR (choose (S (n / 2)) t)) by (apply (lt_INR 0), choose_pos; lia).
      assert (0 < INR (choose (n - 1 - S (n / 2)) t)) by (apply (lt_INR 0), choose_pos; lia).
      assert (Q : (n + 1 <= 2 * S (n / 2))%nat) by lia. apply le_INR in Q. rewrite plus_INR, mult_INR in Q. simpl (INR 2) in Q. simpl (INR 1) in Q.
      assert (0 < INR (choose (S (n / 2)) t) * INR (choose (n - 1 - S (n / 2)) t)) by (now apply Rmult_lt_0_compat).
      assert (0 < nth (S (n / 2)) (tlw t 2 n) 0 * (INR t + 1)) by (rewrite E; apply Rmult_lt_0_compat; lra). nra.
  - apply Rmult_lt_0_compat. simpl; lra. apply (lt_INR 0), choose_pos. lia.
Qed.
Lemma hosking_trimmed_fin t l : NoDup l -> (1 <= t)%nat -> (2 * t + 4 <= length l)%nat -> fin (hosking_trimmed t l).
Proof.
  intros Hd Ht Hn. unfold hosking_trimmed. cbv zeta. destruct (hosking_constants t (length l)) as [[mu v3] v4]. apply num_fin.
  pose proof (tl_moment2_pos t l Hd Ht Hn). rewrite Reqb_pos by trivial. rewrite (proj2 (Nat.leb_le _ _)) by lia. reflexivity.
Qed.
Lemma imap_dot (f : nat -> R) x : Rsum (imap (fun i v => f i * v) x) = dot (map f (seq 0 (length x))) x.
Proof.
  rewrite dot_seq. rewrite (imap_seq _ x 0). apply Rsum_map_ext. intros i _. now rewrite Nat.sub_0_r.
Qed.
Lemma l2_pos l : NoDup l -> (4 <= length l)%nat ->
  0 < 2 * (Rsum (imap (fun i v => INR i * v) (rsort l)) / (len (rsort l) * (len (rsort l) - 1))) - Rsum (rsort l) / len (rsort l).
Proof.
  intros Hd Hn. assert (L1 : 4 <= len (rsort l)) by (unfold len; rewrite rsort_length; apply (le_INR 4) in Hn; simpl in Hn; lra).
  set (n := len (rsort l)) in *. set (x := rsort l).
  assert (E : 2 * (Rsum (imap (fun i v => INR i * v) x) / (n * (n - 1))) - Rsum x / n
            = dot (map (fun i => 2 * INR i + 1 - n) (seq 0 (length x))) x / (n * (n - 1))).
  { rewrite <- imap_dot. rewrite (imap_ext (fun i v => (2 * INR i + 1 - n) * v) (fun i v => 2 * (INR i * v) + (1 - n) * v)) by (intros; ring).
    rewrite Rsum_imap_plus, Rsum_imap_scal, Rsum_imap_val. rewrite Rsum_map_scal, map_id. field. lra. }
  rewrite E. apply Rdiv_lt_0_compat; [|nra]. unfold x. rewrite rsort_length. set (w := map _ (seq 0 (length l))).
  assert (Ew : forall i, (i < length l)%nat -> nth i w 0 = 2 * INR i + 1 - n) by (intros; unfold w; now rewrite nth_map_seq).
  assert (En : n = INR (length l)) by (unfold n, len; now rewrite rsort_length).
  pose proof (Nat.div_mod (length l) 2 ltac:(lia)). pose proof (Nat.mod_upper_bound (length l) 2 ltac:(lia)).
  apply (sign_weights_pos w l (S (length l / 2))); trivial.
  - unfold w. now rewrite map_length, seq_length.
  - apply antisym_sum. apply antisym_seq. intros i Hi. rewrite INR_rev by trivial. rewrite En. ring.
  - intros i Hi Q. rewrite Ew, En by trivial. apply le_INR in Q. rewrite plus_INR, mult_INR in Q. simpl (INR 2) in Q. simpl (INR 1) in Q. lra.
  - intros i Hi Q. rewrite Ew, En by trivial. apply le_INR in Q. rewrite plus_INR, mult_INR in Q. simpl (INR 2) in Q. simpl (INR 1) in Q. lra.
  - lia.
  - rewrite Ew, En by lia. assert (Q : (length l + 1 <= 2 * S (length l / 2))%nat) by lia. apply le_INR in Q. rewrite plus_INR, mult_INR in Q. simpl (INR 2) in Q. simpl (INR 1) in Q. lra.
Qed.
Lemma hosking1_fin l : NoDup l -> (4 <= length l)%nat -> fin (hosking1 l).
Proof.
  intros Hd Hn. unfold hosking1. apply gt3_fin; [lia|]. unfold pwm. destruct (hosking_constants 0 (length l)) as [[mu v3] v4]. cbv zeta. apply num_fin.
  pose proof (l2_pos l Hd Hn). rewrite Reqb_pos by trivial. reflexivity.
Qed.

(** ** moments *)
Lemma mean_plus f g (l : list R) : mean (map (fun x => f x + g x) l) = mean (map f l) + mean (map g l).
Proof. unfold mean, len. rewrite Rsum_map_plus, !map_length. unfold Rdiv. ring. Qed.
Lemma mean_scal c f (l : list R) : mean (map (fun x => c * f x) l) = c * mean (map f l).
Proof. unfold mean, len. rewrite Rsum_map_scal, !map_length. unfold Rdiv. ring. Qed.
Lemma mean_const c (l : list R) : l <> [] -> mean (map (fun _ => c) l) = c.
Proof. intros H. pose proof (len_pos l H). unfold mean, len in *. rewrite Rsum_map_const, map_length. field. lra. Qed.
Lemma mean_nonneg (f : R -> R) l : (forall x, 0 <= f x) -> 0 <= mean (map f l).
Proof.
  intros H. destruct l as [|a l]; [cbn [map]; rewrite mean_nil; lra|]. set (l' := a :: l). pose proof (len_pos l' ltac:(discriminate)). unfold mean, len. rewrite map_length.
  apply Rmult_le_pos. now apply Rsum_map_nonneg. left. now apply Rinv_0_lt_compat.
Qed.
Lemma mean_dev0 l : l <> [] -> mean (map (fun x => x - mean l) l) = 0.
Proof. intros H. fold (dev l). unfold mean. rewrite dev_sum by trivial. unfold Rdiv. ring. Qed.
(** Pearson's inequality *)
Lemma pearson_inequality l : l <> [] -> moment 3 l ^ 2 + moment 2 l ^ 3 <= moment 4 l * moment 2 l.
Proof.
  intros H. set (m := mean l). set (m2 := moment 2 l). set (m3 := moment 3 l). set (m4 := moment 4 l).
  assert (Q : 0 <= mean (map (fun x => (m2 * (x - m) ^ 2 - m3 * (x - m) - m2 ^ 2) ^ 2) l)) by (apply mean_nonneg; intros; apply pow2_ge_0).
  assert (P2 : 0 <= m2) by (apply mean_nonneg; intros; apply pow2_ge_0).
  assert (E : mean (map (fun x => (m2 * (x - m) ^ 2 - m3 * (x - m) - m2 ^ 2) ^ 2) l) = m2 * (m4 * m2 - m3 ^ 2 - m2 ^ 3)).
  { transitivity (mean (map (fun x => (m2 ^ 2 * (x - m) ^ 4 + - (2 * m2 * m3) * (x - m) ^ 3) + ((m3 ^ 2 - 2 * m2 ^ 3) * (x - m) ^ 2 + (2 * m3 * m2 ^ 2 * (x - m) + m2 ^ 4))) l)).
    f_equal. apply map_ext. intros. ring.
    rewrite !mean_plus, !mean_scal, mean_const by trivial. 
    change (mean (map (fun x => (x - m) ^ 4) l)) with m4. change (mean (map (fun x => (x - m) ^ 3) l)) with m3.
    change (mean (map (fun x => (x - m) ^ 2) l)) with m2. change (mean (map (fun x => x - m) l)) with (mean (map (fun x => x - mean l) l)).
    rewrite mean_dev0 by trivial. ring. }
  rewrite E in Q. destruct (Req_dec m2 0) as [Z|Z].
  - assert (m3 = 0).
    { unfold m3, moment. transitivity (mean (map (fun _ : R => 0) l)); [|now apply mean_const]. f_equal. apply map_ext_in. intros x Hx.
      assert (S0 : sumsqs (dev l) = 0). { rewrite dev_sumsqs. unfold m2 in Z. rewrite moment2_ssq in Z. pose proof (len_pos l H). apply Rmult_eq_reg_r with (/ len l). unfold Rdiv in Z. lra. apply Rinv_neq_0_compat. lra. }
      assert (D : x - mean l = 0) by (apply (sumsqs_zero _ S0); unfold dev; apply in_map_iff; now exists x). rewrite D. ring. }
    rewrite Z, H0. simpl. lra.
  - assert (0 < m2) by lra. assert (0 <= m4 * m2 - m3 ^ 2 - m2 ^ 3); [|lra]. apply Rmult_le_reg_l with m2; lra.
Qed.
Lemma moment2_pos l : l <> [] -> 0 < ssq l -> 0 < moment 2 l.
Proof. intros H S. rewrite moment2_ssq. apply Rdiv_lt_0_compat; trivial. now apply len_pos. Qed.
Lemma kurt_skew l : l <> [] -> 0 < ssq l -> 1 + skewness l ^ 2 <= kurt l.
Proof.
  intros H S. pose proof (moment2_pos l H S) as P. pose proof (pearson_inequality l H) as Q. unfold skewness, kurt. set (m2 := moment 2 l) in *.
  assert (E : (moment 3 l / sqrt m2 ^ 3) ^ 2 = moment 3 l ^ 2 / m2 ^ 3).
  { replace (m2 ^ 3) with ((sqrt m2 * sqrt m2) ^ 3) by (now rewrite sqrt_sqrt by lra). pose proof (sqrt_lt_R0 _ P). field. lra. }
  rewrite E. apply Rmult_le_reg_r with (m2 ^ 3). now apply pow_lt. replace ((1 + moment 3 l ^ 2 / m2 ^ 3) * m2 ^ 3) with (m2 ^ 3 + moment 3 l ^ 2) by (field; lra).
  replace (moment 4 l / m2 ^ 2 * m2 ^ 3) with (moment 4 l * m2) by (field; lra). lra.
Qed.
Lemma dh_alpha_pos n b : 8 <= n -> 0 < dh_alpha n b.
Proof.
  intros H. unfold dh_alpha. assert (D : 0 < 6 * ((n - 3) * (n + 1) * (n ^ 2 + 15 * n - 4))).
  { apply Rmult_lt_0_compat; [lra|]. repeat apply Rmult_lt_0_compat; nra. }
  assert (0 < (n - 2) * (n + 5) * (n + 7) * (n ^ 2 + 27 * n - 70) / (6 * ((n - 3) * (n + 1) * (n ^ 2 + 15 * n - 4)))).
  { apply Rdiv_lt_0_compat; trivial. repeat apply Rmult_lt_0_compat; nra. }
  assert (0 < (n - 7) * (n + 5) * (n + 7) * (n ^ 2 + 2 * n - 5) / (6 * ((n - 3) * (n + 1) * (n ^ 2 + 15 * n - 4)))).
  { apply Rdiv_lt_0_compat; trivial. repeat apply Rmult_lt_0_compat; nra. }
  pose proof (pow2_ge_0 b). assert (0 <= b ^ 2 * ((n - 7) * (n + 5) * (n + 7) * (n ^ 2 + 2 * n - 5) / (6 * ((n - 3) * (n + 1) * (n ^ 2 + 15 * n - 4))))) by (apply Rmult_le_pos; lra). lra.
Qed.
Lemma dh_q_nonneg n b k : 8 <= n -> 1 + b ^ 2 <= k -> 0 <= dh_q n b k.
Proof.
  intros H Hk. unfold dh_q. apply Rmult_le_pos; [lra|]. left.
  apply Rdiv_lt_0_compat.
  - assert (Q : 0 < n ^ 3 + 37 * n ^ 2 + 11 * n - 313) by (simpl; nra). apply Rmult_lt_0_compat; trivial. apply Rmult_lt_0_compat; lra.
  - apply Rmult_lt_0_compat; [lra|]. repeat apply Rmult_lt_0_compat; nra.
Qed.
Lemma dh_fin l : NoDup l -> (8 <= length l)%nat -> fin (dh l).
Proof.
  intros Hd Hn. unfold dh. cbv zeta. rewrite (proj2 (Nat.eqb_neq _ 2)), (proj2 (Nat.eqb_neq _ 7)) by lia. rewrite (proj2 (Nat.ltb_ge _ _) Hn). cbn [orb].
  assert (L : 8 <= INR (length l)) by (apply (le_INR 8) in Hn; simpl in Hn; lra).
  assert (S : 0 < ssq l) by (apply nodup_ssq; trivial; lia). pose proof (kurt_skew l ltac:(apply (ne_of_len l 0); lia) S).
  apply num_fin. rewrite varying_pos by trivial. cbn [andb]. apply Rleb_true. pose proof (dh_alpha_pos (INR (length l)) (skewness l) L).
  pose proof (dh_q_nonneg (INR (length l)) (skewness l) (kurt l) L H). apply Rmult_le_pos; [lra|]. left. now apply Rinv_0_lt_compat.
Qed.

(** ** median and absolute deviations *)
Lemma nodup_zeros (q : R -> bool) l (k : list R) : NoDup l -> (forall x, In x l -> q x = true -> In x k) -> (length (filter q l) <= length k)%nat.
Proof.
  intros Hd H. apply NoDup_incl_length. now apply NoDup_filter. intros x Hx. apply filter_In in Hx as [H1 H2]. auto.
Qed.
Lemma count_zeros_sorted s : sortedR s -> (forall x, In x s -> 0 <= x) -> (2 <= length s)%nat -> nth 1 s 0 = 0 -> (2 <= length (filter (fun v => Reqb v 0) s))%nat.
Proof.
  intros Hs Hp Hl H. destruct s as [|a [|b s]]; simpl in Hl; try lia. simpl in H. subst b.
  assert (a = 0). { apply sorted_cons_inv in Hs as [_ Hs]. pose proof (Hs 0 ltac:(now left)). pose proof (Hp a ltac:(now left)). lra. }
  subst a. cbn [filter]. rewrite !(proj2 (Reqb_true 0 0)) by reflexivity. simpl. lia.
Qed.
Lemma filter_map_len {A B} (f : A -> B) (q : B -> bool) l : length (filter q (map f l)) = length (filter (fun x => q (f x)) l).
Proof. induction l as [|a l IH]; trivial. cbn [map filter]. destruct (q (f a)); simpl; congruence. Qed.
Lemma filter_perm_length {A} (q : A -> bool) l l' : Permutation l l' -> length (filter q l) = length (filter q l').
Proof. induction 1; simpl; repeat (destruct (q _)); simpl; congruence || lia. Qed.
Lemma mad_median_pos c l : NoDup l -> (4 <= length l)%nat -> 0 < median (map Rabs (map (fun x => x - c) l)).
Proof.
  intros Hd Hn. set (aux := map (fun x => x - c) l). assert (Hda : NoDup aux) by (now apply map_minus_nodup).
  set (s := rsort (map Rabs aux)). assert (Ls : length s = length l) by (unfold s, aux; now rewrite rsort_length, !map_length).
  assert (Hs : sortedR s) by apply rsort_sorted.
  assert (Hp : forall x, In x s -> 0 <= x). { intros x Hx. unfold s in Hx. rewrite rsort_in in Hx. apply in_map_iff in Hx as (y & <- & _). apply Rabs_pos. }
  assert (H1 : 0 < nth 1 s 0).
  { pose proof (Hp (nth 1 s 0) ltac:(apply nth_In; lia)). destruct (Req_dec (nth 1 s 0) 0) as [E|]; [|lra]. exfalso.
    pose proof (count_zeros_sorted s Hs Hp ltac:(lia) E) as C. unfold s in C. rewrite (filter_perm_length _ _ _ (rsort_perm _)) in C.
    rewrite filter_map_len in C.
    pose proof (nodup_zeros (fun d => Reqb (Rabs d) 0) aux [0] Hda) as Z. simpl in Z. assert ((length (filter (fun d => Reqb (Rabs d) 0) aux) <= 1)%nat); [|lia].
    apply Z. intros x _ Hx. apply Reqb_true in Hx. left. destruct (Req_dec x 0) as [->|N]; trivial. now apply Rabs_no_R0 in N. }
  assert (HP : forall i, (1 <= i < length s)%nat -> 0 < nth i s 0). { intros i Hi. pose proof (sorted_nth_le s 1 i 0 Hs ltac:(lia)). lra. }
  unfold median. fold s. assert (La : length (map Rabs aux) = length s) by (unfold aux; now rewrite !map_length). rewrite La.
  pose proof (Nat.div_mod (length s) 2 ltac:(lia)). pose proof (Nat.mod_upper_bound (length s) 2 ltac:(lia)).
  destruct (Nat.even (length s)) eqn:Ev.
  - pose proof (HP (length s / 2)%nat ltac:(lia)). pose proof (HP (length s / 2 - 1)%nat ltac:(lia)). lra.
  - apply HP. lia.
Qed.
Lemma mi_fin l : NoDup l -> (4 <= length l)%nat -> fin (mi l).
Proof.
  intros Hd Hn. unfold mi. cbv zeta. apply gt3_fin; [lia|]. apply num_fin. set (aux := map (fun x => x - median l) l).
  set (a := 9 * median (map Rabs aux)). assert (Pa : 0 < a) by (pose proof (mad_median_pos (median l) l Hd Hn); unfold a, aux; lra).
  rewrite (Reqb_pos a) by trivial. cbn [negb andb]. set (g := fun d => d ^ 2 * (1 - (d / a) ^ 2) ^ 4).
  assert (Hg : forall d, 0 <= g d). { intros d. unfold g. apply Rmult_le_pos. apply pow2_ge_0. replace ((1 - (d / a) ^ 2) ^ 4) with (((1 - (d / a) ^ 2) ^ 2) ^ 2) by ring. apply pow2_ge_0. }
  destruct (Reqb_spec (Rsum (map g aux)) 0) as [E|]; [|reflexivity]. exfalso.
  assert (Z : forall d, In d aux -> g d = 0). { intros d Hdd. apply (Rsum_zero (map g aux)); trivial. intros y Hy. apply in_map_iff in Hy as (z & <- & _). apply Hg. apply in_map_iff. now exists d. }
  assert (I : incl aux [0; a; - a]).
  { intros d Hi. specialize (Z d Hi). unfold g in Z. apply Rmult_integral in Z as [Z|Z]. left. nra.
    assert (Z1 : 1 - (d / a) ^ 2 = 0) by (destruct (Req_dec (1 - (d / a) ^ 2) 0) as [|N]; trivial; exfalso; now apply (pow_nonzero _ 4) in N).
    assert (Z2 : (a - d) * (a + d) = 0). { replace ((a - d) * (a + d)) with (a ^ 2 * (1 - (d / a) ^ 2)) by (field; lra). rewrite Z1. ring. }
    apply Rmult_integral in Z2 as [Z2|Z2]; simpl; [right; left | right; right; left]; lra. }
  pose proof (NoDup_incl_length (map_minus_nodup (median l) l Hd) I) as C. unfold aux in C. rewrite map_length in C. simpl in C. lia.
Qed.

(** ** slopes of the normal probability plot *)
Lemma dot_nth w x : length w = length x -> dot w x = Rsum (map (fun i => nth i w 0 * nth i x 0) (seq 0 (length x))).
Proof.
  intros L. rewrite <- (map_nth_seq w 0) at 1. rewrite L, dot_seq. apply Rsum_map_ext. intros i _. now rewrite Nat.sub_0_r.
Qed.
Lemma zq1_pos l : NoDup l -> (2 <= length l)%nat -> 0 < dot (zq_a (length l)) (rsort l).
Proof.
  intros Hd Hn. set (n := length l) in *. assert (La : length (zq_a n) = n) by (apply zq_a_length; lia).
  assert (T : forall i, (1 <= i < n)%nat -> 0 < nth i (zq_a n) 0).
  { intros i Hi. unfold zq_a. cbv zeta. destruct i as [|i]; [lia|]. cbn [nth]. rewrite <- (seq_middle (fun i => 1 / ((INR n - 1) * (nth i (scores 0.375 n) 0 - nth 0 (scores 0.375 n) 0)))).
    rewrite nth_map_seq by lia. apply Rdiv_lt_0_compat; [lra|]. apply Rmult_lt_0_compat. assert (2 <= INR n) by (now apply (le_INR 2)). lra.
    pose proof (scores_lt 0.375 n 0 (i + 1) ltac:(lra) ltac:(lia)). lra. }
  apply (weighted_pos (zq_a n) (rsort l) (nth 0 (rsort l) 0) 1); rewrite ?rsort_length; fold n; trivial.
  - apply zq_a_sum.
  - intros i Hi. destruct i as [|i]; [rewrite Rminus_diag_eq, Rmult_0_r by reflexivity; lra|]. pose proof (T (S i) ltac:(lia)). pose proof (nodup_nth_lt l 0 (S i) Hd ltac:(fold n; lia)). nra.
  - pose proof (T 1%nat ltac:(lia)). pose proof (nodup_nth_lt l 0 1 Hd ltac:(fold n; lia)). nra.
Qed.
Lemma zq2_pos l : NoDup l -> (8 <= length l)%nat -> 0 < dot (zq_b (length l)) (rsort l).
Proof.
  intros Hd Hn. set (n := length l) in *. set (x := fun i => nth i (rsort l) 0). set (u := fun i => nth i (scores 0.375 n) 0).
  set (c := fun i => 1 / ((INR n - 4) * (u (i + 4)%nat - u i))).
  assert (L8 : 8 <= INR n) by (apply (le_INR 8) in Hn; simpl in Hn; lra).
  assert (Hu : forall i j, (i < j < n)%nat -> u i < u j) by (intros; unfold u; apply scores_lt; [lra|lia]).
  assert (Su : forall j, (j < n)%nat -> u (n - 1 - j)%nat = - u j).
  { intros j Hj. unfold u. pose proof (antisym_nth (scores 0.375 n) j) as E. rewrite scores_length in E. apply E; trivial. apply scores_antisym. lra. }
  assert (Hc : forall i, (i + 4 < n)%nat -> 0 < c i). { intros i Hi. unfold c. apply Rdiv_lt_0_compat; [lra|]. apply Rmult_lt_0_compat; [lra|]. pose proof (Hu i (i + 4)%nat ltac:(lia)). lra. }
  set (b := fun i => nth i (zq_b n) 0).
  assert (B1 : forall i, (i < 4)%nat -> b i = - c i).
  { intros i Hi. unfold b, zq_b. cbv zeta. rewrite nth_map_seq by lia. rewrite (proj2 (Nat.ltb_lt i 4) Hi). fold (u i) (u (i + 4)%nat). unfold c. pose proof (Hu i (i + 4)%nat ltac:(lia)). field. lra. }
  assert (B3 : forall i, (n - 4 <= i < n)%nat -> b i = c (i - 4)%nat).
  { intros i Hi. unfold b, zq_b. cbv zeta. rewrite nth_map_seq by lia. rewrite (proj2 (Nat.ltb_ge i 4)) by lia. rewrite (proj2 (Nat.leb_le (n - 4) i)) by lia.
    fold (u (n - 1 - i)%nat) (u (n + 3 - i)%nat). replace (n + 3 - i)%nat with (n - 1 - (i - 4))%nat by lia. rewrite !Su by lia. unfold c. replace (i - 4 + 4)%nat with i by lia.
    pose proof (Hu (i - 4)%nat i ltac:(lia)). field. lra. }
  assert (B2 : forall i, (4 <= i < n - 4)%nat -> b i = c (i - 4)%nat - c i).
  { intros i Hi. unfold b, zq_b. cbv zeta. rewrite nth_map_seq by lia. rewrite (proj2 (Nat.ltb_ge i 4)) by lia. rewrite (proj2 (Nat.leb_gt (n - 4) i)) by lia.
    fold (u i) (u (i + 4)%nat) (u (i - 4)%nat). unfold c. replace (i - 4 + 4)%nat with i by lia.
    pose proof (Hu (i - 4)%nat i ltac:(lia)). pose proof (Hu i (i + 4)%nat ltac:(lia)). field. lra. }
  assert (E : dot (zq_b n) (rsort l) = Rsum (map (fun i => c i * (x (i + 4)%nat - x i)) (seq 0 (n - 4)))).
  { rewrite dot_nth by (now rewrite zq_b_length, rsort_length). rewrite rsort_length. fold n.
    transitivity (Rsum (map (fun i => b i * x i) (seq 0 n))); [reflexivity|].
    assert (S1 : Rsum (map (fun i => c i * x i) (seq 0 (n - 4))) = Rsum (map (fun i => (if (i <? n - 4)%nat then c i else 0) * x i) (seq 0 n))).
    { assert (Sn : seq 0 n = seq 0 (n - 4) ++ seq (0 + (n - 4)) 4) by (rewrite <- seq_app; f_equal; lia). rewrite Sn, map_app, Rsum_app.
      rewrite (Rsum_map_ext (fun i => (if (i <? n - 4)%nat then c i else 0) * x i) (fun i => c i * x i) (seq 0 (n - 4))).
      rewrite (Rsum_map_ext (fun i => (if (i <? n - 4)%nat then c i else 0) * x i) (fun i => 0) (seq (0 + (n - 4)) 4)). rewrite Rsum_map_const. ring.
      intros i Hi. apply in_seq in Hi. rewrite (proj2 (Nat.ltb_ge _ _)) by lia. ring. intros i Hi. apply in_seq in Hi. now rewrite (proj2 (Nat.ltb_lt _ _)) by lia. }
    assert (S2 : Rsum (map (fun i => c i * x (i + 4)%nat) (seq 0 (n - 4))) = Rsum (map (fun i => (if (i <? 4)%nat then 0 else c (i - 4)%nat) * x i) (seq 0 n))).
    { assert (Sn : seq 0 n = seq 0 4 ++ seq (0 + 4) (n - 4)) by (rewrite <- seq_app; f_equal; lia). rewrite Sn, map_app, Rsum_app.
      rewrite (Rsum_map_ext (fun i => (if (i <? 4)%nat then 0 else c (i - 4)%nat) * x i) (fun i => 0) (seq 0 4)).
      rewrite Rsum_map_const. rewrite Rmult_0_r, Rplus_0_l, Nat.add_0_l. rewrite <- (seq_middle (fun i => (if (i <? 4)%nat then 0 else c (i - 4)%nat) * x i)). apply Rsum_map_ext. intros i Hi.
      rewrite (proj2 (Nat.ltb_ge _ _)) by lia. now replace (i + 4 - 4)%nat with i by lia.
      intros i Hi. apply in_seq in Hi. rewrite (proj2 (Nat.ltb_lt _ _)) by lia. ring. }
    rewrite (Rsum_map_ext (fun i => c i * (x (i + 4)%nat - x i)) (fun i => c i * x (i + 4)%nat - c i * x i)) by (intros; ring).
    rewrite Rsum_map_minus, S1, S2, <- Rsum_map_minus. apply Rsum_map_ext. intros i Hi. apply in_seq in Hi.
    destruct (Nat.ltb_spec i 4). rewrite B1, (proj2 (Nat.ltb_lt i (n - 4))) by lia. ring.
    destruct (Nat.ltb_spec i (n - 4)). rewrite B2 by lia. ring. rewrite B3 by lia. ring. }
  rewrite E. assert (forall i, (i + 4 < n)%nat -> 0 < c i * (x (i + 4)%nat - x i)).
  { intros i Hi. apply Rmult_lt_0_compat; auto. pose proof (nodup_nth_lt l i (i + 4) Hd ltac:(fold n; lia)). unfold x. lra. }
  replace (n - 4)%nat with (S (n - 5)) by lia. cbn [seq map Rsum].
  assert (0 <= Rsum (map (fun i => c i * (x (i + 4)%nat - x i)) (seq 1 (n - 5)))).
  { apply Rsum_map_nonneg. intros i Hi. apply in_seq in Hi. left. apply H. lia. }
  pose proof (H 0%nat ltac:(lia)). lra.
Qed.
Lemma zq_fin l : NoDup l -> (8 <= length l)%nat -> fin (zq l).
Proof.
  intros Hd Hn. unfold zq. cbv zeta. apply gt3_fin; [lia|]. rewrite (proj2 (Nat.ltb_ge _ _) Hn). unfold log_ratio. apply num_fin.
  pose proof (zq1_pos l Hd ltac:(lia)). pose proof (zq2_pos l Hd Hn). rewrite Reqb_pos by trivial. cbn [negb andb]. apply Rltb_true. now apply Rdiv_lt_0_compat.
Qed.
Lemma zqs_fin l : NoDup l -> (8 <= length l)%nat -> fin (zqs l).
Proof. intros Hd Hn. rewrite <- zq_neg. apply zq_fin. now apply neg_nodup. now rewrite neg_length. Qed.

(** ** the weights of the regression on normal scores *)
Lemma wrg_norm_pos n : (2 <= n)%nat -> 0 < sumsqs (wrg_star n).
Proof.
  intros Hn. pose proof (sumsqs_nonneg (wrg_star n)). destruct (Req_dec (sumsqs (wrg_star n)) 0) as [E|]; [|lra]. exfalso.
  assert (L2 : 2 <= INR n) by (now apply (le_INR 2)).
  assert (Z : forall k, (1 <= k <= n)%nat -> wrg_term n (k - 1) - 2 * wrg_term n k + wrg_term n (k + 1) = 0).
  { intros k Hk. assert (I : In (- ((INR n + 1) * (INR n + 2)) * norm_pdf (norm_ppf (INR k / (INR n + 1))) * (wrg_term n (k - 1) - 2 * wrg_term n k + wrg_term n (k + 1))) (wrg_star n)).
    { unfold wrg_star. apply (in_map (fun k => - ((INR n + 1) * (INR n + 2)) * norm_pdf (norm_ppf (INR k / (INR n + 1))) * (wrg_term n (k - 1) - 2 * wrg_term n k + wrg_term n (k + 1)))). apply in_seq. lia. }
    apply (sumsqs_zero _ E) in I. apply Rmult_integral in I as [I|I]; trivial. exfalso.
    pose proof (norm_pdf_pos (norm_ppf (INR k / (INR n + 1)))). apply Rmult_integral in I as [I|I]; [nra|lra]. }
  assert (T : forall k, (k <= n)%nat -> wrg_term n k = INR k * wrg_term n 1 /\ wrg_term n (S k) = INR (S k) * wrg_term n 1).
  { induction k as [|k IH]; intros Hk. split. change (wrg_term n 0) with 0. simpl. ring. simpl. ring.
    destruct (IH ltac:(lia)) as [I1 I2]. split; trivial. pose proof (Z (S k) ltac:(lia)) as Q. replace (S k - 1)%nat with k in Q by lia. replace (S k + 1)%nat with (S (S k)) in Q by lia.
    rewrite I1, I2 in Q. rewrite !S_INR in *. lra. }
  destruct (T n ltac:(lia)) as [_ T2]. assert (N : wrg_term n (S n) = 0).
  { unfold wrg_term. rewrite (proj2 (Nat.ltb_lt n (S n))) by lia. now rewrite orb_true_r. }
  rewrite N in T2. assert (W : wrg_term n 1 < 0).
  { unfold wrg_term. rewrite (proj2 (Nat.ltb_ge n 1)) by lia. simpl Nat.eqb. cbn [orb]. simpl (INR 1).
    assert (norm_ppf (1 / (INR n + 1)) < 0).
    { apply norm_ppf_neg. split. apply Rdiv_lt_0_compat; lra. apply Rmult_lt_reg_r with (INR n + 1); [lra|]. field_simplify; lra. }
    pose proof (norm_pdf_pos (norm_ppf (1 / (INR n + 1)))). nra. }
  rewrite S_INR in T2. nra.
Qed.
Lemma swrg_fin l : NoDup l -> (4 <= length l)%nat -> fin (swrg l).
Proof.
  intros Hd Hn. unfold swrg. cbv zeta. apply gt3_fin; [lia|]. apply num_fin. rewrite nodup_varying by (trivial; lia). fold (sumsqs (wrg_star (length l))).
  pose proof (wrg_norm_pos (length l) ltac:(lia)). now rewrite Reqb_pos.
Qed.

(** ** the remaining statistics *)
Lemma ad_norm_fin l : NoDup l -> (2 <= length l)%nat -> fin (ad_norm l).
Proof.
  intros Hd Hn. unfold ad_norm. rewrite match_ne by (now apply (ne_of_len l 0); lia). rewrite nodup_varying by trivial.
  destruct (ad_fin (map norm_cdf (zscores (sd1 l) (rsort l)))) as [v ->]. intros p Hp. apply in_map_iff in Hp as (y & <- & _). apply norm_cdf_bounds. now exists v.
Qed.
Lemma lillie_fin l : NoDup l -> (2 <= length l)%nat -> fin (lillie_norm l).
Proof.
  intros Hd Hn. unfold lillie_norm. rewrite match_ne by (now apply (ne_of_len l 0); lia). rewrite nodup_varying by trivial. apply ks_fin.
  apply (ne_of_len _ 0). rewrite map_length, rsort_length. unfold zscores. rewrite map_length. lia.
Qed.
Lemma skew_fin l : NoDup l -> (8 <= length l)%nat -> fin (skew_norm l).
Proof.
  intros Hd Hn. unfold skew_norm, skew_test. rewrite rsort_length, (proj2 (Nat.ltb_ge _ _) Hn). cbv zeta.
  rewrite (nodup_varying (rsort l)) by (try (now apply rsort_nodup); rewrite rsort_length; lia). eexists. reflexivity.
Qed.
Lemma kurtosis_fin l : NoDup l -> (5 <= length l)%nat -> (fin (kurtosis_norm l) <-> ku_denom (len l) (kurt l) <> 0).
Proof.
  intros Hd Hn. unfold kurtosis_norm, kurtosis_test. rewrite rsort_length, (proj2 (Nat.ltb_ge _ _) Hn). cbv zeta.
  rewrite (nodup_varying (rsort l)) by (try (now apply rsort_nodup); rewrite rsort_length; lia). cbn [andb some_num bind].
  rewrite (kurt_perm (rsort l) l (rsort_perm l)). replace (len (rsort l)) with (len l) by (unfold len; now rewrite rsort_length).
  destruct (Reqb_spec (ku_denom (len l) (kurt l)) 0) as [E|E]; cbn [negb]; split; trivial.
  - intros [v Q]. discriminate.
  - intros N. easy.
  - intros _. eexists; reflexivity.
Qed.
Lemma dap_fin l : NoDup l -> (8 <= length l)%nat -> (fin (dap_norm l) <-> ku_denom (len l) (kurt l) <> 0).
Proof.
  intros Hd Hn. rewrite <- (kurtosis_fin l) by (trivial; lia). unfold dap_norm. destruct (skew_fin l Hd Hn) as [s Es]. unfold skew_norm, some_num in Es.
  destruct (skew_test (rsort l)) as [sv|]; [|discriminate]. cbn [bind] in *. injection Es as ->. unfold kurtosis_norm, some_num.
  destruct (kurtosis_test (rsort l)) as [k|e]; cbn [bind]. destruct k as [k|]; split; intros [v Q]; try discriminate; eexists; reflexivity.
  split; intros [v Q]; discriminate.
Qed.
Lemma rjb_fin l : NoDup l -> (2 <= length l)%nat -> fin (rjb l).
Proof.
  intros Hd Hn. unfold rjb. cbv zeta. apply num_fin. assert (Hne : l <> []) by (apply (ne_of_len l 0); lia).
  assert (0 < sqrt (PI / 2) * mean_abs_dev (median l) l).
  { apply Rmult_lt_0_compat. apply sqrt_lt_R0. pose proof PI_RGT_0. lra. apply (mad_pos 1 Rlt_0_1); trivial. now apply nodup_ssq. }
  rewrite Reqb_pos by trivial. destruct l; [easy|reflexivity].
Qed.
Lemma gmg_fin l : NoDup l -> (4 <= length l)%nat -> fin (gmg l).
Proof.
  intros Hd Hn. unfold gmg. cbv zeta. apply gt3_fin; [lia|]. apply num_fin. assert (Hne : l <> []) by (apply (ne_of_len l 0); lia).
  assert (0 < sqrt (PI / 2) * mean_abs_dev (median l) l).
  { apply Rmult_lt_0_compat. apply sqrt_lt_R0. pose proof PI_RGT_0. lra. apply (mad_pos 1 Rlt_0_1); trivial. apply nodup_ssq; trivial. lia. }
  now rewrite Reqb_pos.
Qed.
Lemma varying_fin l v : NoDup l -> (4 <= length l)%nat -> fin (gt3 l (num (varying l) v)).
Proof. intros Hd Hn. apply gt3_fin; [lia|]. apply num_fin. apply nodup_varying; trivial. lia. Qed.
Lemma sw_fin l : NoDup l -> (3 <= length l)%nat -> (fin (sw_norm l) <-> exists a, sw_coefficients (length l) = Ok (Some a)).
Proof.
  intros Hd Hn. unfold sw_norm. destruct (sw_coefficients_cases (length l) Hn) as [E | (w & E & _)]; rewrite E; cbn [bind].
  - split; intros [v Q]; discriminate.
  - rewrite (nodup_varying l) by (trivial; lia). split; intros _. now exists w. eexists; reflexivity.
Qed.
Lemma dldm_fin l : NoDup l -> (4 <= length l)%nat -> (fin (dldm l) <-> ~ In (mean l) l).
Proof.
  intros Hd Hn. unfold dldm. cbv zeta. unfold gt3. rewrite (proj2 (Nat.ltb_lt 3 (length l))) by lia. rewrite num_fin_iff. rewrite nodup_varying by (trivial; lia). cbn [andb].
  assert (Hne : l <> []) by (apply (ne_of_len l 0); lia).
  rewrite (sumsq_ssq l Hne). set (s := sqrt (ssq l / len l)).
  assert (Ps : 0 < s). { apply sqrt_lt_R0. apply Rdiv_lt_0_compat. apply nodup_ssq; trivial; lia. now apply len_pos. }
  rewrite forallb_forall. unfold zscores. split.
  - intros H I. specialize (H ((mean l - mean l) / s)). rewrite (proj2 (Reqb_true _ 0)) in H. simpl in H. discriminate H. apply (in_map (fun x => (x - mean l) / s)); trivial. unfold Rdiv. rewrite Rminus_diag_eq by reflexivity. ring.
  - intros H y Hy. apply in_map_iff in Hy as (x & <- & Hx). destruct (Reqb_spec ((x - mean l) / s) 0) as [E|]; trivial. exfalso. apply H. replace (mean l) with x; trivial.
    apply Rmult_integral in E as [E|E]. lra. now apply Rinv_neq_0_compat in E; [|lra].
Qed.
