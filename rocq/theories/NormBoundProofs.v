(** Bounds for the normality statistics. *)
From Verif Require Import Base DecModel EdfModel EdfSpec GraphModel NormalLaw ExpModel ExpSpec NormModel EdfProofs ExpProofs ExpRangeProofs NormProofs NormSymProofs NormAffProofs NormReflProofs NormRangeProofs NormFiniteProofs EdfClaims.
From Coq Require Import Lra Lia.

(** ** the median minimises the mean absolute deviation *)
Lemma half_bounds (n : nat) : (2 * (n / 2) <= n < 2 * (n / 2) + 2)%nat.
Proof. pose proof (Nat.div_mod n 2 ltac:(lia)). pose proof (Nat.mod_upper_bound n 2 ltac:(lia)). lia. Qed.
Lemma even_half (n : nat) : Nat.even n = true -> (2 * (n / 2) = n)%nat.
Proof. intros H. apply Nat.even_spec in H as [k ->]. rewrite (Nat.mul_comm 2 k), Nat.div_mul; lia. Qed.
Lemma odd_half (n : nat) : Nat.even n = false -> (2 * (n / 2) + 1 = n)%nat.
Proof.
  intros H. pose proof (half_bounds n). destruct (Nat.eq_dec (2 * (n / 2)) n) as [E|E]; [|lia]. rewrite <- E in H. rewrite Nat.even_mul in H. discriminate.
Qed.
Lemma median_between l i : (2 * i < length l)%nat -> nth i (rsort l) 0 <= median l <= nth (length l - 1 - i) (rsort l) 0.
Proof.
  intros Hi. set (n := length l) in *. pose proof (rsort_sorted l) as Hs. assert (Ls : length (rsort l) = n) by apply rsort_length.
  assert (M : forall a b, (a <= b < n)%nat -> nth a (rsort l) 0 <= nth b (rsort l) 0) by (intros; apply sorted_nth_le; trivial; lia).
  unfold median. fold n. cbv zeta. pose proof (half_bounds n). destruct (Nat.even n) eqn:E.
  - apply even_half in E. pose proof (M i (n / 2 - 1)%nat ltac:(lia)). pose proof (M (n / 2 - 1)%nat (n / 2)%nat ltac:(lia)). pose proof (M (n / 2)%nat (n - 1 - i)%nat ltac:(lia)). lra.
  - apply odd_half in E. pose proof (M i (n / 2)%nat ltac:(lia)). pose proof (M (n / 2)%nat (n - 1 - i)%nat ltac:(lia)). lra.
Qed.
Lemma abs_dev_pairs c l : 2 * Rsum (map (fun x => Rabs (x - c)) l)
  = Rsum (map (fun i => Rabs (nth i (rsort l) 0 - c) + Rabs (nth (length l - 1 - i) (rsort l) 0 - c)) (seq 0 (length l))).
Proof.
  rewrite Rsum_map_plus. assert (E : Rsum (map (fun x => Rabs (x - c)) l) = Rsum (map (fun i => Rabs (nth i (rsort l) 0 - c)) (seq 0 (length l)))).
  { rewrite (Rsum_map_perm _ l (rsort l)) by (symmetry; apply rsort_perm). rewrite <- (map_nth_seq (rsort l) 0) at 1. now rewrite map_map, rsort_length. }
  rewrite <- E. rewrite <- (rev_seq_map (fun i => Rabs (nth i (rsort l) 0 - c))), Rsum_rev, <- E. ring.
Qed.
Lemma median_minimises l c : Rsum (map (fun x => Rabs (x - median l)) l) <= Rsum (map (fun x => Rabs (x - c)) l).
Proof.
  apply Rmult_le_reg_l with 2; [lra|]. rewrite !abs_dev_pairs. set (n := length l). set (x := fun i => nth i (rsort l) 0).
  apply Rsum_map_le. intros i Hi. apply in_seq in Hi. fold (x i) (x (n - 1 - i)%nat).
  assert (B : forall j, (2 * j < n)%nat -> x j <= median l <= x (n - 1 - j)%nat) by (intros; now apply median_between).
  assert (Q : forall a b m, a <= m <= b -> Rabs (a - m) + Rabs (b - m) <= Rabs (a - c) + Rabs (b - c)).
  { intros a b m H. rewrite (Rabs_left1 (a - m)), (Rabs_right (b - m)) by lra. pose proof (Rle_abs (b - c)). pose proof (Rle_abs (- (a - c))). rewrite Rabs_Ropp in *. lra. }
  destruct (le_lt_dec n (2 * i)) as [h|h].
  - pose proof (B (n - 1 - i)%nat ltac:(lia)) as B'. replace (n - 1 - (n - 1 - i))%nat with i in B' by lia. rewrite (Rplus_comm (Rabs (x i - median l))), (Rplus_comm (Rabs (x i - c))). now apply Q.
  - apply Q. now apply B.
Qed.
Lemma mean_abs_dev_median l c : mean_abs_dev (median l) l <= mean_abs_dev c l.
Proof.
  destruct l as [|a l']; [unfold mean_abs_dev; cbn [map]; lra|]. set (l := a :: l'). unfold mean_abs_dev, mean, len. rewrite !map_length. apply Rmult_le_compat_r.
  left. apply Rinv_0_lt_compat. apply (len_pos l). discriminate. apply median_minimises.
Qed.
Lemma mean_sq_abs l c : l <> [] -> mean_abs_dev c l ^ 2 <= mean (map (fun x => (x - c) ^ 2) l).
Proof.
  intros H. set (m := mean_abs_dev c l). assert (Q : 0 <= mean (map (fun x => (Rabs (x - c) - m) ^ 2) l)) by (apply mean_nonneg; intros; apply pow2_ge_0).
  assert (E : mean (map (fun x => (Rabs (x - c) - m) ^ 2) l) = mean (map (fun x => (x - c) ^ 2) l) - m ^ 2).
  { transitivity (mean (map (fun x => (x - c) ^ 2 + (- (2 * m) * Rabs (x - c) + m ^ 2)) l)).
    f_equal. apply map_ext. intros x. rewrite <- (pow2_abs (x - c)). ring.
    rewrite !mean_plus, mean_scal, mean_const by trivial. fold (mean_abs_dev c l) m. ring. }
  lra.
Qed.
Lemma mad_le_sd l : l <> [] -> mean_abs_dev (mean l) l <= sqrt (np_var l).
Proof.
  intros H. pose proof (mean_sq_abs l (mean l) H). assert (0 <= mean_abs_dev (mean l) l) by (apply mean_nonneg; intros; apply Rabs_pos).
  rewrite <- (sqrt_pow2 (mean_abs_dev (mean l) l)) by trivial. now apply sqrt_le_1_alt.
Qed.
Lemma gmg_lower l v : gmg l = Ok (Some (Fin v)) -> sqrt (2 / PI) <= v.
Proof.
  unfold gmg. cbv zeta. unfold gt3. destruct (3 <? length l)%nat eqn:L; [|discriminate]. apply Nat.ltb_lt in L. assert (Hne : l <> []) by (apply (ne_of_len l 0); lia).
  set (d := mean_abs_dev (median l) l). unfold num. destruct (Reqb_spec (sqrt (PI / 2) * d) 0) as [|N]; [discriminate|]. cbn [negb]. intros E. getfin E.
  pose proof PI_RGT_0 as P. assert (S : 0 < sqrt (PI / 2)) by (apply sqrt_lt_R0; lra).
  assert (D0 : 0 <= d) by (apply mean_nonneg; intros; apply Rabs_pos). assert (D : 0 < d) by (destruct (Req_dec d 0) as [Z|]; [exfalso; apply N; rewrite Z; ring | lra]).
  assert (I : sqrt (2 / PI) = / sqrt (PI / 2)). { apply Rmult_eq_reg_r with (sqrt (PI / 2)); [|lra]. rewrite Rinv_l by lra. rewrite <- sqrt_mult_alt by (left; apply Rdiv_lt_0_compat; lra). replace (2 / PI * (PI / 2)) with 1 by (field; lra). apply sqrt_1. }
  rewrite I. assert (Q : d <= sqrt (np_var l)) by (apply Rle_trans with (mean_abs_dev (mean l) l); [apply mean_abs_dev_median | now apply mad_le_sd]).
  apply Rmult_le_reg_r with (sqrt (PI / 2) * d). now apply Rmult_lt_0_compat. unfold Rdiv. rewrite Rmult_assoc, Rinv_l by lra. rewrite <- Rmult_assoc, Rinv_l by lra. lra.
Qed.
Lemma bs_lower l v : bs l = Ok (Some (Fin v)) -> - (3 * sqrt (len l + 2) / 3.54) <= v.
Proof.
  unfold bs. cbv zeta. unfold gt3. destruct (3 <? length l)%nat eqn:L; [|discriminate]. apply Nat.ltb_lt in L. assert (Hne : l <> []) by (apply (ne_of_len l 0); lia).
  destruct (varying l) eqn:V; [|discriminate]. apply varying_true in V. unfold num. intros E. getfin E.
  assert (D : 0 < mean_abs_dev (mean l) l) by (now apply (mad_pos 1 Rlt_0_1)). pose proof (mad_le_sd l Hne) as M.
  assert (Q : 0 <= ln (sqrt (np_var l)) - ln (mean_abs_dev (mean l) l)). { destruct M as [M|M]. apply ln_increasing in M; trivial. lra. rewrite M. lra. }
  set (q := ln (sqrt (np_var l)) - ln (mean_abs_dev (mean l) l)) in *. pose proof (sqrt_pos (len l + 2)). 
  assert (0 <= sqrt (len l + 2) * q) by (now apply Rmult_le_pos). lra.
Qed.

(** ** nonnegative statistics *)
Lemma sq_sum_nonneg (a b : R) : 0 <= a ^ 2 + b ^ 2. Proof. pose proof (pow2_ge_0 a). pose proof (pow2_ge_0 b). lra. Qed.
Lemma hosking_constants_pos t n mu v3 v4 : hosking_constants t n = (mu, v3, v4) -> 0 < v3 /\ 0 < v4.
Proof.
  unfold hosking_constants, by_size. destruct t as [|[|[|t]]]; destruct (n <=? 25)%nat; try destruct (n <=? 50)%nat; intros E; injection E as <- <- <-; lra.
Qed.
Lemma hosking_value_nonneg mu v3 v4 l2 l3 l4 : 0 < v3 -> 0 < v4 -> 0 <= hosking_value mu v3 v4 l2 l3 l4.
Proof.
  intros H3 H4. unfold hosking_value. apply Rplus_le_le_0_compat; (apply Rmult_le_pos; [apply pow2_ge_0 | left; now apply Rinv_0_lt_compat]).
Qed.
Lemma hosking_value_zero mu v3 v4 l2 l3 l4 : 0 < v3 -> 0 < v4 -> (hosking_value mu v3 v4 l2 l3 l4 = 0 <-> l3 / l2 = 0 /\ l4 / l2 = mu).
Proof.
  intros H3 H4. unfold hosking_value. assert (A : forall x v, 0 < v -> 0 <= x ^ 2 / v /\ (x ^ 2 / v = 0 -> x = 0)).
  { intros x v Hv. pose proof (Rinv_0_lt_compat v Hv). pose proof (pow2_ge_0 x). split. now apply Rmult_le_pos; [|lra].
    intros E. apply Rmult_integral in E as [E|E]; [|lra]. nra. }
  destruct (A (l3 / l2) v3 H3) as [A1 A2]. destruct (A (l4 / l2 - mu) v4 H4) as [B1 B2]. split.
  - intros E. split. apply A2. lra. assert (l4 / l2 - mu = 0) by (apply B2; lra). lra.
  - intros [-> ->]. unfold Rdiv. ring.
Qed.
Lemma jb_nonneg l v : jb_norm l = Ok (Some (Fin v)) -> 0 <= v.
Proof.
  unfold jb_norm. destruct l as [|a l']; [discriminate|]. set (l := a :: l'). cbv zeta. unfold num. destruct (varying l); [|discriminate]. intros E. getfin E.
  pose proof (len_pos l ltac:(discriminate)). pose proof (pow2_ge_0 (skewness (map (fun x => x - mean l) l))). pose proof (pow2_ge_0 (kurt (map (fun x => x - mean l) l) - 3)).
  apply Rmult_le_pos; lra.
Qed.
Lemma dap_nonneg l v : dap_norm l = Ok (Some (Fin v)) -> 0 <= v.
Proof.
  unfold dap_norm. destruct (skew_test (rsort l)) as [s|]; [|discriminate]. destruct (kurtosis_test (rsort l)) as [k|]; [|discriminate]. cbn [bind].
  destruct s as [s|], k as [k|]; try discriminate. unfold num. intros E. getfin E. nra.
Qed.
Lemma gt3_inv l o v : gt3 l o = Ok (Some (Fin v)) -> (3 < length l)%nat /\ o = Ok (Some (Fin v)).
Proof. unfold gt3. destruct (Nat.ltb_spec 3 (length l)); [auto|discriminate]. Qed.
Lemma num_inv b x v : num b x = Ok (Some (Fin v)) -> b = true /\ v = x.
Proof. unfold num. destruct b; [|discriminate]. intros E. getfin E. auto. Qed.
Ltac nonneg_fin := intros E; try (apply gt3_inv in E as [? E]); apply num_inv in E as [? ->].
Lemma len_nonneg (l : list R) : 0 <= len l. Proof. apply pos_INR. Qed.
Lemma div_nonneg a b : 0 <= a -> 0 <= b -> 0 <= a / b.
Proof.
  intros Ha Hb. destruct (Req_dec b 0) as [->|]. unfold Rdiv. rewrite Rinv_0. lra. apply Rmult_le_pos; trivial. left. apply Rinv_0_lt_compat. lra.
Qed.
Lemma zwc_nonneg l v : zwc l = Ok (Some (Fin v)) -> 0 <= v.
Proof.
  unfold zwc. cbv zeta. nonneg_fin. apply Rsum_nonneg. intros x Hx. apply imap_in in Hx as (i & y & _ & ->). apply pow2_ge_0.
Qed.
Lemma dh_nonneg l v : dh l = Ok (Some (Fin v)) -> 0 <= v.
Proof.
  unfold dh. cbv zeta. destruct (_ || _); [discriminate|]. destruct (length l <? 8)%nat; [discriminate|]. nonneg_fin. apply sq_sum_nonneg.
Qed.
Lemma rjb_nonneg l v : rjb l = Ok (Some (Fin v)) -> 0 <= v.
Proof.
  unfold rjb. cbv zeta. nonneg_fin. pose proof (len_nonneg l). apply Rplus_le_le_0_compat; (apply Rmult_le_pos; [lra | apply pow2_ge_0]).
Qed.
Lemma bm1_nonneg l v : bm1 l = Ok (Some (Fin v)) -> 0 <= v.
Proof. unfold bm1. cbv zeta. nonneg_fin. apply div_nonneg. apply sq_sum_nonneg. apply len_nonneg. Qed.
Lemma bm2_nonneg l v : bm2 l = Ok (Some (Fin v)) -> 0 <= v.
Proof.
  unfold bm2. cbv zeta. nonneg_fin. apply div_nonneg. repeat apply Rplus_le_le_0_compat; apply pow2_ge_0. apply len_nonneg.
Qed.
Lemma mi_nonneg l v : mi l = Ok (Some (Fin v)) -> 0 <= v.
Proof.
  unfold mi. cbv zeta. nonneg_fin. match goal with |- 0 <= if ?b then _ else _ => destruct b; [lra|] end. assert (1 <= len l) by (apply (le_INR 1); lia).
  apply div_nonneg. apply div_nonneg; [|lra]. apply Rsum_map_nonneg. intros; apply pow2_ge_0.
  apply div_nonneg; [|apply pow2_ge_0]. apply Rmult_le_pos; [apply len_nonneg|]. apply Rsum_map_nonneg. intros d _. apply Rmult_le_pos. apply pow2_ge_0.
  set (q := 1 - _). replace (q ^ 4) with ((q ^ 2) ^ 2) by ring. apply pow2_ge_0.
Qed.
Lemma Rmaxl_nonneg l : (forall x, In x l -> 0 <= x) -> 0 <= Rmaxl 0 l.
Proof.
  intros H. destruct l as [|a l]; [simpl; lra|]. apply H. apply Rmaxl_in. discriminate.
Qed.
Lemma cc1_nonneg l v : cc1 l = Ok (Some (Fin v)) -> 0 <= v.
Proof. unfold cc1. cbv zeta. nonneg_fin. apply Rmaxl_nonneg. intros x Hx. apply in_map_iff in Hx as (y & <- & _). apply Rabs_pos. Qed.
Lemma cc2_nonneg l v : cc2 l = Ok (Some (Fin v)) -> 0 <= v.
Proof. unfold cc2. cbv zeta. nonneg_fin. apply Rmaxl_nonneg. intros x Hx. apply in_map_iff in Hx as (y & <- & _). apply Rabs_pos. Qed.
Lemma coin_nonneg l v : coin l = Ok (Some (Fin v)) -> 0 <= v.
Proof. unfold coin. cbv zeta. nonneg_fin. apply pow2_ge_0. Qed.
Lemma hosking_trimmed_nonneg t l v : hosking_trimmed t l = Ok (Some (Fin v)) -> 0 <= v.
Proof.
  unfold hosking_trimmed. cbv zeta. destruct (hosking_constants t (length l)) as [[mu v3] v4] eqn:Ec. apply hosking_constants_pos in Ec as [H3 H4]. nonneg_fin.
  now apply hosking_value_nonneg.
Qed.
Lemma hosking1_nonneg l v : hosking1 l = Ok (Some (Fin v)) -> 0 <= v.
Proof.
  unfold hosking1. intros E. apply gt3_inv in E as [_ E]. unfold pwm in E. cbv zeta in E. destruct (hosking_constants 0 (length l)) as [[mu v3] v4] eqn:Ec.
  apply hosking_constants_pos in Ec as [H3 H4]. apply num_inv in E as [_ ->]. now apply hosking_value_nonneg.
Qed.
Lemma hosking2_nonneg l v : hosking2 l = Ok (Some (Fin v)) -> 0 <= v.
Proof. unfold hosking2. destruct (3 <? length l)%nat. apply hosking_trimmed_nonneg. nonneg_fin. lra. Qed.
Lemma hosking3_nonneg l v : hosking3 l = Ok (Some (Fin v)) -> 0 <= v.
Proof. unfold hosking3. intros E. apply gt3_inv in E as [_ E]. now apply hosking_trimmed_nonneg in E. Qed.
Lemma hosking4_nonneg l v : hosking4 l = Ok (Some (Fin v)) -> 0 <= v.
Proof. unfold hosking4. intros E. apply gt3_inv in E as [_ E]. now apply hosking_trimmed_nonneg in E. Qed.

(** ** D'Agostino's D *)
Lemma centred_ranks_sumsqs n : 12 * sumsqs (map (fun i => INR (S i) - 0.5 * (INR n + 1)) (seq 0 n)) = INR n * (INR n ^ 2 - 1).
Proof.
  unfold sumsqs. rewrite map_map. rewrite (Rsum_map_ext (fun x => (INR (S x) - 0.5 * (INR n + 1)) ^ 2) (fun i => INR i * (INR i - 1) + ((2 - INR n) * INR i + (1 - INR n) ^ 2 / 4))).
  rewrite !Rsum_map_plus, Rsum_map_scal, Rsum_map_const, seq_length. rewrite sum_i, sum_i2. field.
  intros i _. rewrite S_INR. replace 0.5 with (1 / 2) by lra. field.
Qed.
Lemma dagostino_d_range l : (2 <= length l)%nat -> 0 < ssq l -> 0 <= dagostino_d l <= sqrt ((1 - / len l ^ 2) / 12).
Proof.
  intros Hn S. assert (Hne : l <> []) by (apply (ne_of_len l 0); lia). unfold dagostino_d. cbv zeta. set (n := len l). assert (Pn : 2 <= n) by (now apply (le_INR 2)).
  rewrite (imap_dot (fun i => INR (Datatypes.S i) - 0.5 * (n + 1))). rewrite rsort_length. set (w := map _ (seq 0 (length l))).
  assert (Lw : length w = length (rsort l)) by (unfold w; now rewrite map_length, seq_length, rsort_length).
  assert (Aw : antisym w). { apply antisym_seq. intros i Hi. rewrite !S_INR, INR_rev by trivial. unfold n, len. lra. }
  assert (Ew : Rsum (map (fun v => v ^ 2) (rsort l)) / n - (Rsum (rsort l) / n) ^ 2 = ssq l / n).
  { pose proof (sumsq_ssq (rsort l) ltac:(now apply rsort_ne)) as Q. rewrite ssq_rsort in Q. unfold mean, len in Q. rewrite rsort_length in Q. exact Q. }
  rewrite Ew. assert (Ss : 0 < sqrt (ssq l / n)) by (apply sqrt_lt_R0; apply Rdiv_lt_0_compat; lra).
  assert (D0 : 0 <= dot w (rsort l)).
  { rewrite <- (dot_dev w (rsort l) Lw (antisym_sum w Aw)). assert (Hw : w <> []) by (intros E; rewrite E, rsort_length in Lw; simpl in Lw; lia).
    rewrite <- (antisym_dev w Hw Aw). apply chebyshev_dev; trivial; [|apply rsort_sorted]. apply sorted_seq. intros i j Hij.
    assert (INR (Datatypes.S i) <= INR (Datatypes.S j)) by (apply le_INR; lia). lra. }
  assert (Dn : 0 < n ^ 2 * sqrt (ssq l / n)) by (apply Rmult_lt_0_compat; [apply pow_lt; lra | trivial]).
  split. apply div_nonneg; lra.
  pose proof (dot_ssq w (rsort l) Lw (antisym_sum w Aw)) as C. rewrite ssq_rsort in C. pose proof (centred_ranks_sumsqs (length l)) as R. fold (len l) in R. fold n w in R.
  assert (B : 0 <= (1 - / n ^ 2) / 12). { assert (/ n ^ 2 <= 1) by (rewrite <- Rinv_1; apply Rinv_le_contravar; [lra | nra]). lra. }
  apply Rsqr_incr_0_var; [|apply sqrt_pos]. unfold Rsqr. rewrite (sqrt_sqrt _ B).
  replace (dot w (rsort l) / (n ^ 2 * sqrt (ssq l / n)) * (dot w (rsort l) / (n ^ 2 * sqrt (ssq l / n)))) with (dot w (rsort l) ^ 2 / (n ^ 4 * (sqrt (ssq l / n) * sqrt (ssq l / n)))) by (field; lra).
  rewrite sqrt_sqrt by (apply div_nonneg; lra). apply Rmult_le_reg_r with (n ^ 4 * (ssq l / n)). apply Rmult_lt_0_compat; [apply pow_lt; lra | apply Rdiv_lt_0_compat; lra].
  unfold Rdiv at 1. rewrite Rmult_assoc, Rinv_l, Rmult_1_r. 2: { apply Rmult_integral_contrapositive_currified. apply pow_nonzero; lra. apply Rgt_not_eq. apply Rdiv_lt_0_compat; lra. }
  replace ((1 - / n ^ 2) / 12 * (n ^ 4 * (ssq l / n))) with (n * (n ^ 2 - 1) / 12 * ssq l) by (field; lra). replace (n * (n ^ 2 - 1) / 12) with (sumsqs w) by lra. exact C.
Qed.

(** ** Chen-Shapiro *)
Lemma diff_nonneg x : sortedR x -> forall d, In d (diff x) -> 0 <= d.
Proof.
  induction x as [|a x IH]; intros Hs d Hd; [destruct Hd|]. apply sorted_cons_inv in Hs as [Hs Ha]. destruct x as [|b x]; [destruct Hd|]. cbn [diff] in Hd. destruct Hd as [<-|Hd].
  pose proof (Ha b ltac:(now left)). lra. now apply IH.
Qed.
Lemma cs_upper l v : cs l = Ok (Some (Fin v)) -> v <= sqrt (len l).
Proof.
  unfold cs. cbv zeta. nonneg_fin. assert (1 < len l) by (apply (lt_INR 1); lia). pose proof (sqrt_pos (len l)).
  set (q := _ / ((len l - 1) * sd1 l)). assert (0 <= q).
  { unfold q. apply div_nonneg.
    - apply Rsum_map_nonneg. intros [a b] Hp. cbn [fst snd]. apply div_nonneg.
      apply in_combine_l in Hp. revert Hp. apply diff_nonneg, rsort_sorted. apply in_combine_r in Hp. revert Hp. apply diff_nonneg, scores_sorted. lra.
    - apply Rmult_le_pos; [lra | apply sqrt_pos]. }
  nra.
Qed.

(** ** distances of the empirical distribution function *)
Definition fitted_cdf (l : list R) (x : R) : R := norm_cdf ((x - mean l) / sd1 l).
Lemma norm_cdf_cdf : continuous_cdf norm_cdf.
Proof. split; [|split]. apply norm_cdf_le. intros x. pose proof (norm_cdf_bounds x). lra. apply norm_cdf_continuity. Qed.
Lemma sd1_pos l : (2 <= length l)%nat -> 0 < ssq l -> 0 < sd1 l.
Proof. intros Hn S. apply sqrt_lt_R0. apply Rdiv_lt_0_compat; trivial. assert (2 <= len l) by (now apply (le_INR 2)). lra. Qed.
Lemma fitted_cdf_cdf l : (2 <= length l)%nat -> 0 < ssq l -> continuous_cdf (fitted_cdf l).
Proof.
  intros Hn S. pose proof (sd1_pos l Hn S) as P. split; [|split].
  - intros x y H. apply norm_cdf_le. apply Rmult_le_compat_r; [left; now apply Rinv_0_lt_compat | lra].
  - intros x. unfold fitted_cdf. pose proof (norm_cdf_bounds ((x - mean l) / sd1 l)). lra.
  - unfold fitted_cdf. change (continuity (comp norm_cdf (fun x => (x - mean l) / sd1 l))). apply continuity_comp; [|apply norm_cdf_continuity].
    intros x. unfold Rdiv. reg.
Qed.
Lemma fitted_rsort l : (2 <= length l)%nat -> 0 < ssq l -> rsort (zscores (sd1 l) l) = zscores (sd1 l) (rsort l).
Proof.
  intros Hn S. pose proof (sd1_pos l Hn S) as P. unfold zscores. assert (M : mean (rsort l) = mean l) by (unfold mean, len; now rewrite (Rsum_perm _ _ (rsort_perm l)), rsort_length). rewrite M.
  apply (rsort_map_mono). intros x y H. apply Rmult_le_compat_r; [left; now apply Rinv_0_lt_compat | lra].
Qed.
Lemma fitted_vals l : (2 <= length l)%nat -> 0 < ssq l -> map norm_cdf (zscores (sd1 l) (rsort l)) = cdf_vals (fitted_cdf l) l.
Proof.
  intros Hn S. unfold cdf_vals, zscores. rewrite map_map. assert (M : mean (rsort l) = mean l) by (unfold mean, len; now rewrite (Rsum_perm _ _ (rsort_perm l)), rsort_length). now rewrite M.
Qed.
Lemma lillie_ks l : (2 <= length l)%nat -> 0 < ssq l -> lillie_norm l = lift (ks_stat (fitted_cdf l) TWO_TAILED l).
Proof.
  intros Hn S. unfold lillie_norm. rewrite match_ne by (apply (ne_of_len l 0); lia). rewrite varying_pos by trivial. rewrite fitted_rsort by trivial. now rewrite fitted_vals.
Qed.
Lemma ad_norm_ad l : (2 <= length l)%nat -> 0 < ssq l -> ad_norm l = Ok (Some (ad_stat (fitted_cdf l) l)).
Proof.
  intros Hn S. unfold ad_norm. rewrite match_ne by (apply (ne_of_len l 0); lia). rewrite varying_pos by trivial. now rewrite fitted_vals.
Qed.
