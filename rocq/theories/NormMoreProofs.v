(** Proofs about the form of the remaining normality statistics. *)
From Coquelicot Require Import Coquelicot.
From Verif Require Import Base Analysis DecModel EdfModel EdfSpec GraphModel RegistryModel NormalLaw ExpModel NormModel NormRangeSpec NormFormSpec DetailSpec NormMoreSpec EdfProofs EdfRotProofs ExpProofs NormProofs NormSymProofs NormAffProofs NormReflProofs NormRangeProofs NormFiniteProofs NormBoundProofs NormFormProofs NormDist2Proofs NormClaims NormTestProofs DetailClaims.
From Coq Require Import Lra Lia.
Local Open Scope R_scope.

(** ** correlations *)
Lemma pearsonr_correlation x y v : length x = length y -> pearsonr x y = Ok (Some (Fin v)) -> v = correlation x y.
Proof.
  intros L. unfold pearsonr. destruct (length x <? 2)%nat; [discriminate|]. intros E. apply num_inv in E as [_ ->]. unfold correlation. f_equal. symmetry. apply sqrt_mult; apply ssq_nonneg.
Qed.
Lemma correlation_sym x y : correlation x y = correlation y x.
Proof.
  unfold correlation. rewrite (Rmult_comm (square_sum x)). f_equal. generalize (mean x), (mean y). intros a b. revert y. induction x as [|u x IH]; intros [|w y]; trivial.
  cbn [combine map fst snd Rsum]. rewrite IH. ring.
Qed.
Lemma map_seq_shift {A} (f : nat -> A) n : map f (seq 1 n) = map (fun i => f (S i)) (seq 0 n).
Proof. rewrite <- seq_shift, map_map. reflexivity. Qed.
Lemma filli_positions n : filli_medians n = map (filliben_median n) (seq 1 n).
Proof.
  rewrite map_seq_shift. unfold filli_medians. apply map_ext_in. intros i Hi. apply in_seq in Hi. unfold filliben_median.
  replace (S i =? n)%nat with (i =? n - 1)%nat by (destruct (Nat.eqb_spec i (n - 1)), (Nat.eqb_spec (S i) n); trivial; lia).
  replace (S i =? 1)%nat with (i =? 0)%nat by reflexivity. replace 0.5 with (1 / 2) by lra. reflexivity.
Qed.
Lemma plotting_positions al n : plotting al n = map (position al n) (seq 1 n).
Proof. rewrite map_seq_shift. unfold plotting, position. apply map_ext. intros i. f_equal. ring. Qed.
Lemma combine_map_seq {A} (x : list R) (f : nat -> A) : combine x (map f (seq 0 (length x))) = map (fun i => (nth i x 0, f i)) (seq 0 (length x)).
Proof.
  revert f. induction x as [|a x IH]; intros f; trivial. cbn [length seq map combine nth]. f_equal. rewrite <- seq_shift, !map_map. apply (IH (fun i => f (S i))).
Qed.
Lemma filter_map_comm {A B} (p : B -> bool) (f : A -> B) l : filter p (map f l) = map f (filter (fun x => p (f x)) l).
Proof. induction l as [|x l IH]; trivial. cbn [map filter]. rewrite IH. now destruct (p (f x)). Qed.
Lemma tie_positions al l : tie_averaged (rsort l) (plotting al (length l)) = map (shared_position al l) (rsort l).
Proof.
  unfold tie_averaged. apply map_ext. intros v. unfold shared_position. f_equal.
  rewrite <- (rsort_length l) at 1. unfold plotting. rewrite combine_map_seq. rewrite rsort_length. rewrite filter_map_comm, map_map. cbn [snd fst].
  rewrite <- (seq_shift _ 0), filter_map_comm, map_map. rewrite (filter_ext (fun x => Reqb (nth (S x - 1) (rsort l) 0) v) (fun i => Reqb (nth i (rsort l) 0) v)) by (intros i; do 2 f_equal; lia).
  apply map_ext. intros i. unfold position. f_equal. ring.
Qed.
Lemma filli_form l v : filli_norm l = Ok (Some (Fin v)) -> v = correlation (rsort l) (map (fun i => norm_ppf (filliben_median (length l) i)) (seq 1 (length l))).
Proof.
  unfold filli_norm. destruct l as [|x l]; [discriminate|]. set (s := x :: l). rewrite filli_positions, map_map. apply pearsonr_correlation. now rewrite rsort_length, map_length, seq_length.
Qed.
Lemma rj_form al l v : (rj_norm false al l = Ok (Some (Fin v)) -> v = correlation (rsort l) (map (fun i => norm_ppf (position al (length l) i)) (seq 1 (length l)))) /\
  (rj_norm true al l = Ok (Some (Fin v)) -> v = correlation (rsort l) (map (fun x => norm_ppf (shared_position al l x)) (rsort l))).
Proof.
  unfold rj_norm. cbv zeta. rewrite tie_positions, plotting_positions, !map_map. split; intros E; rewrite correlation_sym; revert E; apply pearsonr_correlation; rewrite !map_length; trivial.
  now rewrite seq_length, rsort_length.
Qed.
Lemma blom_position al n i : al = 3 / 8 -> norm_ppf (position al n (S i)) = blom n i.
Proof. intros ->. unfold position, blom. do 2 f_equal. lra. Qed.
(** squared normalised linear combination with antisymmetric weights *)
Lemma correlation_antisym w x : w <> [] -> length w = length x -> antisym w -> 0 <= ssq x -> correlation x w ^ 2 = dot w x ^ 2 / (ssq x * sumsqs w).
Proof.
  intros Hw L A _. unfold correlation. rewrite pearson_dot by easy. rewrite (antisym_dev w Hw A), dot_comm, dot_dev by (trivial; now apply antisym_sum).
  change (square_sum x) with (ssq x). change (square_sum w) with (ssq w). rewrite <- (dev_sumsqs w), (antisym_dev w Hw A). pose proof (ssq_nonneg x). pose proof (sumsqs_nonneg w).
  unfold Rdiv. rewrite Rpow_mult_distr. f_equal. rewrite pow_inv, <- Rsqr_pow2, Rsqr_sqrt; trivial. now apply Rmult_le_pos.
Qed.
Lemma sf_form l v : sf_norm l = Ok (Some (Fin v)) -> v = correlation (rsort l) (map (blom (length l)) (seq 0 (length l))) ^ 2.
Proof.
  unfold sf_norm. cbv zeta. intros E. apply num_inv in E as [V ->]. apply andb_true_iff in V as [V _]. apply varying_iff in V.
  assert (NE : l <> []) by (intros ->; unfold ssq in V; simpl in V; lra).
  assert (S : scores 0.375 (length l) = map (blom (length l)) (seq 0 (length l))).
  { unfold scores. rewrite plotting_positions, map_map, map_seq_shift. apply map_ext. intros i. apply blom_position. lra. }
  rewrite <- S. rewrite correlation_antisym.
  - fold (neg (scores 0.375 (length l))). rewrite dot_neg_l. rewrite ssq_rsort, neg_sumsq. fold (sumsqs (scores 0.375 (length l))). unfold Rdiv. ring.
  - intros Z. apply NE. apply length_zero_iff_nil. rewrite <- (scores_length 0.375 (length l)), Z. reflexivity.
  - now rewrite scores_length, rsort_length.
  - apply scores_antisym. lra.
  - apply ssq_nonneg.
Qed.
Lemma wrg_weights n : wrg_star n = map (rg_weight n) (seq 1 n).
Proof.
  unfold wrg_star. apply map_ext_in. intros k Hk. apply in_seq in Hk. unfold rg_weight.
  assert (T : forall j, wrg_term n j = rg_product n j).
  { intros j. unfold wrg_term, rg_product, rg_quantile. rewrite plus_INR. simpl (INR 1). destruct j as [|j]; trivial. change (1 <=? S j)%nat with true. change (S j =? 0)%nat with false. cbn [orb andb].
    destruct (Nat.ltb_spec n (S j)), (Nat.leb_spec (S j) n); try reflexivity; lia. }
  rewrite !T. unfold rg_quantile. rewrite !plus_INR. change (INR 1) with 1. change (INR 2) with (1 + 1). replace (1 + 1) with 2 by ring. ring.
Qed.
Lemma swrg_form l v : swrg l = Ok (Some (Fin v)) -> v = correlation (rsort l) (map (rg_weight (length l)) (seq 1 (length l))) ^ 2.
Proof.
  unfold swrg. cbv zeta. intros E. apply gt3_inv in E as [L E]. apply num_inv in E as [V ->]. apply andb_true_iff in V as [V W]. apply varying_iff in V.
  rewrite <- wrg_weights. set (w := wrg_star (length l)) in *. fold (sumsqs w) in *. apply negb_true_iff, Reqb_false in W. pose proof (sumsqs_nonneg w) as P. assert (Q : 0 < sumsqs w) by lra.
  rewrite correlation_antisym.
  - rewrite ssq_rsort. rewrite (map_ext _ (fun x => / sqrt (sumsqs w) * x)) by (intros; unfold Rdiv; ring). rewrite dot_scal_l, Rpow_mult_distr, pow_inv, <- Rsqr_pow2, Rsqr_sqrt by lra. field. lra.
  - intros Z. unfold w in Z. apply (f_equal (@length R)) in Z. rewrite wrg_star_length in Z. simpl in Z. lia.
  - unfold w. now rewrite wrg_star_length, rsort_length.
  - apply wrg_star_antisym.
  - apply ssq_nonneg.
Qed.

(** ** sums of squares of two transformed moments *)
Lemma dap_form l v : dap_norm l = Ok (Some (Fin v)) -> exists s k, skew_norm l = Ok (Some (Fin s)) /\ kurtosis_norm l = Ok (Some (Fin k)) /\ v = s ^ 2 + k ^ 2.
Proof.
  unfold dap_norm, skew_norm, kurtosis_norm. destruct (skew_test (rsort l)) as [[s|]|]; try discriminate.
  - destruct (kurtosis_test (rsort l)) as [[k|]|]; try discriminate. intros E. apply num_inv in E as [_ ->]. exists s, k. repeat split. ring.
  - destruct (kurtosis_test (rsort l)) as [[k|]|]; discriminate.
Qed.
Lemma dh_form l v : dh l = Ok (Some (Fin v)) -> let n := len l in let b1 := sample_skewness l in
  exists c, 0 <= c /\ c ^ 3 = hansen_chi n (b1 ^ 2) (sample_kurtosis l) / (2 * hansen_alpha n (b1 ^ 2)) /\
    v = dagostino n (skewness_score n b1) ^ 2 + ((c - 1 + 1 / (9 * hansen_alpha n (b1 ^ 2))) * sqrt (9 * hansen_alpha n (b1 ^ 2))) ^ 2.
Proof.
  unfold dh. cbv zeta. destruct (_ || _) eqn:Z; [discriminate|]. destruct (Nat.ltb_spec (length l) 8) as [|H8]; [discriminate|]. fold (@len R l).
  intros E. apply num_inv in E as [V ->]. apply andb_true_iff in V as [V W]. apply varying_iff in V. assert (NE : l <> []) by (intros ->; simpl in H8; lia).
  pose proof (len8 l H8) as N. rewrite <- (skewness_sample l NE V), <- kurt_sample.
  assert (A : dh_alpha (len l) (skewness l) = hansen_alpha (len l) (skewness l ^ 2)) by (unfold dh_alpha, hansen_alpha; cbv zeta; reflexivity).
  assert (Q : dh_q (len l) (skewness l) (kurt l) = hansen_chi (len l) (skewness l ^ 2) (kurt l)) by (unfold dh_q, hansen_chi; cbv zeta; unfold hansen_delta; ring).
  rewrite A, Q in W. unfold dh_z2. cbv zeta. rewrite A, Q. set (al := hansen_alpha _ _) in *. set (ch := hansen_chi _ _ _) in *.
  replace (0.5 * ch / al) with (ch / (2 * al)) in *.
  2: { unfold Rdiv. rewrite Rinv_mult. lra. }
  set (u := ch / (2 * al)) in *. assert (U : 0 <= u) by (destruct (Rleb_spec 0 u); [trivial|discriminate]).
  exists (np_pow u (1 / 3)). unfold np_pow. destruct (Reqb_spec u 0) as [Z0|Z0].
  - split; [lra|]. split; [rewrite Z0; simpl; ring|]. f_equal. f_equal. rewrite sk_z_dagostino by trivial. f_equal. unfold sk_y, skewness_score, Rdiv at 2. f_equal. rewrite <- sqrt_inv. f_equal. field. repeat split; lra.
  - split; [left; apply exp_pos|]. split.
    + rewrite <- Rpower_pow by apply exp_pos. rewrite Rpower_mult. replace (1 / 3 * INR 3) with 1 by (simpl; field). apply Rpower_1. lra.
    + f_equal. f_equal. rewrite sk_z_dagostino by trivial. f_equal. unfold sk_y, skewness_score. unfold Rdiv at 2. f_equal. rewrite <- sqrt_inv. f_equal. field. repeat split; lra.
Qed.

(** ** Spiegelhalter *)
Lemma stirling_scale n : (2 <= n)%nat ->
  Rpower (2 * PI) (1 / (2 * (INR n - 1))) * Rpower (INR n * sqrt (INR n) / exp 1) (1 / (INR n - 1)) / (2 * exp 1) = spiegelhalter_scale n (stirling n).
Proof.
  intros H. assert (N : 2 <= INR n) by (apply (le_INR 2); lia). set (x := INR n) in *. pose proof PI_RGT_0 as P. assert (S0 : 0 < sqrt x) by (apply sqrt_lt_R0; lra).
  assert (LS : forall y, 0 < y -> ln (sqrt y) = ln y / 2).
  { intros y Hy. assert (0 < sqrt y) by (now apply sqrt_lt_R0). rewrite <- (sqrt_sqrt y) at 2 by lra. rewrite ln_mult by trivial. lra. }
  pose proof (exp_pos 1) as E1. unfold spiegelhalter_scale, stirling. fold x.
  assert (Lst : ln (sqrt (2 * PI * x) * Rpower (x / exp 1) x) = ln (2 * PI) / 2 + ln x / 2 + x * (ln x - 1)).
  { rewrite ln_mult; [|apply sqrt_lt_R0; apply Rmult_lt_0_compat; lra|apply exp_pos]. rewrite LS by (apply Rmult_lt_0_compat; lra). rewrite ln_mult by lra. unfold Rpower. rewrite ln_exp.
    rewrite ln_div, ln_exp by lra. lra. }
  assert (Ln : ln (x * sqrt x / exp 1) = ln x + ln x / 2 - 1).
  { rewrite ln_div, ln_exp by (trivial; apply Rmult_lt_0_compat; lra). rewrite ln_mult, LS by lra. lra. }
  unfold Rpower at 1 2 3. rewrite Lst, Ln. apply (Rmult_eq_reg_r (2 * exp 1 * x)); [|apply Rgt_not_eq; repeat apply Rmult_lt_0_compat; lra].
  replace (exp (1 / (2 * (x - 1)) * ln (2 * PI)) * exp (1 / (x - 1) * (ln x + ln x / 2 - 1)) / (2 * exp 1) * (2 * exp 1 * x))
    with (exp (1 / (2 * (x - 1)) * ln (2 * PI)) * exp (1 / (x - 1) * (ln x + ln x / 2 - 1)) * x) by (field; lra).
  match goal with |- _ = exp ?t / _ * _ => replace (exp t / (2 * x) * (2 * exp 1 * x)) with (exp t * exp 1) by (field; lra) end.
  match goal with |- ?u * x = _ => transitivity (u * exp (ln x)); [now rewrite exp_ln by lra|] end. rewrite <- !exp_plus. f_equal. field. lra.
Qed.
Lemma sh_form l hi lo v : sh l = Ok (Some (Fin v)) -> In hi l -> In lo l -> (forall x, In x l -> lo <= x <= hi) ->
  let n := length l in let s := sample_sd l in
  let c := spiegelhalter_scale n (if (n <? 150)%nat then INR (fact n) else stirling n) in
  let u := (hi - lo) / s in let g := Rsum (map (fun x => Rabs (x - mean l)) l) / (s * sqrt (INR n * (INR n - 1))) in
  v = Rpower (/ (c * u) ^ (n - 1) + / g ^ (n - 1)) (1 / (INR n - 1)).
Proof.
  unfold sh. cbv zeta. intros E Hh Hl B. apply gt3_inv in E as [L E]. apply num_inv in E as [V ->].
  rewrite (Rmaxl_unique 0 l hi), (Rminl_unique 0 l lo) by (trivial; intros x Hx; apply B, Hx). change (sd1 l) with (sample_sd l).
  assert (C : sh_cn (length l) = spiegelhalter_scale (length l) (if (length l <? 150)%nat then INR (fact (length l)) else stirling (length l))).
  { unfold sh_cn. destruct (length l <? 150)%nat. unfold spiegelhalter_scale. assert (0 < INR (length l)) by (apply lt_0_INR; lia). replace 0.5 with (/ 2) by lra. field. lra. apply stirling_scale. lia. }
  rewrite C. do 4 f_equal. unfold Rdiv. f_equal. f_equal. assert (4 <= INR (length l)) by (replace 4 with (INR 4) by (simpl; lra); apply le_INR; lia). rewrite Rmult_assoc. f_equal. symmetry. apply sqrt_mult; lra.
Qed.

(** ** Martinez-Iglewicz *)
Lemma median_middle l : l <> [] -> median l = middle l.
Proof.
  intros NE. unfold median, middle. assert (H : (1 <= length l)%nat) by (destruct l; [easy|simpl; lia]).
  pose proof (Nat.div_mod (length l) 2 ltac:(lia)) as D. pose proof (Nat.mod_upper_bound (length l) 2 ltac:(lia)). destruct (Nat.even (length l)) eqn:E.
  - apply Nat.even_spec in E as (k & E). assert (length l / 2 = k)%nat by lia. assert ((length l - 1) / 2 = k - 1)%nat. { symmetry. apply Nat.div_unique with 1%nat; lia. } rewrite H1, H2. lra.
  - assert (O : Nat.odd (length l) = true) by (now rewrite <- Nat.negb_even, E). apply Nat.odd_spec in O as (k & O). assert (length l / 2 = k)%nat by lia.
    assert ((length l - 1) / 2 = k)%nat. { symmetry. apply Nat.div_unique with 0%nat; lia. } rewrite H1, H2. lra.
Qed.
Lemma mi_value l v : mi l = Ok (Some (Fin v)) -> (3 < length l)%nat /\ nine_mad l <> 0 /\ v = biweight_ratio (len l) (middle l) (nine_mad l) l l.
Proof.
  unfold mi. cbv zeta. intros E. apply gt3_inv in E as [L E]. split; trivial. assert (NE : l <> []) by (intros ->; simpl in L; lia). apply num_inv in E as [V ->].
  apply andb_true_iff in V as [V1 V2]. apply negb_true_iff, Reqb_false in V1. apply negb_true_iff, Reqb_false in V2.
  rewrite (median_middle l NE) in *. assert (NE2 : map Rabs (map (fun x => x - middle l) l) <> []) by (intros Z; apply map_eq_nil, map_eq_nil in Z; easy). rewrite (median_middle _ NE2) in *.
  assert (A : middle (map Rabs (map (fun x => x - middle l) l)) = middle (map (fun x => Rabs (x - middle l)) l)) by (now rewrite map_map).
  rewrite A in *. change (9 * middle (map (fun x => Rabs (x - middle l)) l)) with (nine_mad l) in *. split; trivial. rewrite !map_map in *.
  unfold biweight_ratio. set (t1 := Rsum (map (fun x => (x - middle l) ^ 2 * (1 - ((x - middle l) / nine_mad l) ^ 2) ^ 4) l)) in *.
  set (t2 := Rsum (map (fun x => (1 - ((x - middle l) / nine_mad l) ^ 2) * (1 - 5 * ((x - middle l) / nine_mad l) ^ 2)) l)) in *.
  destruct (Reqb_spec t2 0) as [Z|Z]. rewrite Z. unfold Rdiv. simpl. ring.
  unfold Rdiv. rewrite !Rinv_mult, Rinv_inv. ring.
Qed.
Lemma mi_intro l : (3 < length l)%nat -> 0 < nine_mad l -> 0 < Rsum (map (fun x => (x - middle l) ^ 2 * (1 - ((x - middle l) / nine_mad l) ^ 2) ^ 4) l) ->
  mi l = Ok (Some (Fin (biweight_ratio (len l) (middle l) (nine_mad l) l l))).
Proof.
  intros L A T. assert (NE : l <> []) by (intros ->; simpl in L; lia). assert (exists v, mi l = Ok (Some (Fin v))) as (v & E).
  { unfold mi. cbv zeta. unfold gt3. destruct (Nat.ltb_spec 3 (length l)); [|lia]. rewrite (median_middle l NE) in *. rewrite median_middle. 2: { intros Z. apply map_eq_nil, map_eq_nil in Z. easy. }
    rewrite !map_map. change (9 * middle (map (fun x => Rabs (x - middle l)) l)) with (nine_mad l). unfold num.
    destruct (Reqb_spec (nine_mad l) 0); [lra|]. cbn [negb andb]. match goal with |- context [Reqb ?t 0] => destruct (Reqb_spec t 0) as [Z|Z] end. lra. cbn [negb]. eexists. reflexivity. }
  rewrite E. now rewrite (proj2 (proj2 (mi_value l v E))).
Qed.
Lemma filter_all {A} (p : A -> bool) l : (forall x, In x l -> p x = true) -> filter p l = l.
Proof. induction l as [|x l IH]; intros H; trivial. cbn [filter]. rewrite (H x) by (now left). f_equal. apply IH. intros y Hy. apply H. now right. Qed.
Lemma mi_published l v : mi l = Ok (Some (Fin v)) -> (forall x, In x l -> Rabs (x - middle l) < nine_mad l) -> v = martinez_iglewicz l.
Proof.
  intros E H. apply mi_value in E as (L & A & ->). unfold martinez_iglewicz. rewrite filter_all; trivial. intros x Hx. specialize (H x Hx). destruct (Rltb_spec (Rabs ((x - middle l) / nine_mad l)) 1) as [|B]; trivial.
  exfalso. pose proof (Rabs_pos (x - middle l)). assert (P : 0 < nine_mad l) by lra. unfold Rdiv in B. rewrite Rabs_mult, (Rabs_pos_eq (/ nine_mad l)) in B by (left; now apply Rinv_0_lt_compat).
  apply (Rmult_le_compat_r (nine_mad l)) in B; [|lra]. rewrite Rmult_assoc, Rinv_l in B by lra. lra.
Qed.
(** one observation far above the others *)
Lemma rsort_top x l : (forall z, In z l -> z <= x) -> rsort (x :: l) = (rsort l ++ [x])%list.
Proof.
  intros H. apply rsort_unique.
  - transitivity (x :: rsort l); [apply perm_skip, Permutation_sym, rsort_perm|apply Permutation_cons_append].
  - apply sorted_snoc. split; [apply rsort_sorted|]. intros z Hz. apply H, rsort_in, Hz.
Qed.
Lemma middle_top l : (2 <= length l)%nat -> exists m, forall x, (forall z, In z l -> z <= x) -> middle (x :: l) = m.
Proof.
  intros L. exists ((nth (length l / 2) (rsort l) 0 + nth (S (length l) / 2) (rsort l) 0) / 2). intros x H. unfold middle. rewrite (rsort_top x l H).
  pose proof (Nat.div_mod (length l) 2 ltac:(lia)). pose proof (Nat.mod_upper_bound (length l) 2 ltac:(lia)).
  pose proof (Nat.div_mod (S (length l)) 2 ltac:(lia)). pose proof (Nat.mod_upper_bound (S (length l)) 2 ltac:(lia)).
  cbn [length]. rewrite Nat.sub_succ, Nat.sub_0_r. rewrite !app_nth1 by (rewrite rsort_length; lia). reflexivity.
Qed.
Lemma continuous_ratio (s t1 t2 k c : R) : 0 < k -> c <> 0 ->
  forall eps, 0 < eps -> exists del, 0 < del /\ forall w, Rabs w < del ->
    Rabs ((s * w + 1) * (t2 * w ^ 2 + (w - k) * (w - 5 * k)) ^ 2 / (c * (t1 * w ^ 5 + (w - k) ^ 4)) - 25 / c) < eps.
Proof.
  intros K C eps He. set (f := fun w => (s * w + 1) * (t2 * w ^ 2 + (w - k) * (w - 5 * k)) ^ 2 / (c * (t1 * w ^ 5 + (w - k) ^ 4))).
  assert (D : c * (t1 * 0 ^ 5 + (0 - k) ^ 4) <> 0). { replace (t1 * 0 ^ 5 + (0 - k) ^ 4) with (k ^ 4) by ring. apply Rmult_integral_contrapositive. split; [easy|]. apply pow_nonzero. lra. }
  assert (CT : continuous f 0). { apply (ex_derive_continuous f). unfold f. auto_derive. exact D. }
  assert (F0 : f 0 = 25 / c). { unfold f. field. split; [easy|lra]. }
  unfold continuous in CT. pose proof (proj1 (filterlim_locally f (f 0)) CT (mkposreal eps He)) as (del & Hd). exists del. split; [apply cond_pos|]. intros w Hw. rewrite <- F0. apply (Hd w).
  change (Rabs (w - 0) < del). now rewrite Rminus_0_r.
Qed.
Lemma ratio_algebra s t1 t2 a d n n1 : a <> 0 -> d <> 0 -> n <> 0 -> n1 <> 0 -> d ^ 2 * (1 - (d / a) ^ 2) ^ 4 + t1 <> 0 ->
  (s * / d ^ 2 + 1) * (t2 * (/ d ^ 2) ^ 2 + (/ d ^ 2 - / a ^ 2) * (/ d ^ 2 - 5 * / a ^ 2)) ^ 2 / (n * n1 * (t1 * (/ d ^ 2) ^ 5 + (/ d ^ 2 - / a ^ 2) ^ 4)) =
  (d ^ 2 + s) / n1 * ((1 - (d / a) ^ 2) * (1 - 5 * (d / a) ^ 2) + t2) ^ 2 / (n * (d ^ 2 * (1 - (d / a) ^ 2) ^ 4 + t1)).
Proof.
  intros Ha Hd Hn Hn1 HP. set (P := d ^ 2 * (1 - (d / a) ^ 2) ^ 4 + t1) in *. set (T := (1 - (d / a) ^ 2) * (1 - 5 * (d / a) ^ 2) + t2).
  replace (t1 * (/ d ^ 2) ^ 5 + (/ d ^ 2 - / a ^ 2) ^ 4) with (P / d ^ 10) by (unfold P; field; auto).
  replace (t2 * (/ d ^ 2) ^ 2 + (/ d ^ 2 - / a ^ 2) * (/ d ^ 2 - 5 * / a ^ 2)) with (T / d ^ 4) by (unfold T; field; auto).
  clearbody P T. field. repeat split; trivial.
Qed.
Lemma mi_outlier l eps : (3 <= length l)%nat -> NoDup l -> 0 < eps ->
  exists K, forall x, K < x -> exists v, mi (x :: l) = Ok (Some (Fin v)) /\ Rabs (v - 25 / (INR (length l + 1) * INR (length l))) < eps.
Proof.
  intros L ND He. destruct (middle_top l ltac:(lia)) as (m & Hm). destruct (middle_top (map (fun z => Rabs (z - m)) l)) as (b & Hb); [rewrite map_length; lia|].
  set (top := Rmaxl 0 l). set (top2 := Rmaxl 0 (map (fun z => Rabs (z - m)) l)).
  assert (T : forall x, Rmax top (top2 + m) < x -> middle (x :: l) = m /\ nine_mad (x :: l) = 9 * b).
  { intros x Hx. assert (Hx1 : top < x) by (eapply Rle_lt_trans; [apply Rmax_l|exact Hx]). assert (Hx2 : top2 + m < x) by (eapply Rle_lt_trans; [apply Rmax_r|exact Hx]).
    assert (M : middle (x :: l) = m) by (apply Hm; intros z Hz; pose proof (Rmaxl_ge 0 l z Hz); unfold top in Hx1; lra). split; trivial. unfold nine_mad. rewrite M. f_equal. cbn [map]. apply Hb.
    intros z Hz. pose proof (Rmaxl_ge 0 _ z Hz) as G. fold top2 in G. pose proof (Rle_abs (x - m)). lra. }
  set (a := 9 * b). assert (A : 0 < a).
  { set (x := Rmax top (top2 + m) + 1). destruct (T x ltac:(unfold x; lra)) as [T1 T2]. unfold a. rewrite <- T2. unfold nine_mad. rewrite T1. rewrite <- median_middle by discriminate.
    pose proof (mad_median_pos m (x :: l)) as P. rewrite map_map in P. assert (0 < median (map (fun z => Rabs (z - m)) (x :: l))); [|lra]. apply P; [|simpl; lia]. constructor; trivial. intros I.
    pose proof (Rmaxl_ge 0 l x I). fold top in H. pose proof (Rmax_l top (top2 + m)). unfold x in *. lra. }
  set (n := INR (length l + 1)). set (n1 := INR (length l)). assert (N1 : 3 <= n1) by (unfold n1; replace 3 with (INR 3) by (simpl; lra); apply le_INR; lia).
  assert (Nn : n = n1 + 1) by (unfold n, n1; rewrite plus_INR; reflexivity).
  set (s3 := Rsum (map (fun x => (x - m) ^ 2) l)). set (t2 := Rsum (map (fun x => (1 - ((x - m) / a) ^ 2) * (1 - 5 * ((x - m) / a) ^ 2)) l)).
  set (t1 := Rsum (map (fun x => (x - m) ^ 2 * (1 - ((x - m) / a) ^ 2) ^ 4) l)).
  assert (P1 : 0 <= t1). { apply Rsum_nonneg. intros y Hy. apply in_map_iff in Hy as (z & <- & _). apply Rmult_le_pos. apply pow2_ge_0. replace ((1 - ((z - m) / a) ^ 2) ^ 4) with (((1 - ((z - m) / a) ^ 2) ^ 2) ^ 2) by ring. apply pow2_ge_0. }
  destruct (continuous_ratio s3 t1 t2 (/ a ^ 2) (n * n1)) with (eps := eps) as (del & Hd & C); trivial. { apply Rinv_0_lt_compat, pow_lt, A. } { apply Rmult_integral_contrapositive. split; lra. }
  exists (Rmax (Rmax top (top2 + m)) (Rmax (m + a) (m + (1 + / del)))). intros x Hx.
  assert (X1 : Rmax top (top2 + m) < x) by (eapply Rle_lt_trans; [apply Rmax_l|exact Hx]). assert (X2 : Rmax (m + a) (m + (1 + / del)) < x) by (eapply Rle_lt_trans; [apply Rmax_r|exact Hx]).
  assert (X3 : m + a < x) by (eapply Rle_lt_trans; [apply Rmax_l|exact X2]). assert (X4 : m + (1 + / del) < x) by (eapply Rle_lt_trans; [apply Rmax_r|exact X2]). destruct (T x X1) as [M Q]. fold a in Q.
  set (d := x - m). assert (D : a < d) by (unfold d; lra). assert (D2 : 1 + / del < d) by (unfold d; lra). pose proof (Rinv_0_lt_compat del Hd) as ID.
  assert (Z : (1 - (d / a) ^ 2) <> 0). { assert (1 < d / a) by (apply (Rmult_lt_reg_r a); trivial; unfold Rdiv; rewrite Rmult_assoc, Rinv_l; lra). nra. }
  assert (P4 : 0 < d ^ 2 * (1 - (d / a) ^ 2) ^ 4). { apply Rmult_lt_0_compat. apply pow_lt; lra. replace ((1 - (d / a) ^ 2) ^ 4) with (((1 - (d / a) ^ 2) ^ 2) ^ 2) by ring. apply pow_lt. pose proof (pow2_ge_0 (1 - (d / a) ^ 2)). assert ((1 - (d / a) ^ 2) ^ 2 <> 0) by (now apply pow_nonzero). lra. }
  eexists. split.
  - apply mi_intro; [simpl; lia|rewrite Q; exact A|]. rewrite M, Q. cbn [map Rsum]. fold d. fold t1. lra.
  - rewrite M, Q. unfold biweight_ratio. cbn [map Rsum]. fold d. fold s3 t1 t2. replace (len (x :: l)) with n by (unfold len, n; cbn [length]; f_equal; lia). replace (n - 1) with n1 by lra.
    assert (W : 0 < / d ^ 2 < del).
    { assert (0 < d ^ 2) by (apply pow_lt; lra). split. now apply Rinv_0_lt_compat. rewrite <- (Rinv_inv del). apply Rinv_lt_contravar. apply Rmult_lt_0_compat; lra. nra. }
    specialize (C (/ d ^ 2)). rewrite Rabs_pos_eq in C by lra. specialize (C (proj2 W)).
    match goal with |- Rabs (?u - _) < _ => match type of C with Rabs (?w - _) < _ => replace u with w; [exact C|] end end.
    assert (P5 : 0 < d ^ 2 * (1 - (d / a) ^ 2) ^ 4 + t1) by lra. clearbody d a n n1 s3 t1 t2. apply ratio_algebra; lra.
Qed.
