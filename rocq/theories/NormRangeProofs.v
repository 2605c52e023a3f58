(** Ranges and finiteness of the normality statistics. *)
From Verif Require Import Base DecModel EdfModel EdfSpec GraphModel NormalLaw ExpModel ExpSpec NormModel EdfProofs ExpProofs ExpRangeProofs NormProofs NormSymProofs NormAffProofs NormReflProofs.
From Coq Require Import Lra Lia.

(** ** Cauchy-Schwarz *)
Definition sumsqs (l : list R) : R := Rsum (map (fun x => x ^ 2) l).
Lemma sumsqs_nonneg l : 0 <= sumsqs l.
Proof. apply Rsum_map_nonneg. intros. apply pow2_ge_0. Qed.
Lemma sumsqs_zero l : sumsqs l = 0 -> forall x, In x l -> x = 0.
Proof.
  intros H x Hx. assert (x ^ 2 = 0); [|nra]. apply (Rsum_zero _) with (x := x ^ 2) in H; trivial.
  intros y Hy. apply in_map_iff in Hy as (z & <- & _). apply pow2_ge_0. apply in_map_iff. now exists x.
Qed.
Lemma dot_sq_expand t w : forall x, length w = length x ->
  Rsum (map (fun p => (t * fst p - snd p) ^ 2) (combine w x)) = t ^ 2 * sumsqs w - 2 * t * dot w x + sumsqs x.
Proof.
  unfold sumsqs, dot. induction w as [|a w IH]; intros [|b x] L; try discriminate; cbn [combine map Rsum fst snd]; [ring|].
  injection L as L. rewrite IH by trivial. ring.
Qed.
Lemma dot_cauchy w x : length w = length x -> dot w x ^ 2 <= sumsqs w * sumsqs x.
Proof.
  intros L. pose proof (sumsqs_nonneg w) as Hw. pose proof (sumsqs_nonneg x).
  assert (G : forall t, 0 <= t ^ 2 * sumsqs w - 2 * t * dot w x + sumsqs x).
  { intros t. rewrite <- dot_sq_expand by trivial. apply Rsum_map_nonneg. intros. apply pow2_ge_0. }
  destruct Hw as [Hw|Hw].
  - pose proof (G (dot w x / sumsqs w)) as Q. replace ((dot w x / sumsqs w) ^ 2 * sumsqs w - 2 * (dot w x / sumsqs w) * dot w x + sumsqs x)
      with (sumsqs x - dot w x ^ 2 / sumsqs w) in Q by (field; lra).
    apply Rmult_le_reg_r with (/ sumsqs w). now apply Rinv_0_lt_compat. fold (dot w x ^ 2 / sumsqs w).
    replace (sumsqs w * sumsqs x * / sumsqs w) with (sumsqs x) by (field; lra). lra.
  - rewrite <- Hw in *. assert (dot w x = 0).
    { destruct (Req_dec (dot w x) 0); trivial. pose proof (G ((sumsqs x + 1) / (2 * dot w x))) as Q.
      replace (2 * ((sumsqs x + 1) / (2 * dot w x)) * dot w x) with (sumsqs x + 1) in Q by (field; trivial). lra. }
    rewrite H0. simpl. lra.
Qed.
(** equality *)
Lemma dot_cauchy_eq w x : length w = length x -> 0 < sumsqs w -> dot w x ^ 2 = sumsqs w * sumsqs x ->
  x = map (fun v => dot w x / sumsqs w * v) w.
Proof.
  intros L Hw E. set (t := dot w x / sumsqs w).
  assert (Z : Rsum (map (fun p => (t * fst p - snd p) ^ 2) (combine w x)) = 0).
  { rewrite dot_sq_expand by trivial. unfold t. replace ((dot w x / sumsqs w) ^ 2 * sumsqs w - 2 * (dot w x / sumsqs w) * dot w x + sumsqs x)
      with (sumsqs x - dot w x ^ 2 / sumsqs w) by (field; lra). rewrite E. field. lra. }
  clearbody t. clear E Hw. revert x L Z. induction w as [|a w IH]; intros [|b x] L Z; try discriminate; trivial.
  cbn [combine map Rsum fst snd] in *. injection L as L. pose proof (pow2_ge_0 (t * a - b)).
  assert (0 <= Rsum (map (fun p => (t * fst p - snd p) ^ 2) (combine w x))) by (apply Rsum_map_nonneg; intros; apply pow2_ge_0).
  f_equal. nra. apply IH; trivial. lra.
Qed.
Definition dev (l : list R) : list R := map (fun x => x - mean l) l.
Lemma dev_length l : length (dev l) = length l. Proof. apply map_length. Qed.
Lemma dev_sumsqs l : sumsqs (dev l) = ssq l.
Proof. unfold sumsqs, dev, ssq. now rewrite map_map. Qed.
Lemma dot_dev w x : length w = length x -> Rsum w = 0 -> dot w (dev x) = dot w x.
Proof.
  intros L Hw. assert (E : dev x = aff (- mean x) 1 x) by (unfold dev, aff; apply map_ext; intros; ring).
  rewrite E, dot_aff by trivial. rewrite Hw. ring.
Qed.
Lemma dot_ssq w x : length w = length x -> Rsum w = 0 -> dot w x ^ 2 <= sumsqs w * ssq x.
Proof. intros L Hw. rewrite <- (dot_dev w x), <- dev_sumsqs by trivial. apply dot_cauchy. now rewrite dev_length. Qed.
Lemma ssq_rsort l : ssq (rsort l) = ssq l.
Proof. apply ssq_perm, rsort_perm. Qed.
Lemma ratio_01 a b : 0 < b -> 0 <= a <= b -> 0 <= a / b <= 1.
Proof.
  intros Hb H. split. apply Rmult_le_pos; [lra|]. left. now apply Rinv_0_lt_compat.
  apply Rmult_le_reg_r with b; trivial. unfold Rdiv. rewrite Rmult_assoc, Rinv_l; lra.
Qed.
Lemma pearson_dot x y : length x = length y -> Rsum (map (fun p => (fst p - mean x) * (snd p - mean y)) (combine x y)) = dot (dev x) (dev y).
Proof.
  unfold dot, dev. generalize (mean x), (mean y). intros mx my. revert y. induction x as [|a x IH]; intros [|b y] L; try discriminate; trivial.
  injection L as L. cbn [combine map Rsum fst snd]. now rewrite IH.
Qed.
Lemma varying_iff l : varying l = true <-> 0 < ssq l.
Proof. split. apply varying_true. apply varying_pos. Qed.
Lemma sqrt_ssq l : 0 < ssq l -> 0 < sqrt (ssq l) /\ sqrt (ssq l) * sqrt (ssq l) = ssq l.
Proof. intros H. split. now apply sqrt_lt_R0. apply sqrt_sqrt. lra. Qed.
Lemma abs_le_of_sq a b : 0 <= b -> a ^ 2 <= b ^ 2 -> - b <= a <= b.
Proof. intros Hb H. split; nra. Qed.
Lemma pearsonr_range x y v : length x = length y -> pearsonr x y = Ok (Some (Fin v)) -> -1 <= v <= 1.
Proof.
  intros L E. unfold pearsonr in E. destruct (length x <? 2)%nat; [discriminate|]. rewrite pearson_dot in E by trivial.
  unfold num in E. destruct (varying x && varying y) eqn:V; [|discriminate]. injection E as <-.
  apply andb_true_iff in V as [Vx Vy]. apply varying_true in Vx, Vy. destruct (sqrt_ssq _ Vx) as [Px Sx], (sqrt_ssq _ Vy) as [Py Sy].
  pose proof (dot_cauchy (dev x) (dev y)) as C. rewrite !dev_length, !dev_sumsqs in C. specialize (C L).
  set (d := dot (dev x) (dev y)) in *. assert (P : 0 < sqrt (ssq x) * sqrt (ssq y)) by (now apply Rmult_lt_0_compat).
  assert (- (sqrt (ssq x) * sqrt (ssq y)) <= d <= sqrt (ssq x) * sqrt (ssq y)).
  { apply abs_le_of_sq. lra. replace ((sqrt (ssq x) * sqrt (ssq y)) ^ 2) with ((sqrt (ssq x) * sqrt (ssq x)) * (sqrt (ssq y) * sqrt (ssq y))) by ring. now rewrite Sx, Sy. }
  apply div_bounds; lra.
Qed.
(** the correlation is one exactly for an increasing affine relation *)
Lemma pearsonr_one x y v : length x = length y -> pearsonr x y = Ok (Some (Fin v)) ->
  (v = 1 <-> exists a b, 0 < b /\ x = map (fun t => a + b * t) y).
Proof.
  intros L E. unfold pearsonr in E. destruct (Nat.ltb_spec (length x) 2) as [|Hn]; [discriminate|].
  rewrite pearson_dot in E by trivial.
  unfold num in E. destruct (varying x && varying y) eqn:V; [|discriminate]. injection E as <-.
  apply andb_true_iff in V as [Vx Vy]. apply varying_true in Vx, Vy. destruct (sqrt_ssq _ Vx) as [Px Sx], (sqrt_ssq _ Vy) as [Py Sy].
  assert (P : 0 < sqrt (ssq x) * sqrt (ssq y)) by (now apply Rmult_lt_0_compat).
  assert (Hy : y <> []) by (intros ->; rewrite L in Hn; simpl in Hn; lia).
  split.
  - intros H1. assert (D : dot (dev x) (dev y) = sqrt (ssq x) * sqrt (ssq y)).
    { apply Rmult_eq_reg_r with (/ (sqrt (ssq x) * sqrt (ssq y))). fold (dot (dev x) (dev y) / (sqrt (ssq x) * sqrt (ssq y))). rewrite H1, Rinv_r; lra. apply Rinv_neq_0_compat. lra. }
    pose proof (dot_cauchy_eq (dev y) (dev x)) as C. rewrite !dev_length, !dev_sumsqs, dot_comm, D in C.
    lapply C; [clear C; intros C | easy]. lapply C; [clear C; intros C | easy]. lapply C; [clear C; intros C|].
    2: { replace ((sqrt (ssq x) * sqrt (ssq y)) ^ 2) with ((sqrt (ssq x) * sqrt (ssq x)) * (sqrt (ssq y) * sqrt (ssq y))) by ring. rewrite Sx, Sy. ring. }
    set (t := sqrt (ssq x) * sqrt (ssq y) / ssq y) in *. exists (mean x - t * mean y), t. split. now apply Rdiv_lt_0_compat.
    clearbody t. revert C. unfold dev. generalize (mean x), (mean y). clear. intros mx my. revert y. induction x as [|a x IH]; intros [|b y] C; try discriminate; trivial.
    cbn [map] in *. injection C as C1 C2. f_equal. lra. now apply IH.
  - intros (a & b & Hb & ->). fold (aff a b y). assert (Ed : dev (aff a b y) = map (fun v => b * v) (dev y)).
    { unfold dev. rewrite aff_mean by trivial. unfold aff. rewrite !map_map. apply map_ext. intros; ring. }
    rewrite Ed, dot_scal_l, ssq_aff, sqrt_sq_scale by lra. replace (dot (dev y) (dev y)) with (ssq y).
    rewrite <- Sy at 1. field. lra.
    rewrite <- dev_sumsqs. unfold sumsqs, dot. generalize (dev y). clear. induction l as [|x l IH]; trivial. cbn [map combine Rsum fst snd]. rewrite IH. ring.
Qed.
(** Chebyshev: equally sorted lists are not negatively correlated *)
Lemma dev_sum l : l <> [] -> Rsum (dev l) = 0.
Proof. apply mean_dev_sum. Qed.
Lemma chebyshev_cross x0 y0 x : forall y, length x = length y -> (forall i, (i < length x)%nat -> 0 <= (nth i x 0 - x0) * (nth i y 0 - y0)) ->
  0 <= dot (map (fun v => v - x0) x) (map (fun v => v - y0) y).
Proof.
  unfold dot. induction x as [|a x IH]; intros [|b y] L H; try discriminate; cbn [map combine Rsum fst snd]; [lra|]. injection L as L.
  apply Rplus_le_le_0_compat. apply (H 0%nat). simpl. lia. apply IH; trivial. intros i Hi. apply (H (S i)). simpl. lia.
Qed.
Lemma dot_shift_both x : forall y a b, length x = length y ->
  dot (map (fun v => v - a) x) (map (fun v => v - b) y) = dot x y - a * Rsum y - b * Rsum x + INR (length x) * a * b.
Proof.
  unfold dot. induction x as [|u x IH]; intros [|v y] a b L; try discriminate; [simpl; ring|]. injection L as L.
  cbn [map combine Rsum fst snd length]. rewrite S_INR, IH by trivial. ring.
Qed.
Lemma chebyshev x : forall y, sortedR x -> sortedR y -> length x = length y -> Rsum x * Rsum y <= INR (length x) * dot x y.
Proof.
  induction x as [|a x IH]; intros [|b y] Hx Hy L; try discriminate; [unfold dot; simpl; lra|]. injection L as L.
  apply sorted_cons_inv in Hx as [Hx Hxa]. apply sorted_cons_inv in Hy as [Hy Hyb].
  specialize (IH y Hx Hy L). pose proof (chebyshev_cross a b x y L) as C. lapply C; [clear C; intros C|].
  2: { intros i Hi. apply Rmult_le_pos. pose proof (Hxa (nth i x 0) (nth_In x 0 Hi)). lra. assert (Hj : (i < length y)%nat) by lia. pose proof (Hyb (nth i y 0) (nth_In y 0 Hj)). lra. }
  rewrite dot_shift_both in C by trivial. cbn [length Rsum]. rewrite S_INR. replace (dot (a :: x) (b :: y)) with (a * b + dot x y) by reflexivity. nra.
Qed.
Lemma chebyshev_dev x y : sortedR x -> sortedR y -> length x = length y -> 0 <= dot (dev x) (dev y).
Proof.
  intros Hx Hy L. destruct x as [|x0 x'] eqn:E; [unfold dot; simpl; lra|]. rewrite <- E in *. assert (Hn : x <> []) by (now subst).
  unfold dev. rewrite dot_shift_both by trivial. pose proof (chebyshev x y Hx Hy L) as C. fold (len x) in *. pose proof (len_pos x Hn).
  assert (E1 : Rsum x = len x * mean x) by (unfold mean; field; lra). assert (E2 : Rsum y = len x * mean y).
  { unfold mean. replace (len y) with (len x) by (unfold len; now rewrite L). field. lra. }
  rewrite E1, E2 in *. nra.
Qed.
Lemma pearsonr_sorted x y v : sortedR x -> sortedR y -> length x = length y -> pearsonr x y = Ok (Some (Fin v)) -> 0 <= v <= 1.
Proof.
  intros Hx Hy L E. pose proof (pearsonr_range x y v L E) as Hr. split; [|apply Hr].
  unfold pearsonr in E. destruct (length x <? 2)%nat; [discriminate|]. rewrite pearson_dot in E by trivial.
  unfold num in E. destruct (varying x && varying y) eqn:V; [|discriminate]. injection E as <-.
  apply andb_true_iff in V as [Vx Vy]. apply varying_true in Vx, Vy. destruct (sqrt_ssq _ Vx) as [Px Sx], (sqrt_ssq _ Vy) as [Py Sy].
  apply Rmult_le_pos. now apply chebyshev_dev. left. apply Rinv_0_lt_compat. now apply Rmult_lt_0_compat.
Qed.
Lemma sorted_seq f n : (forall i j, (i <= j < n)%nat -> f i <= f j) -> sortedR (map f (seq 0 n)).
Proof.
  induction n as [|n IH]; intros H; [constructor|]. rewrite seq_S, map_app. simpl. apply sorted_snoc. split.
  - apply IH. intros i j Hij. apply H. lia.
  - intros y Hy. apply in_map_iff in Hy as (i & <- & Hi). apply in_seq in Hi. apply H. lia.
Qed.
Lemma scores_sorted al n : 0 <= al < 1 -> sortedR (scores al n).
Proof.
  intros Ha. rewrite scores_seq. apply sorted_seq. intros i j Hij. destruct (Nat.eq_dec i j) as [->|]; [lra|].
  left. apply norm_ppf_increasing; [apply pos_bounds; trivial; lia | apply pos_lt; trivial; lia | apply pos_bounds; trivial; lia].
Qed.
Lemma filli_sorted n : sortedR (map norm_ppf (filli_medians n)).
Proof.
  pose proof (filli_medians_01 n) as H01. unfold filli_medians in *. rewrite map_map in *. set (f := fun i => if Nat.eqb i (n - 1) then _ else _) in *.
  apply sorted_seq. intros i j Hij. change (norm_ppf (f i) <= norm_ppf (f j)).
  destruct (Nat.eq_dec i j) as [->|Hne]; [lra|].
  apply norm_ppf_le; try (apply H01; apply in_map_iff; eexists; split; [reflexivity | apply in_seq; lia]).
  assert (Hn : 1 <= INR n) by (apply INR_ge1; lia).
  assert (X : / (INR n + 0.365) * (INR n + 0.365) = 1) by (apply Rinv_l; lra).
  assert (Xp : 0 < / (INR n + 0.365)) by (apply Rinv_0_lt_compat; lra).
  assert (E1 : 2 <= exp 1) by (pose proof (exp_ineq1_le 1); lra).
  assert (ln2 : ln 2 <= 1). { rewrite <- (ln_exp 1). destruct E1 as [E1|E1]; [left; apply ln_increasing; lra | rewrite E1; lra]. }
  assert (B : 1 - 1 / INR n <= Rpower 0.5 (1 / INR n)).
  { unfold Rpower. replace 0.5 with (/ 2) by lra. rewrite ln_Rinv by lra. pose proof (exp_ineq1_le (1 / INR n * - ln 2)) as Q.
    assert (0 < 1 / INR n) by (apply Rdiv_lt_0_compat; lra). nra. }
  assert (V : / INR n * INR n = 1) by (apply Rinv_l; lra). assert (Vp : 0 < / INR n) by (apply Rinv_0_lt_compat; lra).
  assert (Last : (INR n - 1 - 0.3175) * / (INR n + 0.365) <= 1 - 1 / INR n).
  { apply Rmult_le_reg_r with ((INR n + 0.365) * INR n). nra.
    replace ((INR n - 1 - 0.3175) * / (INR n + 0.365) * ((INR n + 0.365) * INR n)) with ((INR n - 1 - 0.3175) * INR n * (/ (INR n + 0.365) * (INR n + 0.365))) by ring.
    replace ((1 - 1 / INR n) * ((INR n + 0.365) * INR n)) with ((INR n + 0.365) * (INR n - / INR n * INR n)) by (unfold Rdiv; ring). rewrite X, V. nra. }
  assert (Mono : forall a b, a <= b -> (a - 0.3175) * / (INR n + 0.365) <= (b - 0.3175) * / (INR n + 0.365)) by (intros; apply Rmult_le_compat_r; lra).
  unfold f. assert (I1 : 1 <= INR (S i)) by (apply INR_ge1; lia).
  assert (IJ : INR (S i) + 1 <= INR (S j)) by (rewrite <- S_INR; apply le_INR; lia). assert (JN : INR (S j) <= INR n) by (apply le_INR; lia).
  unfold Rdiv in *. rewrite ?Rmult_1_l in *.
  destruct (Nat.eqb_spec i (n - 1)), (Nat.eqb_spec j (n - 1)), (Nat.eqb_spec i 0), (Nat.eqb_spec j 0); try lia.
  - assert (/ INR n <= / 2) by (apply Rinv_le_contravar; lra). lra.
  - pose proof (Mono (INR (S i)) (INR n - 1)). lra.
  - assert (INR (S j) = INR j + 1) by (now rewrite S_INR). pose proof (Mono 2 (INR (S j))) as M.
    assert ((2 - 0.3175) * / (INR n + 0.365) = 1 - (INR n - 1 - 0.3175) * / (INR n + 0.365)) by lra. lra.
  - apply Mono. lra.
Qed.
(** reading off a finite outcome without reducing it *)
Ltac getfin E := apply (f_equal (fun o : outcome => match o with Ok (Some (Fin x)) => x | _ => 0 end)) in E; cbv beta iota in E; rewrite <- ?E in *; clear E.
(** ** squares of normalised linear combinations *)
Lemma sf_range l v : sf_norm l = Ok (Some (Fin v)) -> 0 <= v <= 1.
Proof.
  unfold sf_norm. cbv zeta. set (e := map Ropp (scores 0.375 (length l))). intros E. unfold num in E.
  destruct (varying l && negb (Reqb (Rsum (map (fun x => x ^ 2) e)) 0)) eqn:V; [|discriminate]. getfin E.
  apply andb_true_iff in V as [V1 V2]. apply varying_true in V1. fold (sumsqs e) in *. pose proof (sumsqs_nonneg e).
  destruct (Reqb_spec (sumsqs e) 0); [discriminate|]. assert (Le : length e = length (rsort l)) by (unfold e; now rewrite map_length, scores_length, rsort_length).
  pose proof (dot_ssq e (rsort l) Le) as C. rewrite ssq_rsort in C.
  apply ratio_01. apply Rmult_lt_0_compat; lra. split; [apply pow2_ge_0|]. rewrite Rmult_comm. apply C.
  apply antisym_sum, antisym_opp, scores_antisym. lra.
Qed.
Lemma antisym_dev w : w <> [] -> antisym w -> dev w = w.
Proof.
  intros Hw A. unfold dev, mean. rewrite (antisym_sum w A). pose proof (len_pos w Hw).
  transitivity (map (fun x : R => x) w); [|apply map_id]. apply map_ext. intros. field. lra.
Qed.
Lemma dot_self w : dot w w = sumsqs w.
Proof. unfold sumsqs, dot. induction w as [|x w IH]; trivial. cbn [map combine Rsum fst snd]. rewrite IH. ring. Qed.
Lemma sf_one l v : sf_norm l = Ok (Some (Fin v)) ->
  (v = 1 <-> exists a b, 0 < b /\ rsort l = map (fun t => a + b * t) (scores 0.375 (length l))).
Proof.
  unfold sf_norm. cbv zeta. set (m := scores 0.375 (length l)). intros E. unfold num in E.
  destruct (varying l && negb (Reqb (Rsum (map (fun x => x ^ 2) (map Ropp m))) 0)) eqn:V; [|discriminate]. getfin E.
  apply andb_true_iff in V as [V1 V2]. apply varying_true in V1. fold (neg m) in *. fold (sumsqs (neg m)) in *.
  assert (Sm : sumsqs (neg m) = sumsqs m) by apply neg_sumsq. rewrite Sm in *. pose proof (sumsqs_nonneg m).
  destruct (Reqb_spec (sumsqs m) 0); [discriminate|]. clear V2. assert (Pm : 0 < sumsqs m) by lra.
  rewrite dot_neg_l. assert (Lm : length m = length (rsort l)) by (unfold m; now rewrite scores_length, rsort_length).
  assert (Am : antisym m) by (apply scores_antisym; lra).
  assert (Hl : rsort l <> []). { intros E. rewrite <- ssq_rsort, E in V1. unfold ssq in V1. simpl in V1. lra. }
  assert (Hm : m <> []) by (intros E; rewrite E in Lm; destruct (rsort l); easy).
  set (x := rsort l) in *. assert (Sx : ssq x = ssq l) by apply ssq_rsort.
  pose proof (dot_dev m x Lm (antisym_sum m Am)) as Dx.
  split.
  - intros H1. assert (C : dot m (dev x) ^ 2 = sumsqs m * sumsqs (dev x)).
    { rewrite Dx, dev_sumsqs, Sx. apply Rmult_eq_reg_r with (/ (ssq l * sumsqs m)).
      replace (sumsqs m * ssq l * / (ssq l * sumsqs m)) with 1 by (field; lra). rewrite <- H1. unfold Rdiv. ring.
      apply Rinv_neq_0_compat. apply Rmult_integral_contrapositive_currified; lra. }
    pose proof (dot_cauchy_eq m (dev x)) as Q. rewrite dev_length in Q. specialize (Q Lm Pm C). rewrite Dx in Q.
    set (t := dot m x / sumsqs m) in *. exists (mean x), t. split.
    + assert (0 <= dot m x).
      { rewrite <- Dx. rewrite <- (antisym_dev m Hm Am). apply chebyshev_dev; trivial. apply scores_sorted; lra. apply rsort_sorted. }
      assert (dot m x <> 0). { intros Z. rewrite Dx, Z in C. rewrite dev_sumsqs, Sx in C. simpl in C. nra. }
      apply Rdiv_lt_0_compat; lra.
    + clearbody t. revert Q. unfold dev. generalize (mean x). clearbody m x. clear. intros mx Q. revert m Q. induction x as [|a x IH]; intros [|b m] Q; try discriminate; trivial.
      cbn [map] in *. injection Q as Q1 Q2. f_equal. lra. now apply IH.
  - intros (a & b & Hb & Hx). fold (aff a b m) in Hx.
    assert (D : dot m x = b * sumsqs m). { rewrite Hx, dot_aff by trivial. rewrite (antisym_sum m Am), dot_self. ring. }
    rewrite D, <- Sx, Hx, ssq_aff. rewrite <- (dev_sumsqs m), (antisym_dev m Hm Am). field. lra.
Qed.
Lemma swrg_range l v : swrg l = Ok (Some (Fin v)) -> 0 <= v <= 1.
Proof.
  unfold swrg. cbv zeta. set (w := wrg_star (length l)). unfold gt3. destruct (3 <? length l)%nat; [|discriminate]. intros E. unfold num in E.
  destruct (varying l && negb (Reqb (Rsum (map (fun x => x ^ 2) w)) 0)) eqn:V; [|discriminate]. getfin E.
  apply andb_true_iff in V as [V1 V2]. apply varying_true in V1. fold (sumsqs w) in *. pose proof (sumsqs_nonneg w).
  destruct (Reqb_spec (sumsqs w) 0); [discriminate|]. assert (Pw : 0 < sumsqs w) by lra. set (s := sqrt (sumsqs w)).
  assert (Ss : 0 < s) by (now apply sqrt_lt_R0). assert (S2 : s * s = sumsqs w) by (apply sqrt_sqrt; lra).
  set (w' := map (fun x => x / s) w). assert (Lw : length w' = length (rsort l)) by (unfold w', w; now rewrite map_length, wrg_star_length, rsort_length).
  assert (Sw : sumsqs w' = 1).
  { unfold sumsqs, w'. rewrite map_map. rewrite (Rsum_map_ext _ (fun x => / (s * s) * x ^ 2)). rewrite Rsum_map_scal. fold (sumsqs w). rewrite S2. field. lra. intros; field; lra. }
  apply ratio_01; trivial. split; [apply pow2_ge_0|]. pose proof (dot_ssq w' (rsort l) Lw) as C. rewrite Sw, ssq_rsort, Rmult_1_l in C. apply C.
  apply antisym_sum, antisym_map. intros; unfold Rdiv; ring. apply wrg_star_antisym.
Qed.
Lemma sumsqs_app a b : sumsqs (a ++ b) = sumsqs a + sumsqs b.
Proof. unfold sumsqs. now rewrite map_app, Rsum_app. Qed.
Lemma sumsqs_cons x a : sumsqs (x :: a) = x ^ 2 + sumsqs a. Proof. reflexivity. Qed.
Lemma Rsum_seq_rev (g : nat -> R) a k : Rsum (map g (seq a k)) = Rsum (map (fun i => g (a + k - 1 - i)%nat) (seq 0 k)).
Proof.
  replace (seq a k) with (map (fun i => (a + i)%nat) (seq 0 k)). rewrite map_map, <- Rsum_rev, rev_seq_map.
  f_equal. apply map_ext_in. intros i Hi. apply in_seq in Hi. f_equal. lia.
  clear. revert a. induction k as [|k IH]; intros a; trivial. cbn [seq map]. f_equal. lia. rewrite <- seq_shift, map_map, <- (IH (S a)). apply map_ext. intros. lia.
Qed.
Lemma sumsqs_div (f : nat -> R) s (k : list nat) : s <> 0 -> sumsqs (map (fun i => f i / s) k) = sumsqs (map f k) / s ^ 2.
Proof.
  intros Hs. unfold sumsqs. rewrite !map_map. unfold Rdiv at 2. rewrite Rmult_comm, <- Rsum_map_scal. apply Rsum_map_ext. intros. field. lra.
Qed.
Lemma scores_split al n : map (fun i => nth i (scores al n) 0) (seq 0 n) = scores al n.
Proof. pose proof (map_nth_seq (scores al n) 0) as H. now rewrite scores_length in H. Qed.
Lemma scores_ends al n k : 0 <= al < 1 -> (2 * k <= n)%nat ->
  sumsqs (scores al n) = 2 * Rsum (map (fun i => nth (n - 1 - i) (scores al n) 0 ^ 2) (seq 0 k)) + sumsqs (map (fun i => nth i (scores al n) 0) (seq k (n - 2 * k))).
Proof.
  intros Ha Hk. set (m := fun i => nth i (scores al n) 0).
  transitivity (sumsqs (map m (seq 0 (k + (n - 2 * k) + k)))).
  { replace (k + (n - 2 * k) + k)%nat with n by lia. unfold m. now rewrite scores_split. }
  rewrite !seq_app, !map_app, !sumsqs_app, !Nat.add_0_l.
  assert (A : sumsqs (map m (seq 0 k)) = Rsum (map (fun i => m (n - 1 - i)%nat ^ 2) (seq 0 k))).
  { unfold sumsqs. rewrite map_map. apply Rsum_map_ext. intros i Hi. apply in_seq in Hi. unfold m.
    pose proof (antisym_nth (scores al n) i (scores_antisym al n Ha)) as Q. rewrite scores_length in Q. rewrite Q by lia. ring. }
  assert (B : sumsqs (map m (seq (k + (n - 2 * k)) k)) = Rsum (map (fun i => m (n - 1 - i)%nat ^ 2) (seq 0 k))).
  { unfold sumsqs. rewrite map_map. rewrite (Rsum_seq_rev (fun i => m i ^ 2)). f_equal.
    apply map_ext_in. intros i Hi. apply in_seq in Hi. f_equal. f_equal. lia. }
  rewrite A, B. unfold m. ring.
Qed.
Lemma sw_weights_norm n w : (3 <= n)%nat -> sw_coefficients n = Ok (Some w) -> sumsqs w = 1.
Proof.
  intros Hn E. unfold sw_coefficients in E. destruct n as [|[|[|[|n']]]]; try lia.
  - injection E as <-. unfold sumsqs. cbn [map Rsum]. replace ((- sqrt 0.5) ^ 2) with (sqrt 0.5 * sqrt 0.5) by ring. replace (sqrt 0.5 ^ 2) with (sqrt 0.5 * sqrt 0.5) by ring.
    rewrite sqrt_sqrt; lra.
  - set (n := S (S (S (S n')))) in *. set (m := scores (3 / 8) n) in *. fold (sumsqs m) in E.
    assert (Ha : 0 <= 3 / 8 < 1) by lra.
    destruct (n <=? 5)%nat eqn:H5.
    + generalize dependent (sw_wn n (nth (n - 1) m 0 / sqrt (sumsqs m))). intros wn E.
      set (D := 1 - 2 * wn ^ 2) in *. set (phi := (sumsqs m - 2 * nth (n - 1) m 0 ^ 2) / D) in *.
      destruct (Rltb_spec 0 phi) as [Hp|]; [|discriminate]. destruct (Reqb_spec D 0) as [|HD]; [discriminate|]. cbn [andb negb] in E. apply (f_equal (fun o : result (option (list R)) => match o with Ok (Some x) => x | _ => [] end)) in E. cbv beta iota in E. rewrite <- E.
      rewrite sumsqs_cons, sumsqs_app. rewrite (sumsqs_div (fun k => nth k m 0)) by (apply Rgt_not_eq, sqrt_lt_R0; trivial).
      pose proof (scores_ends (3 / 8) n 1 Ha ltac:(unfold n; lia)) as Q. fold m in Q. cbn [seq map Rsum] in Q. rewrite Nat.sub_0_r, Nat.mul_1_r in Q.
      replace (sqrt phi ^ 2) with (sqrt phi * sqrt phi) by ring. rewrite sqrt_sqrt by lra.
      set (inner := sumsqs (map (fun i => nth i m 0) (seq 1 (n - 2)))) in *.
      assert (Ei : inner = phi * D) by (unfold phi; rewrite Q; field; trivial). rewrite Ei. unfold sumsqs. cbn [map Rsum].
      replace (phi * D / phi) with D by (field; lra). unfold D. ring.
    + generalize dependent (sw_wn n (nth (n - 1) m 0 / sqrt (sumsqs m))). intros wn.
      generalize dependent (sw_wn1 n (nth (n - 2) m 0 / sqrt (sumsqs m))). intros wn1 E.
      set (D := 1 - 2 * wn ^ 2 - 2 * wn1 ^ 2) in *. set (phi := (sumsqs m - 2 * nth (n - 1) m 0 ^ 2 - 2 * nth (n - 2) m 0 ^ 2) / D) in *.
      destruct (Rltb_spec 0 phi) as [Hp|]; [|discriminate]. destruct (Reqb_spec D 0) as [|HD]; [discriminate|]. cbn [andb negb] in E. apply (f_equal (fun o : result (option (list R)) => match o with Ok (Some x) => x | _ => [] end)) in E. cbv beta iota in E. rewrite <- E.
      cbn [app]. rewrite !sumsqs_cons, sumsqs_app. rewrite (sumsqs_div (fun k => nth k m 0)) by (apply Rgt_not_eq, sqrt_lt_R0; trivial).
      pose proof (scores_ends (3 / 8) n 2 Ha ltac:(apply Nat.leb_gt in H5; lia)) as Q. fold m in Q. cbn [seq map Rsum] in Q. rewrite Nat.sub_0_r in Q.
      replace (n - 1 - 1)%nat with (n - 2)%nat in Q by lia. change (2 * 2)%nat with 4%nat in Q.
      replace (sqrt phi ^ 2) with (sqrt phi * sqrt phi) by ring. rewrite sqrt_sqrt by lra.
      set (inner := sumsqs (map (fun i => nth i m 0) (seq 2 (n - 4)))) in *.
      assert (Ei : inner = phi * D) by (unfold phi; rewrite Q; field; trivial). rewrite Ei. unfold sumsqs. cbn [map Rsum].
      replace (phi * D / phi) with D by (field; lra). unfold D. ring.
Qed.
Lemma sw_range l v : sw_norm l = Ok (Some (Fin v)) -> 0 <= v <= 1.
Proof.
  unfold sw_norm. intros E. destruct (le_lt_dec 3 (length l)) as [h|h].
  - destruct (sw_coefficients_cases (length l) h) as [Ec | (w & Ec & Hw & As)]; rewrite Ec in E; [discriminate|]. cbn [bind] in E. unfold num in E.
    destruct (varying l) eqn:V; [|discriminate]. getfin E. apply varying_true in V. apply ratio_01; trivial. split; [apply pow2_ge_0|].
    pose proof (dot_ssq w (rsort l)) as C. rewrite rsort_length in C. specialize (C Hw (antisym_sum w As)). rewrite (sw_weights_norm _ _ h Ec), ssq_rsort in C. lra.
  - destruct (length l) as [|[|[|]]]; try lia; discriminate.
Qed.
Lemma filli_range l v : filli_norm l = Ok (Some (Fin v)) -> 0 <= v <= 1.
Proof.
  unfold filli_norm. intros E. destruct l as [|x l0] eqn:El; [discriminate|]. rewrite <- El in *. revert E. apply pearsonr_sorted.
  apply rsort_sorted. apply filli_sorted. unfold filli_medians. now rewrite rsort_length, !map_length, seq_length.
Qed.
Lemma rj_unweighted_range al l v : 0 <= al < 1 -> rj_norm false al l = Ok (Some (Fin v)) -> 0 <= v <= 1.
Proof.
  intros Ha. unfold rj_norm. cbv zeta. apply pearsonr_sorted. now apply scores_sorted. apply rsort_sorted.
  now rewrite map_length, plotting_length, rsort_length.
Qed.
Lemma rj_range w al l v : rj_norm w al l = Ok (Some (Fin v)) -> -1 <= v <= 1.
Proof.
  unfold rj_norm. cbv zeta. apply pearsonr_range. rewrite map_length, rsort_length. destruct w. now rewrite tie_averaged_length, rsort_length. apply plotting_length.
Qed.
Lemma filli_one l v : filli_norm l = Ok (Some (Fin v)) ->
  (v = 1 <-> exists a b, 0 < b /\ rsort l = map (fun t => a + b * t) (map norm_ppf (filli_medians (length l)))).
Proof.
  unfold filli_norm. intros E. destruct l as [|x l0] eqn:El; [discriminate|]. rewrite <- El in *. revert E. apply pearsonr_one.
  unfold filli_medians. now rewrite rsort_length, !map_length, seq_length.
Qed.
Lemma rj_one al l v : rj_norm false al l = Ok (Some (Fin v)) ->
  (v = 1 <-> exists a b, 0 < b /\ rsort l = map (fun t => a + b * t) (scores al (length l))).
Proof.
  unfold rj_norm. cbv zeta. rewrite pearsonr_comm by (now rewrite map_length, plotting_length, rsort_length). apply pearsonr_one.
  now rewrite scores_length, rsort_length.
Qed.
Lemma affine_of_dev (x m : list R) c t : map (fun v => v - c) x = map (fun v => t * v) m -> x = map (fun v => c + t * v) m.
Proof.
  revert m. induction x as [|a x IH]; intros [|b m] Q; try discriminate; trivial. cbn [map] in *. injection Q as Q1 Q2. f_equal. lra. now apply IH.
Qed.
(** the maximum of a squared normalised combination *)
Lemma w_one w x : length w = length x -> Rsum w = 0 -> 0 < sumsqs w -> 0 < ssq x ->
  (dot w x ^ 2 / (sumsqs w * ssq x) = 1 <-> exists a b, b <> 0 /\ x = map (fun t => a + b * t) w).
Proof.
  intros L S Pw Px. pose proof (dot_dev w x L S) as D. split.
  - intros H. assert (C : dot w (dev x) ^ 2 = sumsqs w * sumsqs (dev x)).
    { rewrite D, dev_sumsqs. apply Rmult_eq_reg_r with (/ (sumsqs w * ssq x)). unfold Rdiv in H. rewrite H. field. lra.
      apply Rinv_neq_0_compat. apply Rmult_integral_contrapositive_currified; lra. }
    pose proof (dot_cauchy_eq w (dev x)) as Q. rewrite dev_length in Q. specialize (Q L Pw C). rewrite D in Q.
    exists (mean x), (dot w x / sumsqs w). split; [|now apply affine_of_dev].
    intros Z. rewrite D, dev_sumsqs in C. assert (dot w x = 0). { apply Rmult_integral in Z as [Z|Z]; trivial. now apply Rinv_neq_0_compat in Z; [|lra]. }
    rewrite H0 in C. simpl in C. nra.
  - intros (a & b & Hb & ->). fold (aff a b w). rewrite dot_aff by trivial. rewrite S, dot_self, ssq_aff.
    destruct w as [|w0 w']; [unfold sumsqs in Pw; simpl in Pw; lra|]. set (w := w0 :: w') in *.
    assert (E : ssq w = sumsqs w). { rewrite <- dev_sumsqs. f_equal. unfold dev, mean. rewrite S. transitivity (map (fun v : R => v) w); [|apply map_id]. apply map_ext. intros. unfold Rdiv. ring. }
    rewrite E. field. split; trivial. lra.
Qed.
Lemma sw_one l v : sw_norm l = Ok (Some (Fin v)) -> exists w, sw_coefficients (length l) = Ok (Some w) /\
  (v = 1 <-> exists a b, b <> 0 /\ rsort l = map (fun t => a + b * t) w).
Proof.
  unfold sw_norm. intros E. destruct (le_lt_dec 3 (length l)) as [h|h].
  - destruct (sw_coefficients_cases (length l) h) as [Ec | (w & Ec & Hw & As)]; rewrite Ec in *; [discriminate|]. cbn [bind] in E. unfold num in E.
    destruct (varying l) eqn:V; [|discriminate]. getfin E. apply varying_true in V. exists w. split; trivial.
    pose proof (sw_weights_norm _ _ h Ec) as N. pose proof (w_one w (rsort l)) as Q. rewrite rsort_length, ssq_rsort, N, Rmult_1_l in Q. apply Q; trivial. now apply antisym_sum. lra.
  - destruct (length l) as [|[|[|]]]; try lia; discriminate.
Qed.
Lemma swrg_one l v : swrg l = Ok (Some (Fin v)) -> (v = 1 <-> exists a b, b <> 0 /\ rsort l = map (fun t => a + b * t) (wrg_star (length l))).
Proof.
  unfold swrg. cbv zeta. set (w := wrg_star (length l)). unfold gt3. destruct (3 <? length l)%nat; [|discriminate]. intros E. unfold num in E.
  destruct (varying l && negb (Reqb (Rsum (map (fun x => x ^ 2) w)) 0)) eqn:V; [|discriminate]. getfin E.
  apply andb_true_iff in V as [V1 V2]. apply varying_true in V1. fold (sumsqs w) in *. pose proof (sumsqs_nonneg w).
  destruct (Reqb_spec (sumsqs w) 0); [discriminate|]. assert (Pw : 0 < sumsqs w) by lra. set (s := sqrt (sumsqs w)).
  assert (Ss : 0 < s) by (now apply sqrt_lt_R0). assert (S2 : s * s = sumsqs w) by (apply sqrt_sqrt; lra).
  assert (E : dot (map (fun x => x / s) w) (rsort l) = / s * dot w (rsort l)).
  { rewrite <- dot_scal_l. f_equal. apply map_ext. intros. unfold Rdiv. ring. }
  rewrite E. pose proof (w_one w (rsort l)) as Q. rewrite rsort_length, ssq_rsort in Q.
  replace ((/ s * dot w (rsort l)) ^ 2 / ssq l) with (dot w (rsort l) ^ 2 / (sumsqs w * ssq l)) by (rewrite <- S2; field; lra).
  apply Q; trivial. apply wrg_star_length. apply antisym_sum, wrg_star_antisym.
Qed.
