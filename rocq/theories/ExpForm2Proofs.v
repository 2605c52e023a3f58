(** Likelihoods, scores and extreme values of the exponentiality statistics. *)
From Coquelicot Require Import Coquelicot.
From Verif Require Import Base Analysis DecModel EdfModel GraphModel ExpModel ExpSpec ExpFormSpec EdfProofs ExpProofs ExpRangeProofs ExpFormProofs.
From Coq Require Import Lra Lia.
Local Open Scope R_scope.

(** ** the inequality of the arithmetic and geometric mean *)
Lemma ln_sub1_eq x : 0 < x -> ln x = x - 1 -> x = 1.
Proof.
  intros H E. destruct (Req_dec x 1) as [|N]; [trivial|]. exfalso. assert (S : 0 < sqrt x) by (now apply sqrt_lt_R0). assert (Q : sqrt x * sqrt x = x) by (apply sqrt_sqrt; lra).
  assert (L : ln x = 2 * ln (sqrt x)) by (rewrite <- Q at 1; rewrite ln_mult by trivial; ring). pose proof (ln_le_sub1 (sqrt x) S). assert (sqrt x <> 1) by (intros F; apply N; rewrite <- Q, F; ring).
  assert (0 < (sqrt x - 1) ^ 2) by (apply pow2_gt_0; lra). nra.
Qed.
Lemma am_gm d : d <> [] -> positive d -> Rsum (map ln d) <= len d * ln (mean d) /\ (Rsum (map ln d) = len d * ln (mean d) <-> constant d).
Proof.
  intros N P. pose proof (len_pos d N) as L. pose proof (mean_pos d N P) as M. set (m := mean d) in *.
  set (g := fun x => x / m - 1 - ln (x / m)). assert (G : forall x, In x d -> 0 <= g x) by (intros x Hx; unfold g; pose proof (ln_le_sub1 (x / m) ltac:(apply Rdiv_lt_0_compat; [now apply P|trivial])); lra).
  assert (E : Rsum (map g d) = len d * ln m - Rsum (map ln d)).
  { rewrite (Rsum_map_ext g (fun x => (x * / m - 1) + (ln m - ln x))) by (intros x Hx; unfold g; rewrite ln_quot by (first [exact M|now apply P]); unfold Rdiv; ring).
    rewrite Rsum_map_plus, !Rsum_map_minus, (Rsum_map_scal_r (/ m) (fun x => x)), map_id, !Rsum_map_const. fold (len d). replace (Rsum d) with (len d * m) by (unfold m, mean; field; lra). field. lra. }
  assert (NN : 0 <= Rsum (map g d)) by (apply Rsum_map_nonneg; exact G). split; [lra|]. split.
  - intros Q. assert (Z : forall x, In x d -> x = m).
    { intros x Hx. assert (Z0 : g x = 0). { apply (Rsum_zero (map g d)); [|lra|now apply in_map]. intros y Hy. apply in_map_iff in Hy as (z & <- & Hz). now apply G. }
      unfold g in Z0. assert (x / m = 1) by (apply ln_sub1_eq; [apply Rdiv_lt_0_compat; [now apply P|trivial]|lra]). replace x with (x / m * m) by (field; lra). rewrite H. ring. }
    intros x y Hx Hy. now rewrite (Z x Hx), (Z y Hy).
  - intros C. assert (Z : forall x, In x d -> x = m).
    { intros x Hx. unfold m, mean. assert (Q : Rsum d = len d * x) by (unfold len; rewrite <- Rsum_map_const; rewrite <- (map_id d) at 1; apply Rsum_map_ext; intros; now apply C). rewrite Q. field. lra. }
    unfold len. rewrite <- Rsum_map_const. apply Rsum_map_ext. intros x Hx. now rewrite (Z x Hx).
Qed.
Lemma mn_form g l v : positive l -> mn g l = Ok (Fin v) -> v = - g + Rsum (map ln l) / len l - ln (mean l).
Proof.
  intros P. unfold mn. cbv zeta. intros H. apply fin_inv in H as [B ->]. assert (N : l <> []) by (intros ->; discriminate). pose proof (mean_pos l N P) as M. pose proof (len_pos l N) as L.
  unfold mean at 1. rewrite !len_map, map_map. rewrite (Rsum_map_ext (fun x => ln (x / mean l)) (fun x => ln x - ln (mean l))) by (intros x Hx; apply ln_quot; [now apply P|trivial]).
  rewrite Rsum_map_minus, Rsum_map_const. fold (len l). field. lra.
Qed.
Lemma mn_max g l v : positive l -> mn g l = Ok (Fin v) -> v <= - g /\ (v = - g <-> constant l).
Proof.
  intros P H. assert (N : l <> []) by (intros ->; discriminate). pose proof (len_pos l N) as L. apply mn_form in H as ->; trivial. destruct (am_gm l N P) as [A B].
  assert (E : Rsum (map ln l) / len l - ln (mean l) = (Rsum (map ln l) - len l * ln (mean l)) / len l) by (field; lra).
  assert (Q : (Rsum (map ln l) - len l * ln (mean l)) / len l <= 0) by (apply Rmult_le_reg_r with (len l); trivial; replace ((Rsum (map ln l) - len l * ln (mean l)) / len l * len l) with (Rsum (map ln l) - len l * ln (mean l)) by (field; lra); lra).
  split; [lra|]. rewrite <- B. split; intros H.
  - assert (Z : (Rsum (map ln l) - len l * ln (mean l)) / len l = 0) by lra. apply Rmult_integral in Z as [Z|Z]; [lra|]. exfalso. revert Z. apply Rinv_neq_0_compat. lra.
  - rewrite H. field. lra.
Qed.

(** ** Epstein *)
Lemma eps_form l v : positive l -> eps_sorted (rsort l) = Ok (Fin v) -> positive (spacings l) /\ l <> [] /\
  v = 2 * (len l * ln (mean (spacings l)) - Rsum (map ln (spacings l))) / (1 + (len l + 1) / (6 * len l)).
Proof.
  intros P H. assert (N : l <> []) by (intros ->; discriminate). pose proof (len_pos l N) as L. pose proof (rsort_ne l N) as N'. unfold eps_sorted in H. cbv zeta in H. rewrite match_ne in H by trivial. apply fin_inv in H as [B ->].
  rewrite spacings_norm, len_rsort in *. split; [|split; trivial].
  - intros x Hx. unfold all_pos in B. rewrite forallb_forall in B. specialize (B x Hx). now apply Rltb_true in B.
  - unfold mean. replace (len (spacings l)) with (len l) by (unfold len; now rewrite spacings_length). field. split; [|lra]. assert (0 < (len l + 1) / (6 * len l)) by (apply Rdiv_lt_0_compat; lra). nra.
Qed.
Lemma exponential_log_max mu d : 0 < mu -> 0 < d -> exponential_log mu d <= - ln d - 1.
Proof. intros M D. unfold exponential_log. pose proof (ln_le_sub1 (d / mu) ltac:(now apply Rdiv_lt_0_compat)) as B. rewrite ln_quot in B by trivial. lra. Qed.
Lemma separate_max d : positive d -> maximum (- Rsum (map ln d) - len d) (separate d).
Proof.
  intros P. split.
  - exists d. split; [trivial|]. split; [trivial|]. assert (E : map (fun p : R * R => exponential_log (fst p) (snd p)) (combine d d) = map (fun x => exponential_log x x) d).
    { clear P. induction d as [|x d IH]; [reflexivity|]. cbn [combine map fst snd]. now rewrite IH. }
    rewrite E. rewrite (Rsum_map_ext (fun x => exponential_log x x) (fun x => - ln x - 1)) by (intros x Hx; apply P in Hx; unfold exponential_log; cbv beta; field; lra). rewrite Rsum_map_minus, Rsum_map_opp, Rsum_map_const. unfold len. ring.
  - intros w (mus & L & Pm & ->). replace (- Rsum (map ln d) - len d) with (Rsum (map (fun p : R * R => - ln (snd p) - 1) (combine mus d))).
    + apply Rsum_map_le. intros [m x] Hp. cbn [fst snd]. apply exponential_log_max; [apply Pm; now apply in_combine_l in Hp|apply P; now apply in_combine_r in Hp].
    + assert (E : map (fun p : R * R => - ln (snd p) - 1) (combine mus d) = map (fun x => - ln x - 1) d).
      { clear P Pm. revert d L. induction mus as [|m mus IH]; intros [|x d] L; try discriminate; [reflexivity|]. cbn [combine map snd]. rewrite IH by (simpl in L; lia). reflexivity. }
      rewrite E, Rsum_map_minus, Rsum_map_opp, Rsum_map_const. unfold len. ring.
Qed.
Lemma common_value mu d : d <> [] -> 0 < mu -> Rsum (map (exponential_log mu) d) = len d * exponential_log mu (mean d).
Proof.
  intros N M. pose proof (len_pos d N). unfold exponential_log. rewrite Rsum_map_minus, Rsum_map_const. unfold Rdiv at 1. rewrite (Rsum_map_scal_r (/ mu) (fun x => x)), map_id. fold (len d). unfold mean. field. lra.
Qed.
Lemma common_max d : d <> [] -> positive d -> maximum (- len d * ln (mean d) - len d) (common d).
Proof.
  intros N P. pose proof (len_pos d N) as L. pose proof (mean_pos d N P) as M. split.
  - exists (mean d). split; [trivial|]. rewrite common_value by trivial. unfold exponential_log. field. lra.
  - intros w (mu & Hm & ->). rewrite common_value by trivial. pose proof (exponential_log_max mu (mean d) Hm M). nra.
Qed.

(** ** scores *)
Lemma derivable_sum {A} (f : A -> R -> R) (f' : A -> R) x L : (forall y, In y L -> derivable_pt_lim (f y) x (f' y)) ->
  derivable_pt_lim (fun k => Rsum (map (fun y => f y k) L)) x (Rsum (map f' L)).
Proof.
  induction L as [|y L IH]; intros H; cbn [map Rsum]; [apply derivable_pt_lim_const|].
  apply (derivable_pt_lim_plus (f y) (fun k => Rsum (map (fun z => f z k) L))); [apply H; now left|]. apply IH. intros z Hz. apply H. now right.
Qed.
Lemma weibull_score y : 0 < y -> derivable_pt_lim (fun k => weibull_log k y) 1 (1 + ln y - y * ln y).
Proof.
  intros H. apply is_derive_Reals. unfold weibull_log, Rpower. auto_derive; [lra|]. rewrite !Rmult_1_l. rewrite exp_ln by trivial. field.
Qed.
Lemma co_score l v : positive l -> co l = Ok (Fin v) -> derivable_pt_lim (fun k => Rsum (map (weibull_log k) (relative l))) 1 v.
Proof.
  intros P H. unfold co in H. cbv zeta in H. fold (relative l) in H. apply fin_inv in H as [_ ->].
  assert (Y : forall y, In y (relative l) -> 0 < y).
  { intros y Hy. apply in_map_iff in Hy as (x & <- & Hx). assert (N : l <> []) by (intros ->; destruct Hx). apply Rdiv_lt_0_compat; [now apply P|now apply mean_pos]. }
  replace (Rsum (map (fun v => ln v * (1 - v)) (relative l)) + len l) with (Rsum (map (fun y => 1 + ln y - y * ln y) (relative l))).
  - apply (derivable_sum (fun y k => weibull_log k y)). intros y Hy. apply weibull_score. now apply Y.
  - rewrite (Rsum_map_ext _ (fun y => ln y * (1 - y) + 1)) by (intros; ring). rewrite Rsum_map_plus, Rsum_map_const. unfold relative. rewrite map_length. unfold len. ring.
Qed.
Lemma relative_sum l : l <> [] -> mean l <> 0 -> Rsum (relative l) = len l.
Proof. intros N M. pose proof (len_pos l N). unfold relative, Rdiv. rewrite (Rsum_map_scal_r (/ mean l) (fun x => x)), map_id. replace (Rsum l) with (len l * mean l) by (unfold mean; field; lra). field. trivial. Qed.
Lemma mn_score Gamma g l v : positive l -> derivable_pt_lim (fun a => ln (Gamma a)) 1 g -> mn g l = Ok (Fin v) ->
  derivable_pt_lim (fun a => mean (map (gamma_log Gamma a) (relative l))) 1 v.
Proof.
  intros P D H. assert (N : l <> []) by (intros ->; discriminate). pose proof (mean_pos l N P) as M. pose proof (len_pos l N) as L. unfold mn in H. cbv zeta in H. fold (relative l) in H. apply fin_inv in H as [_ ->].
  assert (LR : forall f : R -> R, len (map f (relative l)) = len l) by (intros f; unfold relative, len; now rewrite !map_length).
  assert (Q : derivable_pt_lim (fun a => Rsum (map (fun y => gamma_log Gamma a y) (relative l))) 1 (Rsum (map (fun y => 1 - g + ln y - y) (relative l)))).
  { apply (derivable_sum (fun y a => gamma_log Gamma a y)). intros y _. apply is_derive_Reals. apply is_derive_Reals in D. unfold gamma_log.
    apply (is_derive_ext (fun a => (a * ln a + (a - 1) * ln y - a * y) - ln (Gamma a))); [intros t; simpl; ring|].
    replace (1 - g + ln y - y) with ((1 + ln y - y) - g) by ring. apply (is_derive_minus (fun a => a * ln a + (a - 1) * ln y - a * y) (fun a => ln (Gamma a))); [|exact D]. auto_derive; [lra|]. rewrite ln_1. field. }
  assert (E : - g + mean (map ln (relative l)) = Rsum (map (fun y => 1 - g + ln y - y) (relative l)) * / len l).
  { unfold mean at 1. rewrite LR. rewrite Rsum_map_minus, Rsum_map_plus, Rsum_map_const, map_id, relative_sum by (trivial; lra).
    unfold relative at 2. rewrite map_length. fold (len l). field. lra. }
  rewrite E. apply is_derive_Reals. apply is_derive_Reals in Q. apply (is_derive_ext (fun a => scal (/ len l) (Rsum (map (fun y => gamma_log Gamma a y) (relative l))))).
  - intros a. unfold mean, scal. simpl. unfold mult. simpl. rewrite LR. unfold Rdiv. rewrite Rmult_comm. reflexivity.
  - rewrite Rmult_comm. apply (is_derive_scal (fun a => Rsum (map (fun y => gamma_log Gamma a y) (relative l))) 1 (/ len l)). exact Q.
Qed.
(** Kochar's score is uncorrelated with the exponential quantiles *)
Definition kochar_primitive (v : R) : R := v ^ 2 * ln v ^ 2 - 2 * v ^ 2 * ln v + v ^ 2 + v * ln v - v.
Lemma kochar_primitive_derive u : u < 1 -> is_derive (fun u => - kochar_primitive (1 - u)) u (kochar_score u * - ln (1 - u)).
Proof. intros H. unfold kochar_primitive, kochar_score. auto_derive; [repeat split; lra|]. change (1 + - u) with (1 - u). set (w := ln (1 - u)). field. lra. Qed.
Lemma kochar_integral t : 0 <= t < 1 -> RInt (fun u => kochar_score u * - ln (1 - u)) 0 t = - kochar_primitive (1 - t).
Proof.
  intros H. apply is_RInt_unique. replace (- kochar_primitive (1 - t)) with (minus (- kochar_primitive (1 - t)) (- kochar_primitive (1 - 0))).
  - apply (is_RInt_derive (fun u => - kochar_primitive (1 - u))).
    + intros x [_ Hx]. rewrite Rmax_right in Hx by lra. apply kochar_primitive_derive. lra.
    + intros x [_ Hx]. rewrite Rmax_right in Hx by lra. apply (ex_derive_continuous (fun u => kochar_score u * - ln (1 - u))). unfold kochar_score. auto_derive. lra.
  - unfold minus, plus, opp. simpl. unfold kochar_primitive. replace (1 - 0) with 1 by ring. rewrite ln_1. ring.
Qed.
Lemma xlnx_sq v : 0 < v <= 1 -> 0 <= v * ln v ^ 2 <= 4 /\ - 1 <= v * ln v <= 0.
Proof.
  intros [H1 H2]. assert (L : ln v <= 0) by (rewrite <- ln_1; now apply ln_le). assert (S : 0 < sqrt v) by (now apply sqrt_lt_R0). assert (Q : sqrt v * sqrt v = v) by (apply sqrt_sqrt; lra).
  assert (LL : ln v = 2 * ln (sqrt v)) by (rewrite <- Q at 1; rewrite ln_mult by trivial; ring).
  assert (X : forall s, 0 < s <= 1 -> - 1 <= s * ln s <= 0).
  { intros s [Hs Hs1]. assert (ln s <= 0) by (rewrite <- ln_1; now apply ln_le). split; [|nra]. pose proof (ln_le_sub1 (/ s) (Rinv_0_lt_compat _ Hs)) as B. rewrite ln_Rinv in B by trivial. assert (s * / s = 1) by (field; lra). nra. }
  split; [|now apply X]. assert (S1 : sqrt v <= 1) by (rewrite <- sqrt_1; now apply sqrt_le_1_alt). destruct (X (sqrt v) (conj S S1)) as [A B]. rewrite LL. rewrite <- Q at 1 3. set (s := sqrt v) in *. set (a := s * ln s) in *.
  replace (s * s * (2 * ln s) ^ 2) with (4 * a ^ 2) by (unfold a; ring). pose proof (pow2_ge_0 a). nra.
Qed.
Lemma kochar_primitive_bound v : 0 < v <= 1 -> Rabs (kochar_primitive v) <= 8 * sqrt v.
Proof.
  intros [H1 H2]. assert (S : 0 < sqrt v) by (now apply sqrt_lt_R0). assert (Q : sqrt v * sqrt v = v) by (apply sqrt_sqrt; lra). assert (S1 : sqrt v <= 1) by (rewrite <- sqrt_1; now apply sqrt_le_1_alt).
  destruct (xlnx_sq v (conj H1 H2)) as [A B]. destruct (xlnx_sq (sqrt v) (conj S S1)) as [_ C]. assert (LL : ln v = 2 * ln (sqrt v)) by (rewrite <- Q at 1; rewrite ln_mult by trivial; ring).
  unfold kochar_primitive. set (s := sqrt v) in *.
  assert (E1 : v * ln v = 2 * s * (s * ln s)) by (rewrite LL, <- Q; ring). assert (E2 : v ^ 2 * ln v ^ 2 = v * (v * ln v ^ 2)) by ring. assert (E3 : 2 * v ^ 2 * ln v = 2 * v * (v * ln v)) by ring. rewrite E2, E3.
  set (p := v * ln v ^ 2) in *. set (q := s * ln s) in *. rewrite E1 in *. rewrite <- Q in *. apply Rabs_le. assert (0 <= s * s <= s) by nra. split; nra.
Qed.
Lemma kochar_centred : filterlim (fun t => RInt (fun u => kochar_score u * - ln (1 - u)) 0 t) (at_left 1) (locally 0).
Proof.
  apply filterlim_locally. intros [e He]. exists (mkposreal (Rmin 1 ((e / 9) ^ 2)) ltac:(apply Rmin_glb_lt; [lra|apply pow_lt; lra])). intros t Ht Ht1.
  change (Rabs (t - 1) < Rmin 1 ((e / 9) ^ 2)) in Ht. change (Rabs (RInt (fun u => kochar_score u * - ln (1 - u)) 0 t - 0) < e).
  assert (A : Rabs (t - 1) < 1) by (eapply Rlt_le_trans; [exact Ht|apply Rmin_l]). assert (B : Rabs (t - 1) < (e / 9) ^ 2) by (eapply Rlt_le_trans; [exact Ht|apply Rmin_r]). rewrite Rabs_left in A, B by lra.
  rewrite kochar_integral by lra. rewrite Rminus_0_r, Rabs_Ropp. eapply Rle_lt_trans; [apply kochar_primitive_bound; lra|]. assert (sqrt (1 - t) < e / 9).
  { rewrite <- (sqrt_pow2 (e / 9)) by lra. apply sqrt_lt_1_alt. lra. }
  lra.
Qed.
