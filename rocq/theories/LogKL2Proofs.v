(** More proofs about the Kullback-Leibler tests of lognormality. *)
From Coquelicot Require Import Coquelicot.
From Verif Require Import Base EdfModel GraphModel NormalLaw ExpModel NormModel LognormModel LognormSpec LogKLSpec EdfProofs ExpProofs ExpRangeProofs NormProofs LognormProofs LognormIntProofs LogKLProofs NormFiniteProofs.
From Coq Require Import Lra Lia.

(** *** D is a difference of divergences *)
Lemma combine_maps {A} (f g : A -> R) l : combine (map f l) (map g l) = map (fun v => (f v, g v)) l.
Proof. induction l; simpl; congruence. Qed.
Lemma asymmetry_value y r : all_positive y -> y <> [] ->
  asymmetry y r = asymmetry_of_moments r (mean (map (fun v => Rpower v r) y)) (mean (map ln y)) (mean (map (fun v => Rpower v r * ln v) y)).
Proof.
  intros P N. pose proof (len_pos y N) as L. unfold asymmetry, divergence, equal_weights, tilted_weights, asymmetry_of_moments, mean.
  rewrite !combine_maps, !map_map. cbn [fst snd]. rewrite !len_map.
  set (S := Rsum (map (fun u => Rpower u r) y)). set (n := len y) in *.
  assert (S0 : 0 < S). { apply Rsum_pos; [destruct y; [easy|discriminate]|]. intros x Hx. apply in_map_iff in Hx as (v & <- & _). apply exp_pos. }
  assert (M0 : 0 < S / n) by (apply Rdiv_lt_0_compat; lra).
  assert (A : Rsum (map (fun v => 1 / n * ln (1 / n / (Rpower v r / S))) y) = ln (S / n) - r * (Rsum (map ln y) / n)).
  { rewrite (Rsum_map_ext _ (fun v => 1 / n * ln (S / n) - r / n * ln v)).
    - rewrite Rsum_map_minus, Rsum_map_const, Rsum_map_scal. change (INR (length y)) with n. field. lra.
    - intros v Hv. pose proof (exp_pos (r * ln v)) as E. fold (Rpower v r) in E. replace (1 / n / (Rpower v r / S)) with ((S / n) / Rpower v r) by (field; lra).
      rewrite ln_div by trivial. unfold Rpower at 1. rewrite ln_exp. field. lra. }
  assert (B : Rsum (map (fun v => Rpower v r / S * ln (Rpower v r / S / (1 / n))) y) = r * (Rsum (map (fun v => Rpower v r * ln v) y)) / S - ln (S / n)).
  { rewrite (Rsum_map_ext _ (fun v => r / S * (Rpower v r * ln v) - ln (S / n) / S * Rpower v r)).
    - rewrite Rsum_map_minus, !Rsum_map_scal. fold S. field. lra.
    - intros v Hv. pose proof (exp_pos (r * ln v)) as E. fold (Rpower v r) in E. replace (Rpower v r / S / (1 / n)) with (Rpower v r / (S / n)) by (field; lra).
      rewrite ln_div by trivial. unfold Rpower at 2. rewrite ln_exp. field. lra. }
  rewrite A, B. field. lra.
Qed.
Lemma kl_d_asymmetry y r : all_positive y -> y <> [] -> / 10 ^ 8 <= Rabs r -> kl_d y r = asymmetry y r.
Proof.
  intros P N H. rewrite asymmetry_value by trivial. unfold kl_d, asymmetry_of_moments. destruct (Rltb_spec (Rabs r) (/ 10 ^ 8)); [lra|]. reflexivity.
Qed.
Lemma dlog_asymmetry w r : w <> [] -> dlog w r = asymmetry (map exp w) r.
Proof.
  intros N. rewrite asymmetry_value.
  - unfold asymmetry_of_moments, dlog. rewrite ln_exp_map, !map_map.
    rewrite (map_ext (fun x => Rpower (exp x) r) (fun v => exp (r * v))) by (intros; unfold Rpower; now rewrite ln_exp).
    rewrite (map_ext (fun x => Rpower (exp x) r * ln (exp x)) (fun v => exp (r * v) * v)) by (intros; unfold Rpower; now rewrite !ln_exp). reflexivity.
  - intros x Hx. apply in_map_iff in Hx as (v & <- & _). apply exp_pos.
  - destruct w; [easy|discriminate].
Qed.

(** *** the divisor *)
Lemma sigma_exact r : 1 / 300 <= Rabs r -> kl_sigma r = sqrt (limit_variance r).
Proof.
  intros H. unfold kl_sigma. destruct (Rltb_spec (Rabs r) (/ 10 ^ 8)); [lra|]. change (kl_expr r) with (limit_variance r).
  destruct (Rltb_spec (limit_variance r) (/ 10 ^ 16)); [exfalso|reflexivity].
  pose proof (variance_low r) as V. assert (Q : (1 / 300) ^ 6 <= Rabs r ^ 6) by (apply pow_incr; lra).
  replace (Rabs r ^ 6) with (r ^ 6) in Q by (replace (Rabs r ^ 6) with ((Rabs r ^ 2) ^ 3) by ring; rewrite pow2_abs; ring). lra.
Qed.
Lemma grid_far r : In r powers -> 1 / 300 <= Rabs r.
Proof.
  intros H. apply in_map_iff in H as (i & <- & Hi). apply in_seq in Hi.
  destruct (le_lt_dec i 499) as [L|L].
  - assert (INR i <= 499) by (replace 499 with (INR 499) by (rewrite INR_IZR_INZ; reflexivity); now apply le_INR).
    rewrite Rabs_left1 by lra. lra.
  - assert (500 <= INR i) by (replace 500 with (INR 500) by (rewrite INR_IZR_INZ; reflexivity); apply le_INR; lia).
    rewrite Rabs_pos_eq by lra. lra.
Qed.
Lemma filter_all {A} (P : A -> bool) l : (forall x, In x l -> P x = true) -> filter P l = l.
Proof. induction l as [|x l IH]; simpl; intros H; [reflexivity|]. rewrite H by auto. f_equal. apply IH. auto. Qed.
Lemma kl_points_all : kl_points = powers.
Proof.
  unfold kl_points. change kl_grid with powers. apply filter_all. intros r Hr. apply Rltb_true.
  rewrite sigma_exact by now apply grid_far. pose proof (grid_far r Hr) as G. pose proof (variance_low r) as V.
  assert (Q : (1 / 300) ^ 6 <= Rabs r ^ 6) by (apply pow_incr; lra).
  replace (Rabs r ^ 6) with (r ^ 6) in Q by (replace (Rabs r ^ 6) with ((Rabs r ^ 2) ^ 3) by ring; rewrite pow2_abs; ring).
  rewrite <- (sqrt_pow2 (/ 10 ^ 10)) by lra. apply sqrt_lt_1_alt. lra.
Qed.
Lemma scaled_sample_y l : scaled_sample l = kl_y l.
Proof.
  unfold scaled_sample, kl_y, log_sd, kl_sigma_hat. reflexivity.
Qed.

(** *** the expansion at 0 *)
Definition mk (w : list R) (k : nat) (r : R) : R := mean (map (fun v => exp (r * v) * v ^ k) w).
Lemma mk_derive w k r : is_derive (mk w k) r (mk w (S k) r).
Proof.
  unfold mk, mean. rewrite len_map.
  apply (is_derive_ext (fun r => / len w * Rsum (map (fun v => exp (r * v) * v ^ k) w))).
  { intros t. rewrite len_map. unfold Rdiv. apply Rmult_comm. }
  replace (Rsum (map (fun v => exp (r * v) * v ^ S k) w) / len w) with (/ len w * Rsum (map (fun v => exp (r * v) * v ^ S k) w)) by (unfold Rdiv; ring).
  apply (is_derive_scal (fun r => Rsum (map (fun v => exp (r * v) * v ^ k) w))).
  induction w as [|v w IH]; [simpl; apply (is_derive_const (V := R_NormedModule) 0)|].
  apply (is_derive_plus (V := R_NormedModule) (fun r => exp (r * v) * v ^ k) (fun r => Rsum (map (fun v => exp (r * v) * v ^ k) w))); [|exact IH].
  auto_derive; auto. simpl. ring.
Qed.
Lemma mk0_pos w r : w <> [] -> 0 < mk w 0 r.
Proof.
  intros H. unfold mk. rewrite (map_ext (fun v => exp (r * v) * v ^ 0) (fun v => exp (r * v))) by (intros; simpl; ring). now apply mean_exp_pos.
Qed.
Definition a1 w r := mk w 1 r / mk w 0 r.
Definition a2 w r := mk w 2 r / mk w 0 r - a1 w r ^ 2.
Definition a3 w r := mk w 3 r / mk w 0 r - 3 * a1 w r * (mk w 2 r / mk w 0 r) + 2 * a1 w r ^ 3.
Lemma ratio_derive w k r : w <> [] -> is_derive (fun r => mk w k r / mk w 0 r) r (mk w (S k) r / mk w 0 r - mk w k r / mk w 0 r * a1 w r).
Proof.
  intros H. pose proof (mk0_pos w r H) as P. unfold a1.
  replace (mk w (S k) r / mk w 0 r - mk w k r / mk w 0 r * (mk w 1 r / mk w 0 r)) with ((mk w (S k) r * mk w 0 r - mk w k r * mk w 1 r) / (mk w 0 r) ^ 2) by (field; lra).
  apply (is_derive_div (mk w k) (mk w 0)); [apply mk_derive|apply mk_derive|lra].
Qed.
Lemma a1_derive w r : w <> [] -> is_derive (a1 w) r (a2 w r).
Proof.
  intros H. unfold a2. replace (mk w 2 r / mk w 0 r - a1 w r ^ 2) with (mk w 2 r / mk w 0 r - mk w 1 r / mk w 0 r * a1 w r) by (unfold a1; ring).
  apply ratio_derive, H.
Qed.
Lemma a2_derive w r : w <> [] -> is_derive (a2 w) r (a3 w r).
Proof.
  intros H. unfold a2. replace (a3 w r) with ((mk w 3 r / mk w 0 r - mk w 2 r / mk w 0 r * a1 w r) - 2 * a1 w r * (a2 w r)).
  - apply (is_derive_minus (V := R_NormedModule) (fun r => mk w 2 r / mk w 0 r) (fun r => a1 w r ^ 2)); [apply ratio_derive, H|].
    replace (2 * a1 w r * a2 w r) with (INR 2 * a2 w r * a1 w r ^ pred 2) by (simpl; ring).
    apply (is_derive_pow (a1 w) 2). apply a1_derive, H.
  - unfold a3, a2. ring.
Qed.
Lemma a3_continuous w r : w <> [] -> continuous (a3 w) r.
Proof.
  intros H. apply (@ex_derive_continuous R_AbsRing R_NormedModule). unfold a3.
  assert (A : ex_derive (a1 w) r) by (eexists; now apply a1_derive).
  assert (B : ex_derive (fun r => mk w 3 r / mk w 0 r) r) by (eexists; now apply ratio_derive).
  assert (C : ex_derive (fun r => mk w 2 r / mk w 0 r) r) by (eexists; now apply ratio_derive).
  apply (ex_derive_plus (V := R_NormedModule) (fun r => mk w 3 r / mk w 0 r - 3 * a1 w r * (mk w 2 r / mk w 0 r)) (fun r => 2 * a1 w r ^ 3)).
  - apply (ex_derive_minus (V := R_NormedModule) (fun r => mk w 3 r / mk w 0 r) (fun r => 3 * a1 w r * (mk w 2 r / mk w 0 r))); [exact B|].
    apply (ex_derive_mult (fun r => 3 * a1 w r) (fun r => mk w 2 r / mk w 0 r)); [|exact C]. apply ex_derive_scal, A.
  - apply ex_derive_scal. apply (ex_derive_pow (a1 w) 3), A.
Qed.
Lemma dlog_mk w r : dlog w r = 2 * ln (mk w 0 r) - r * mean w - r * a1 w r.
Proof.
  unfold dlog, a1, mk. rewrite (map_ext (fun v => exp (r * v) * v ^ 0) (fun v => exp (r * v))) by (intros; simpl; ring).
  rewrite (map_ext (fun v => exp (r * v) * v ^ 1) (fun v => exp (r * v) * v)) by (intros; simpl; ring). unfold Rdiv. ring.
Qed.
Lemma dlog_derive w r : w <> [] -> is_derive (dlog w) r (a1 w r - mean w - r * a2 w r).
Proof.
  intros H. pose proof (mk0_pos w r H) as P.
  apply (is_derive_ext (fun r => 2 * ln (mk w 0 r) - r * mean w - r * a1 w r)); [intros t; symmetry; apply dlog_mk|].
  replace (a1 w r - mean w - r * a2 w r) with ((2 * a1 w r - mean w) - (a1 w r + r * a2 w r)) by ring.
  apply (is_derive_minus (V := R_NormedModule) (fun r => 2 * ln (mk w 0 r) - r * mean w) (fun r => r * a1 w r)).
  - apply (is_derive_minus (V := R_NormedModule) (fun r => 2 * ln (mk w 0 r)) (fun r => r * mean w)).
    + apply (is_derive_scal (fun r => ln (mk w 0 r))). 
      replace (a1 w r) with (scal (mk w 1 r) (/ mk w 0 r)) by (unfold scal; simpl; unfold mult; simpl; reflexivity).
      apply (is_derive_comp ln (mk w 0)); [|apply mk_derive]. apply is_derive_Reals. now apply derivable_pt_lim_ln.
    + auto_derive; auto. ring.
  - replace (a1 w r + r * a2 w r) with (plus (mult 1 (a1 w r)) (mult r (a2 w r))) by (unfold plus, mult; simpl; ring).
    apply (is_derive_mult (fun r => r) (a1 w)); [apply (is_derive_id r)|apply a1_derive, H|intros; apply Rmult_comm].
Qed.
Lemma dlog1_derive w r : w <> [] -> is_derive (fun r => a1 w r - mean w - r * a2 w r) r (- r * a3 w r).
Proof.
  intros H. replace (- r * a3 w r) with ((a2 w r - 0) - (a2 w r + r * a3 w r)) by ring.
  apply (is_derive_minus (V := R_NormedModule) (fun r => a1 w r - mean w) (fun r => r * a2 w r)).
  - apply (is_derive_minus (V := R_NormedModule) (a1 w) (fun _ => mean w)); [apply a1_derive, H|apply (is_derive_const (V := R_NormedModule))].
  - replace (a2 w r + r * a3 w r) with (plus (mult 1 (a2 w r)) (mult r (a3 w r))) by (unfold plus, mult; simpl; ring).
    apply (is_derive_mult (fun r => r) (a2 w)); [apply (is_derive_id r)|apply a2_derive, H|intros; apply Rmult_comm].
Qed.
Lemma mk_0 w k : mk w k 0 = mean (map (fun v => v ^ k) w).
Proof. unfold mk. f_equal. apply map_ext. intros v. rewrite Rmult_0_l, exp_0. ring. Qed.
Lemma mk0_0 w : w <> [] -> mk w 0 0 = 1.
Proof. intros H. rewrite mk_0. rewrite (map_ext (fun v : R => v ^ 0) (fun _ => 1)) by (intros; reflexivity). now apply mean_const. Qed.
Lemma a1_0 w : w <> [] -> a1 w 0 = mean w.
Proof. intros H. unfold a1. rewrite mk0_0 by trivial. rewrite mk_0. rewrite (map_ext (fun v => v ^ 1) (fun v => v)) by (intros; ring). rewrite map_id. field. Qed.
Lemma a3_0 w : w <> [] -> a3 w 0 = - clog w.
Proof. intros H. unfold a3, clog. rewrite a1_0, mk0_0, !mk_0 by trivial. field. Qed.
Lemma dlog_0 w : w <> [] -> dlog w 0 = 0.
Proof. intros H. rewrite dlog_mk, mk0_0, ln_1 by trivial. ring. Qed.
(** one integration *)
Lemma integrate f df d eps k : 0 <= eps -> (forall x, Rabs x <= d -> is_derive f x (df x)) -> f 0 = 0 -> (forall x, Rabs x <= d -> Rabs (df x) <= eps * Rabs x ^ k) ->
  forall r, Rabs r <= d -> Rabs (f r) <= eps * Rabs r ^ S k.
Proof.
  intros He Hd H0 Hb r Hr. assert (I : forall x, Rmin 0 r <= x <= Rmax 0 r -> Rabs x <= Rabs r).
  { intros x. unfold Rmin, Rmax. destruct (Rle_dec 0 r); intros Hx; [rewrite !Rabs_pos_eq by lra; lra|rewrite !Rabs_left1 by lra; lra]. }
  destruct (MVT_gen f 0 r df) as (c & Hc & E).
  - intros x Hx. apply Hd. pose proof (I x ltac:(lra)). lra.
  - intros x Hx. apply continuity_pt_filterlim. apply (@ex_derive_continuous R_AbsRing R_NormedModule). eexists. apply Hd. pose proof (I x Hx). lra.
  - rewrite H0, !Rminus_0_r in E. rewrite E, Rabs_mult. pose proof (I c Hc) as Ic.
    replace (eps * Rabs r ^ S k) with (eps * Rabs r ^ k * Rabs r) by (simpl; ring). apply Rmult_le_compat_r; [apply Rabs_pos|].
    eapply Rle_trans; [apply Hb; lra|]. apply Rmult_le_compat_l; trivial. apply pow_incr. split; [apply Rabs_pos|trivial].
Qed.
Lemma dlog_cubic w eps : w <> [] -> 0 < eps -> exists d, 0 < d /\ forall r, Rabs r <= d -> Rabs (dlog w r - clog w / 6 * r ^ 3) <= eps * Rabs r ^ 3.
Proof.
  intros H He. pose proof (a3_continuous w 0 H) as C. 
  assert (Loc : locally 0 (fun t => Rabs (a3 w t - a3 w 0) < eps)).
  { apply (C (fun u => Rabs (u - a3 w 0) < eps)). exists (mkposreal eps He). intros u Hu. exact Hu. }
  destruct Loc as [del Hdel]. exists (del / 2). pose proof (cond_pos del). split; [lra|].
  apply (integrate (fun r => dlog w r - clog w / 6 * r ^ 3) (fun r => (a1 w r - mean w - r * a2 w r) - clog w / 2 * r ^ 2) (del / 2) eps 2).
  - lra.
  - intros x _. apply (is_derive_minus (V := R_NormedModule) (dlog w) (fun r => clog w / 6 * r ^ 3)); [apply dlog_derive, H|]. auto_derive; auto. field.
  - rewrite dlog_0 by trivial. lra.
  - apply (integrate (fun r => (a1 w r - mean w - r * a2 w r) - clog w / 2 * r ^ 2) (fun r => - r * a3 w r - clog w * r) (del / 2) eps 1).
    + lra.
    + intros x _. apply (is_derive_minus (V := R_NormedModule) (fun r => a1 w r - mean w - r * a2 w r) (fun r => clog w / 2 * r ^ 2)); [apply dlog1_derive, H|]. auto_derive; auto. field.
    + rewrite a1_0 by trivial. lra.
    + intros x Hx. replace (- x * a3 w x - clog w * x) with (- ((a3 w x - a3 w 0) * x)) by (rewrite a3_0 by trivial; ring).
      rewrite Rabs_Ropp, Rabs_mult, pow_1. apply Rmult_le_compat_r; [apply Rabs_pos|]. left. apply Hdel.
      unfold ball; simpl; unfold AbsRing_ball, abs, minus, plus, opp; simpl. rewrite Ropp_0, Rplus_0_r. lra.
Qed.
