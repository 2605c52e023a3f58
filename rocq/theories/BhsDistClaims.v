(** Proofs of the theorems in Props_BhsDist.v. *)
From Coq Require Import Lia Lra Psatz.
From Verif Require Import Base DecModel EdfModel GraphModel NormalLaw ExpModel NormModel BhsModel BhsSpec BhsDistSpec.
Local Open Scope R_scope.
Lemma Rabs_def2b x y : Rabs x <= y -> - y <= x <= y.
Proof. intros H. pose proof (Rle_abs x). pose proof (Rle_abs (- x)). rewrite Rabs_Ropp in *. lra. Qed.

Definition quad (a b c : R) : R :=
  0.8571890822945882 * a ^ 2 + 0.3944817329840534 * b ^ 2 + 0.3944817329840535 * c ^ 2
  - 0.2102537814969158 * a * b + 0.2102537814969159 * a * c - 0.02219064599428844 * b * c.
Lemma bhs_value_quad n w1 w2 w3 : bhs_value n w1 w2 w3 = INR n * quad w1 (- w2 - tail_medcouple) (w3 - tail_medcouple).
Proof.
  unfold bhs_value, dot, bhs_inv, bhs_omega, tail_medcouple. f_equal.
  replace (- w2 - 198828 / 10 ^ 6) with (- w2 - 0.198828) by lra.
  replace (w3 - 198828 / 10 ^ 6) with (w3 - 0.198828) by lra.
  generalize (- w2 - 0.198828) (w3 - 0.198828). intros b c. unfold quad. simpl. rewrite !Rminus_0_r. lra.
Qed.
Lemma quad_bounds a b c : (a ^ 2 + b ^ 2 + c ^ 2) / 4 <= quad a b c <= 1.1 * (a ^ 2 + b ^ 2 + c ^ 2).
Proof.
  pose proof (pow2_ge_0 (a - b)). pose proof (pow2_ge_0 (a + b)). pose proof (pow2_ge_0 (a - c)). pose proof (pow2_ge_0 (a + c)).
  pose proof (pow2_ge_0 (b - c)). pose proof (pow2_ge_0 (b + c)). pose proof (pow2_ge_0 a). pose proof (pow2_ge_0 b). pose proof (pow2_ge_0 c).
  unfold quad. split; lra.
Qed.
Lemma abs3 x y z : Rabs (x + y + z) <= Rabs x + Rabs y + Rabs z.
Proof. eapply Rle_trans; [apply Rabs_triang|]. apply Rplus_le_compat_r, Rabs_triang. Qed.
Lemma tiny3 p q r z1 z2 z3 e : 0 <= e -> Rabs p <= e -> Rabs q <= e -> Rabs r <= e ->
  Rabs (p * z1 + q * z2 + r * z3) <= e * (Rabs z1 + Rabs z2 + Rabs z3).
Proof.
  intros E P Q T. eapply Rle_trans; [apply abs3|]. rewrite !Rabs_mult.
  pose proof (Rabs_pos z1). pose proof (Rabs_pos z2). pose proof (Rabs_pos z3).
  pose proof (Rmult_le_compat_r _ _ _ (Rabs_pos z1) P). pose proof (Rmult_le_compat_r _ _ _ (Rabs_pos z2) Q). pose proof (Rmult_le_compat_r _ _ _ (Rabs_pos z3) T). lra.
Qed.
(** the matrix of the program applied to a vector *)
Lemma rows z1 z2 z3 a b c : covariance (z1, z2, z3) = (a, b, c) ->
  Rabs (0.8571890822945882 * a - 0.1051268907484579 * b + 0.1051268907484580 * c - z1) <= / 10 ^ 15 * (Rabs z1 + Rabs z2 + Rabs z3) /\
  Rabs (- 0.1051268907484579 * a + 0.3944817329840534 * b - 0.01109532299714422 * c - z2) <= / 10 ^ 15 * (Rabs z1 + Rabs z2 + Rabs z3) /\
  Rabs (0.1051268907484579 * a - 0.01109532299714422 * b + 0.3944817329840535 * c - z3) <= / 10 ^ 15 * (Rabs z1 + Rabs z2 + Rabs z3).
Proof.
  intros E. injection E as <- <- <-.
  assert (K : forall p q r x, x = p * z1 + q * z2 + r * z3 -> Rabs p <= / 10 ^ 15 -> Rabs q <= / 10 ^ 15 -> Rabs r <= / 10 ^ 15 -> Rabs x <= / 10 ^ 15 * (Rabs z1 + Rabs z2 + Rabs z3)).
  { intros p q r x -> P Q T. apply tiny3; trivial. lra. }
  repeat split.
  - apply (K (0.8571890822945882 * 1.24581 - 0.1051268907484579 * 0.322918 - 0.1051268907484580 * 0.322918 - 1)
             (0.8571890822945882 * 0.322918 - 0.1051268907484579 * 2.62068 - 0.1051268907484580 * 0.0123455)
             (- 0.8571890822945882 * 0.322918 + 0.1051268907484579 * 0.0123455 + 0.1051268907484580 * 2.62068)); [lra|apply Rabs_le; lra..].
  - apply (K (- 0.1051268907484579 * 1.24581 + 0.3944817329840534 * 0.322918 + 0.01109532299714422 * 0.322918)
             (- 0.1051268907484579 * 0.322918 + 0.3944817329840534 * 2.62068 + 0.01109532299714422 * 0.0123455 - 1)
             (0.1051268907484579 * 0.322918 - 0.3944817329840534 * 0.0123455 - 0.01109532299714422 * 2.62068)); [lra|apply Rabs_le; lra..].
  - apply (K (0.1051268907484579 * 1.24581 - 0.01109532299714422 * 0.322918 - 0.3944817329840535 * 0.322918)
             (0.1051268907484579 * 0.322918 - 0.01109532299714422 * 2.62068 - 0.3944817329840535 * 0.0123455)
             (- 0.1051268907484579 * 0.322918 + 0.01109532299714422 * 0.0123455 + 0.3944817329840535 * 2.62068 - 1)); [lra|apply Rabs_le; lra..].
Qed.
Lemma quad_rows a b c : Rabs (quad a b c - (a * (0.8571890822945882 * a - 0.1051268907484579 * b + 0.1051268907484580 * c)
  + b * (- 0.1051268907484579 * a + 0.3944817329840534 * b - 0.01109532299714422 * c)
  + c * (0.1051268907484579 * a - 0.01109532299714422 * b + 0.3944817329840535 * c))) = 0.
Proof. unfold quad. match goal with |- Rabs ?x = 0 => replace x with 0 by lra end. apply Rabs_R0. Qed.


Lemma covariance_onto a b c : exists z, covariance z = (a, b, c).
Proof.
  exists ((2633025500000 / 3071697428707) * a + (- 322918000000 / 3071697428707) * b + (322918000000 / 3071697428707) * c, (- 322918000000 / 3071697428707) * a + (6321186632152000000 / 16024028753715516983) * b + (- 177791774738000000 / 16024028753715516983) * c, (322918000000 / 3071697428707) * a + (- 177791774738000000 / 16024028753715516983) * b + (6321186632152000000 / 16024028753715516983) * c).
  unfold covariance. repeat (apply f_equal2); lra.
Qed.
Lemma norm1 z1 z2 z3 a b c : covariance (z1, z2, z3) = (a, b, c) -> Rabs z1 + Rabs z2 + Rabs z3 <= 2 * (Rabs a + Rabs b + Rabs c).
Proof.
  intros E. destruct (rows _ _ _ _ _ _ E) as [A [B C]]. set (S := Rabs z1 + Rabs z2 + Rabs z3) in *.
  assert (H : forall p q r x k, Rabs (p * a + q * b + r * c - x) <= k -> Rabs x <= Rabs p * Rabs a + Rabs q * Rabs b + Rabs r * Rabs c + k).
  { intros p q r x k H. replace x with ((p * a + q * b + r * c) - (p * a + q * b + r * c - x)) by ring. eapply Rle_trans; [apply Rabs_triang|]. rewrite Rabs_Ropp. pose proof (abs3 (p * a) (q * b) (r * c)) as T. rewrite !Rabs_mult in T. lra. }
  assert (A1 : Rabs z1 <= Rabs 0.8571890822945882 * Rabs a + Rabs (- 0.1051268907484579) * Rabs b + Rabs 0.1051268907484580 * Rabs c + / 10 ^ 15 * S)
    by (apply H; eapply Rle_trans; [right|exact A]; f_equal; lra).
  assert (A2 : Rabs z2 <= Rabs (- 0.1051268907484579) * Rabs a + Rabs 0.3944817329840534 * Rabs b + Rabs (- 0.01109532299714422) * Rabs c + / 10 ^ 15 * S)
    by (apply H; eapply Rle_trans; [right|exact B]; f_equal; lra).
  assert (A3 : Rabs z3 <= Rabs 0.1051268907484579 * Rabs a + Rabs (- 0.01109532299714422) * Rabs b + Rabs 0.3944817329840535 * Rabs c + / 10 ^ 15 * S)
    by (apply H; eapply Rle_trans; [right|exact C]; f_equal; lra).
  assert (AP : forall k, 0 < k -> Rabs k = k) by (intros; apply Rabs_right; lra).
  assert (AN : forall k, k < 0 -> Rabs k = - k) by (intros; now apply Rabs_left).
  rewrite (AP 0.8571890822945882), (AN (-0.1051268907484579)), (AP 0.1051268907484580) in A1 by lra.
  rewrite (AP 0.3944817329840534), (AN (-0.1051268907484579)), (AN (-0.01109532299714422)) in A2 by lra.
  rewrite (AP 0.3944817329840535), (AP 0.1051268907484579), (AN (-0.01109532299714422)) in A3 by lra.
  pose proof (Rabs_pos a). pose proof (Rabs_pos b). pose proof (Rabs_pos c). pose proof (Rabs_pos z1). pose proof (Rabs_pos z2). pose proof (Rabs_pos z3). unfold S in *. lra.
Qed.
Lemma quad_distance a b c d : squared_distance (a, b, c) d -> Rabs (quad a b c - d) <= d / 10 ^ 13.
Proof.
  intros [[[z1 z2] z3] [E ->]]. pose proof (norm1 _ _ _ _ _ _ E) as N. destruct (rows _ _ _ _ _ _ E) as [A [B C]]. set (S := Rabs z1 + Rabs z2 + Rabs z3) in *.
  set (r1 := 0.8571890822945882 * a - 0.1051268907484579 * b + 0.1051268907484580 * c) in *.
  set (r2 := - 0.1051268907484579 * a + 0.3944817329840534 * b - 0.01109532299714422 * c) in *.
  set (r3 := 0.1051268907484579 * a - 0.01109532299714422 * b + 0.3944817329840535 * c) in *.
  assert (Q : quad a b c - inner (a, b, c) (z1, z2, z3) = (r1 - z1) * a + (r2 - z2) * b + (r3 - z3) * c) by (unfold quad, inner, r1, r2, r3; lra).
  assert (S0 : 0 <= S) by (unfold S; pose proof (Rabs_pos z1); pose proof (Rabs_pos z2); pose proof (Rabs_pos z3); lra).
  pose proof (tiny3 _ _ _ a b c (/ 10 ^ 15 * S) ltac:(lra) A B C) as T. rewrite <- Q in T.
  set (T1 := Rabs a + Rabs b + Rabs c) in *. assert (T0 : 0 <= T1) by (unfold T1; pose proof (Rabs_pos a); pose proof (Rabs_pos b); pose proof (Rabs_pos c); lra).
  assert (SQ : T1 ^ 2 <= 3 * (a ^ 2 + b ^ 2 + c ^ 2)).
  { rewrite <- (pow2_abs a), <- (pow2_abs b), <- (pow2_abs c). unfold T1. generalize (Rabs a) (Rabs b) (Rabs c). intros x y z. pose proof (pow2_ge_0 (x - y)). pose proof (pow2_ge_0 (x - z)). pose proof (pow2_ge_0 (y - z)). lra. }
  pose proof (proj1 (quad_bounds a b c)) as LB. pose proof (Rmult_le_compat_r T1 _ _ T0 N) as NT.
  assert (U : Rabs (quad a b c - inner (a, b, c) (z1, z2, z3)) <= 24 / 10 ^ 15 * quad a b c) by nra.
  apply Rabs_le. apply Rabs_def2b in U. lra.
Qed.

(** *** C114 *)
(** the value combined from three medcouples is the number of observations times the squared Mahalanobis distance of
    the medcouples from their values for the normal law, up to the rounding of the inverse covariance matrix *)
Lemma C114_distance_holds : forall n mc lower upper d, squared_distance (deviations mc lower upper) d ->
  Rabs (bhs_value n mc lower upper - INR n * d) <= INR n * d / 10 ^ 13.
Proof.
  intros n mc lower upper d H. rewrite bhs_value_quad. apply quad_distance in H. pose proof (pos_INR n) as P.
  rewrite <- Rmult_minus_distr_l, Rabs_mult, (Rabs_right (INR n)) by lra. unfold Rdiv in *. rewrite Rmult_assoc. now apply Rmult_le_compat_l.
Qed.
(** the distance exists, is unique and vanishes for the medcouples of the normal law only *)
Lemma C114_distance_exists_holds : forall e, exists d, squared_distance e d /\ 0 <= d /\ (d = 0 <-> e = (0, 0, 0)) /\
  forall d', squared_distance e d' -> d' = d.
Proof.
  intros [[a b] c]. destruct (covariance_onto a b c) as [[[z1 z2] z3] E]. exists (inner (a, b, c) (z1, z2, z3)).
  assert (D : squared_distance (a, b, c) (inner (a, b, c) (z1, z2, z3))) by (exists (z1, z2, z3); auto).
  pose proof (quad_distance _ _ _ _ D) as Q. pose proof (quad_bounds a b c) as LB. set (d := inner _ _) in *.
  apply Rabs_def2b in Q.
  pose proof (pow2_ge_0 a). pose proof (pow2_ge_0 b). pose proof (pow2_ge_0 c).
  split; [exact D|]. split; [lra|]. split; [split|].
  - intros Z. assert (a ^ 2 = 0 /\ b ^ 2 = 0 /\ c ^ 2 = 0) as [A [B C]] by (repeat split; lra).
    assert (K : forall x, x ^ 2 = 0 -> x = 0) by (intros; nra). now rewrite (K a A), (K b B), (K c C).
  - intros K. injection K as -> -> ->. unfold d, inner. ring.
  - intros d' [[[y1 y2] y3] [E' ->]].
    assert (Y : covariance (z1 - y1, z2 - y2, z3 - y3) = (0, 0, 0)).
    { unfold covariance in E, E' |- *. injection E as E1 E2 E3. injection E' as F1 F2 F3. repeat (apply f_equal2); lra. }
    apply norm1 in Y. rewrite Rabs_R0 in Y. pose proof (Rabs_pos (z1 - y1)). pose proof (Rabs_pos (z2 - y2)). pose proof (Rabs_pos (z3 - y3)).
    assert (K : forall x, Rabs x <= 0 -> x = 0) by (intros x X; pose proof (Rle_abs x); pose proof (Rle_abs (- x)); rewrite Rabs_Ropp in *; lra).
    unfold d, inner. rewrite (Rminus_diag_uniq z1 y1), (Rminus_diag_uniq z2 y2), (Rminus_diag_uniq z3 y3) by (apply K; lra). reflexivity.
Qed.
(** it is comparable with the sum of squares of the deviations, hence not negative, zero for the medcouples of the
    normal law only, and grows with the number of observations for any others *)
Lemma C114_bounds_holds : forall n mc lower upper,
  let s := mc ^ 2 + (lower + tail_medcouple) ^ 2 + (upper - tail_medcouple) ^ 2 in
  INR n * s / 4 <= bhs_value n mc lower upper <= 1.1 * INR n * s.
Proof.
  intros n mc lower upper s. rewrite bhs_value_quad. pose proof (pos_INR n) as P. pose proof (quad_bounds mc (- lower - tail_medcouple) (upper - tail_medcouple)) as [L U].
  replace ((- lower - tail_medcouple) ^ 2) with ((lower + tail_medcouple) ^ 2) in * by ring. fold s in L, U.
  split; [replace (INR n * s / 4) with (INR n * (s / 4)) by field|replace (1.1 * INR n * s) with (INR n * (1.1 * s)) by lra]; now apply Rmult_le_compat_l.
Qed.
(** exchanging the tails changes the value by rounding errors of the matrix only *)
Lemma C114_tails_exchanged_holds : forall n mc lower upper,
  Rabs (bhs_value n (- mc) (- upper) (- lower) - bhs_value n mc lower upper) <= bhs_value n mc lower upper / 10 ^ 13.
Proof.
  intros n mc lower upper. rewrite !bhs_value_quad. pose proof (pos_INR n) as P. replace (- - upper - tail_medcouple) with (upper - tail_medcouple) by ring.
  generalize mc (- lower - tail_medcouple) (upper - tail_medcouple). intros a b c.
  rewrite <- Rmult_minus_distr_l, Rabs_mult, (Rabs_right (INR n)) by lra. unfold Rdiv. rewrite Rmult_assoc. apply Rmult_le_compat_l; trivial.
  pose proof (quad_bounds a b c) as LB.
  pose proof (pow2_ge_0 (a - b)). pose proof (pow2_ge_0 (a + b)). pose proof (pow2_ge_0 (a - c)). pose proof (pow2_ge_0 (a + c)).
  pose proof (pow2_ge_0 (b - c)). pose proof (pow2_ge_0 (b + c)). pose proof (pow2_ge_0 a). pose proof (pow2_ge_0 b). pose proof (pow2_ge_0 c).
  assert (Q : quad (- a) c b - quad a b c = / 10 ^ 16 * (b ^ 2 - c ^ 2 - a * b - a * c)) by (unfold quad; lra).
  rewrite Q. apply Rabs_le. lra.
Qed.
(** a returned number comes from three medcouples, of the sample and of its halves, and is not negative *)
Lemma C114_statistic_holds : forall rvs v, returns (fun fuel => bhs fuel rvs) (Ok (Some (Fin v))) ->
  exists mc lower upper d, squared_distance (deviations mc lower upper) d /\ 0 <= v /\
    Rabs (v - INR (length rvs) * d) <= INR (length rvs) * d / 10 ^ 13 /\
    (exists it, returns (fun fuel => mc_c_d fuel 1000 rvs) (Ok (mc, it))) /\
    (exists it0 it, returns (fun fuel => mc_c_d fuel it0 (firstn ((length rvs + 1) / 2) (rsort rvs))) (Ok (lower, it))) /\
    exists it0 it, returns (fun fuel => mc_c_d fuel it0 (skipn ((length rvs + 1) / 2) (rsort rvs))) (Ok (upper, it)).
Proof.
  intros rvs v [fuel E]. unfold bhs in E. destruct (3 <? length rvs)%nat; [|discriminate].
  destruct (mc_c_d fuel 1000 rvs) as [[[w1 i1]|e]|] eqn:E1; try discriminate.
  destruct (mc_c_d fuel i1 _) as [[[w2 i2]|e]|] eqn:E2; try discriminate.
  destruct (mc_c_d fuel i2 _) as [[[w3 i3]|e]|] eqn:E3; try discriminate.
  injection E as <-. destruct (C114_distance_exists_holds (deviations w1 w2 w3)) as [d [D [D0 _]]]. exists w1, w2, w3, d.
  split; [exact D|]. split.
  - pose proof (C114_bounds_holds (length rvs) w1 w2 w3) as [L _]. cbv zeta in L. eapply Rle_trans; [|exact L].
    unfold Rdiv. apply Rmult_le_pos; [|lra]. apply Rmult_le_pos; [apply pos_INR|]. repeat apply Rplus_le_le_0_compat; apply pow2_ge_0.
  - split; [now apply C114_distance_holds|]. split; [exists i1, fuel; exact E1|]. split; [exists i1, i2, fuel; exact E2|exists i2, i3, fuel; exact E3].
Qed.
(** the medcouples of the normal law give 0, and without deviation in the tails a medcouple of 1/2 among eight
    observations gives 1.7143781645891764 *)
Lemma C114_nonvacuous_holds :
  bhs_value 8 0 (- tail_medcouple) tail_medcouple = 0 /\
  bhs_value 8 (1 / 2) (- tail_medcouple) tail_medcouple = 1.7143781645891764 /\
  bhs_value 8 0 (1 / 2 - tail_medcouple) tail_medcouple = 0.7889634659681068.
Proof.
  rewrite !bhs_value_quad. unfold quad, tail_medcouple. replace (INR 8) with 8 by (simpl; lra). repeat split; lra.
Qed.
