(** Proofs about the beta law. *)
From Coquelicot Require Import Coquelicot.
From Verif Require Import Base NormalLaw BetaSpec BetaLawSpec.
From Coq Require Import Lra Lia.

Lemma near_unit (P : R -> R -> Prop) : (forall u v, 0 < u -> u < v -> v < 1 -> P u v) ->
  filter_prod (at_right 0) (at_left 1) (fun ab => P (fst ab) (snd ab)).
Proof.
  intros H. apply (Filter_prod _ _ _ (fun u => 0 < u < 1 / 2) (fun v => 1 / 2 < v < 1)).
  - exists (mkposreal (1 / 2) ltac:(lra)). intros u Hu Hu0. change (Rabs (u - 0) < 1 / 2) in Hu. apply Rabs_def2 in Hu. lra.
  - exists (mkposreal (1 / 2) ltac:(lra)). intros v Hv Hv0. change (Rabs (v - 1) < 1 / 2) in Hv. apply Rabs_def2 in Hv. lra.
  - intros u v Hu Hv. apply H; simpl; lra.
Qed.
Lemma over_ext f g v : (forall x, 0 < x < 1 -> f x = g x) -> over_unit f v -> over_unit g v.
Proof.
  intros E. apply is_RInt_gen_ext. apply (near_unit (fun u v => forall x, Rmin u v < x < Rmax u v -> f x = g x)).
  intros u w Hu Hw H1 x. rewrite Rmin_left, Rmax_right by lra. intros Hx. apply E. lra.
Qed.
Lemma over_plus f g u v : over_unit f u -> over_unit g v -> over_unit (fun x => f x + g x) (u + v).
Proof. intros F G. exact (is_RInt_gen_plus _ _ _ _ F G). Qed.
Lemma over_scal f k u : over_unit f u -> over_unit (fun x => k * f x) (k * u).
Proof. intros F. exact (is_RInt_gen_scal f k _ F). Qed.
(** the fundamental theorem *)
Lemma over_derive F f la lb : (forall x, 0 < x < 1 -> is_derive F x (f x)) -> (forall x, 0 < x < 1 -> continuous f x) ->
  filterlim F (at_right 0) (locally la) -> filterlim F (at_left 1) (locally lb) -> over_unit f (lb - la).
Proof.
  intros D C La Lb.
  assert (Lim : filterlim (fun ab : R * R => plus (F (snd ab)) (opp (F (fst ab)))) (filter_prod (at_right 0) (at_left 1)) (locally (plus lb (opp la)))).
  { eapply filterlim_comp_2; [| |apply (filterlim_plus (V := R_NormedModule))].
    - apply (filterlim_comp _ _ _ (@snd R R) F _ (at_left 1)); [apply filterlim_snd|exact Lb].
    - apply (filterlim_comp _ _ _ (fun ab : R * R => F (fst ab)) opp _ (locally la)); [|apply (filterlim_opp (V := R_NormedModule))].
      apply (filterlim_comp _ _ _ (@fst R R) F _ (at_right 0)); [apply filterlim_fst|exact La]. }
  intros P HP. specialize (Lim P HP). unfold filtermapi. unfold filtermap in Lim.
  assert (N : filter_prod (at_right 0) (at_left 1) (fun ab => 0 < fst ab /\ fst ab < snd ab /\ snd ab < 1)) by (apply (near_unit (fun u v => 0 < u /\ u < v /\ v < 1)); intros; lra).
  pose proof (filter_and _ _ Lim N) as LN. revert LN. apply filter_imp. intros [u v] [H (Hu & Huv & Hv)]. simpl in *. eexists. split; [|exact H].
  apply (is_RInt_derive F f); rewrite Rmin_left, Rmax_right by lra; intros x Hx; [apply D|apply C]; lra.
Qed.
(** *** powers *)
Lemma Rpower_pos x y : 0 < Rpower x y. Proof. apply exp_pos. Qed.
Lemma power_lim A : 0 < A -> forall eps, 0 < eps -> exists d, 0 < d /\ forall x, 0 < x < d -> Rpower x A < eps.
Proof.
  intros HA eps He. exists (Rpower eps (/ A)). split; [apply Rpower_pos|]. intros x Hx.
  replace eps with (Rpower (Rpower eps (/ A)) A).
  - now apply Rlt_Rpower_l.
  - rewrite Rpower_mult, Rinv_l by lra. now apply Rpower_1.
Qed.
Lemma power_le_1 x A : 0 < x <= 1 -> 0 <= A -> Rpower x A <= 1.
Proof. intros Hx HA. rewrite <- (Rpower_O 1) by lra. rewrite !Rpower_O by lra. replace 1 with (Rpower 1 A) by (unfold Rpower; rewrite ln_1, Rmult_0_r; apply exp_0). now apply Rle_Rpower_l. Qed.
Definition mono A B x := Rpower x A * Rpower (1 - x) B.
Lemma mono_mirror A B x : mono A B x = mono B A (1 - x).
Proof. unfold mono. replace (1 - (1 - x)) with x by ring. ring. Qed.
Lemma mono_pos A B x : 0 < mono A B x.
Proof. apply Rmult_lt_0_compat; apply Rpower_pos. Qed.
Lemma mono_le A B x : 0 < x < 1 -> 0 <= B -> mono A B x <= Rpower x A.
Proof. intros Hx HB. unfold mono. pose proof (power_le_1 (1 - x) B ltac:(lra) HB). pose proof (Rpower_pos x A). nra. Qed.
Lemma mono_lim0 A B : 0 < A -> 0 <= B -> filterlim (mono A B) (at_right 0) (locally 0).
Proof.
  intros HA HB P [eps HP]. destruct (power_lim A HA eps (cond_pos eps)) as (d & Hd & L).
  assert (M : 0 < Rmin d 1) by (apply Rmin_pos; lra).
  exists (mkposreal _ M). intros x Hx Hx0. change (Rabs (x - 0) < Rmin d 1) in Hx. apply Rabs_def2 in Hx as [Hx _].
  pose proof (Rmin_l d 1). pose proof (Rmin_r d 1). apply HP. change (Rabs (mono A B x - 0) < eps). rewrite Rminus_0_r.
  rewrite Rabs_pos_eq by (left; apply mono_pos). eapply Rle_lt_trans; [apply mono_le; lra|]. apply L. lra.
Qed.
Lemma mono_lim1 A B : 0 <= A -> 0 < B -> filterlim (mono A B) (at_left 1) (locally 0).
Proof.
  intros HA HB P HP. destruct (mono_lim0 B A HB HA P HP) as [d Hd]. exists d. intros x Hx Hx1.
  change (Rabs (x - 1) < d) in Hx. rewrite mono_mirror. apply Hd; [|lra]. change (Rabs (1 - x - 0) < d). replace (1 - x - 0) with (- (x - 1)) by ring. now rewrite Rabs_Ropp.
Qed.
Lemma mono_derive A B x : 0 < x < 1 -> is_derive (mono A B) x (A * mono (A - 1) B x - B * mono A (B - 1) x).
Proof.
  intros Hx. unfold mono, Rpower. auto_derive; [lra|].
  replace ((A - 1) * ln x) with (A * ln x + - ln x) by ring. replace ((B - 1) * ln (1 - x)) with (B * ln (1 - x) + - ln (1 - x)) by ring.
  rewrite !exp_plus, !exp_Ropp, !exp_ln by lra. replace (1 + - x) with (1 - x) by ring. field. lra.
Qed.
Lemma mono_cont A B x : 0 < x < 1 -> continuous (mono A B) x.
Proof. intros Hx. apply (@ex_derive_continuous R_AbsRing R_NormedModule). eexists. now apply mono_derive. Qed.
Lemma mono_shift A B x : 0 < x < 1 -> mono (A + 1) B x = x * mono A B x.
Proof. intros Hx. unfold mono. rewrite Rpower_plus, Rpower_1 by lra. ring. Qed.
Lemma mono_shift' A B x : 0 < x < 1 -> mono A (B + 1) x = (1 - x) * mono A B x.
Proof. intros Hx. unfold mono. rewrite Rpower_plus, Rpower_1 by lra. ring. Qed.
Lemma weight_mono a b x : beta_weight a b x = mono (a - 1) (b - 1) x. Proof. reflexivity. Qed.
(** the derivative of x^a (1-x)^b *)
Lemma by_parts a b : 0 < a -> 0 < b -> over_unit (fun x => a * beta_weight a b x - (a + b) * (x * beta_weight a b x)) 0.
Proof.
  intros Ha Hb. replace 0 with (0 - 0) by ring.
  assert (E : forall x, 0 < x < 1 -> a * mono (a - 1) b x - b * mono a (b - 1) x = a * beta_weight a b x - (a + b) * (x * beta_weight a b x)).
  { intros x Hx. rewrite weight_mono. replace b with (b - 1 + 1) at 1 by ring. replace a with (a - 1 + 1) at 3 by ring. rewrite mono_shift, mono_shift' by trivial. ring. }
  apply (over_ext (fun x => a * mono (a - 1) b x - b * mono a (b - 1) x)); [exact E|].
  apply (over_derive (mono a b)); [apply mono_derive| |apply mono_lim0; lra|apply mono_lim1; lra].
  intros x Hx. apply (continuous_minus (V := R_NormedModule) (fun x => a * mono (a - 1) b x) (fun x => b * mono a (b - 1) x)); apply (continuous_scal_r (V := R_NormedModule)); now apply mono_cont.
Qed.
(** *** existence of the constant *)
Definition ext a b x := if Rle_dec x 0 then 0 else if Rle_dec 1 x then 0 else beta_weight a b x.
Lemma ext_in a b x : 0 < x < 1 -> ext a b x = beta_weight a b x.
Proof. intros Hx. unfold ext. destruct (Rle_dec x 0); [lra|]. destruct (Rle_dec 1 x); [lra|]. reflexivity. Qed.
Lemma ext_out a b x : x <= 0 \/ 1 <= x -> ext a b x = 0.
Proof. intros Hx. unfold ext. destruct (Rle_dec x 0); trivial. destruct (Rle_dec 1 x); trivial. lra. Qed.
Lemma ext_cont a b x : 1 < a -> 1 < b -> continuous (ext a b) x.
Proof.
  intros Ha Hb. destruct (Rlt_dec x 0) as [H|H].
  { apply (continuous_ext_loc (ext a b) (fun _ => 0)); [|apply continuous_const].
    exists (mkposreal (- x) ltac:(lra)). intros y Hy. change (Rabs (y - x) < - x) in Hy. apply Rabs_def2 in Hy. rewrite ext_out; trivial. left; lra. }
  destruct (Rlt_dec 1 x) as [H1|H1].
  { apply (continuous_ext_loc (ext a b) (fun _ => 0)); [|apply continuous_const].
    exists (mkposreal (x - 1) ltac:(lra)). intros y Hy. change (Rabs (y - x) < x - 1) in Hy. apply Rabs_def2 in Hy. rewrite ext_out; trivial. right; lra. }
  destruct (Req_dec x 0) as [->|N0].
  { intros P HP. rewrite ext_out in HP by lra. destruct (mono_lim0 (a - 1) (b - 1) ltac:(lra) ltac:(lra) P HP) as [d Hd].
    assert (M : 0 < Rmin d 1) by (apply Rmin_pos; [apply cond_pos|lra]). exists (mkposreal _ M). intros y Hy. change (Rabs (y - 0) < Rmin d 1) in Hy.
    pose proof (Rmin_l d 1). pose proof (Rmin_r d 1). destruct (Rle_dec y 0) as [Y|Y].
    - rewrite ext_out by lra. now apply locally_singleton in HP.
    - pose proof Hy as Hy'. apply Rabs_def2 in Hy'. rewrite ext_in by lra. apply (Hd y); [|lra]. change (Rabs (y - 0) < d). lra. }
  destruct (Req_dec x 1) as [->|N1].
  { intros P HP. rewrite ext_out in HP by lra. destruct (mono_lim1 (a - 1) (b - 1) ltac:(lra) ltac:(lra) P HP) as [d Hd].
    assert (M : 0 < Rmin d 1) by (apply Rmin_pos; [apply cond_pos|lra]). exists (mkposreal _ M). intros y Hy. change (Rabs (y - 1) < Rmin d 1) in Hy.
    pose proof (Rmin_l d 1). pose proof (Rmin_r d 1). destruct (Rle_dec 1 y) as [Y|Y].
    - rewrite ext_out by lra. now apply locally_singleton in HP.
    - pose proof Hy as Hy'. apply Rabs_def2 in Hy'. rewrite ext_in by lra. apply (Hd y); [|lra]. change (Rabs (y - 1) < d). lra. }
  apply (continuous_ext_loc (ext a b) (mono (a - 1) (b - 1))); [|apply mono_cont; lra].
  assert (M : 0 < Rmin x (1 - x)) by (apply Rmin_pos; lra). exists (mkposreal _ M). intros y Hy. change (Rabs (y - x) < Rmin x (1 - x)) in Hy.
  pose proof (Rmin_l x (1 - x)). pose proof (Rmin_r x (1 - x)). apply Rabs_def2 in Hy. now rewrite ext_in by lra.
Qed.
Lemma constant_large a b : 1 < a -> 1 < b -> exists c, beta_constant a b c.
Proof.
  intros Ha Hb. set (G := fun x => RInt (ext a b) 0 x). exists (RInt (ext a b) 0 1).
  assert (Ex : forall u v, ex_RInt (ext a b) u v) by (intros u v; apply (ex_RInt_continuous (V := R_CompleteNormedModule)); intros; now apply ext_cont).
  assert (D : forall x, is_derive G x (ext a b x)).
  { intros x. apply (is_derive_RInt (V := R_CompleteNormedModule) (ext a b) G 0); [|now apply ext_cont]. apply filter_forall. intros y. apply RInt_correct, Ex. }
  assert (C : forall x, continuous G x) by (intros x; apply (@ex_derive_continuous R_AbsRing R_NormedModule); eexists; apply D).
  split.
  - apply RInt_gt_0; [lra| |intros; now apply ext_cont]. intros x Hx. rewrite ext_in by trivial. apply mono_pos.
  - apply (over_ext (ext a b)); [intros x Hx; now apply ext_in|].
    replace (RInt (ext a b) 0 1) with (G 1 - G 0) by (unfold G; rewrite RInt_point; unfold zero; simpl; ring).
    apply (over_derive G); [intros; apply D|intros; now apply ext_cont| |].
    + apply (filterlim_filter_le_1 (F := locally 0)); [apply filter_le_within|apply (C 0)].
    + apply (filterlim_filter_le_1 (F := locally 1)); [apply filter_le_within|apply (C 1)].
Qed.
Lemma constant_down_a a b c : 0 < a -> 0 < b -> beta_constant (a + 1) b c -> beta_constant a b ((a + b) / a * c).
Proof.
  intros Ha Hb [P H]. split; [apply Rmult_lt_0_compat; trivial; apply Rdiv_lt_0_compat; lra|].
  pose proof (by_parts a b Ha Hb) as D. pose proof (over_plus _ _ _ _ (over_scal _ (/ a) _ D) (over_scal _ ((a + b) / a) _ H)) as K.
  replace ((a + b) / a * c) with (/ a * 0 + (a + b) / a * c) by ring. revert K. apply over_ext. intros x Hx.
  rewrite (weight_mono (a + 1)), (weight_mono a). replace (a + 1 - 1) with (a - 1 + 1) by ring. rewrite mono_shift by trivial. field. lra.
Qed.
Lemma constant_down_b a b c : 0 < a -> 0 < b -> beta_constant a (b + 1) c -> beta_constant a b ((a + b) / b * c).
Proof.
  intros Ha Hb [P H]. split; [apply Rmult_lt_0_compat; trivial; apply Rdiv_lt_0_compat; lra|].
  pose proof (by_parts a b Ha Hb) as D. pose proof (over_plus _ _ _ _ (over_scal _ (- / b) _ D) (over_scal _ ((a + b) / b) _ H)) as K.
  replace ((a + b) / b * c) with (- / b * 0 + (a + b) / b * c) by ring. revert K. apply over_ext. intros x Hx.
  rewrite (weight_mono a (b + 1)), (weight_mono a b). replace (b + 1 - 1) with (b - 1 + 1) by ring. rewrite mono_shift' by trivial. field. lra.
Qed.
Lemma constant_exists a b : 0 < a -> 0 < b -> exists c, beta_constant a b c.
Proof.
  intros Ha Hb. destruct (constant_large (a + 1) (b + 1)) as [c Hc]; [lra..|].
  eexists. apply constant_down_b; trivial. apply constant_down_a; [trivial|lra|exact Hc].
Qed.
(** *** moments *)
Lemma moment_step a b c : 0 < a -> 0 < b -> over_unit (beta_weight a b) c -> over_unit (beta_weight (a + 1) b) (a / (a + b) * c).
Proof.
  intros Ha Hb H. pose proof (by_parts a b Ha Hb) as D. pose proof (over_plus _ _ _ _ (over_scal _ (- / (a + b)) _ D) (over_scal _ (a / (a + b)) _ H)) as K.
  replace (a / (a + b) * c) with (- / (a + b) * 0 + a / (a + b) * c) by ring. revert K. apply over_ext. intros x Hx.
  rewrite (weight_mono (a + 1)), (weight_mono a). replace (a + 1 - 1) with (a - 1 + 1) by ring. rewrite mono_shift by trivial. field. lra.
Qed.
Fixpoint raw (a b : R) (k : nat) : R := match k with O => 1 | S j => raw a b j * ((a + INR j) / (a + b + INR j)) end.
Lemma raw_moment a b c k : 0 < a -> 0 < b -> over_unit (beta_weight a b) c -> over_unit (fun x => x ^ k * beta_weight a b x) (raw a b k * c).
Proof.
  intros Ha Hb H. assert (S : over_unit (beta_weight (a + INR k) b) (raw a b k * c)).
  { induction k as [|k IH]; [simpl; rewrite Rplus_0_r, Rmult_1_l; exact H|].
    pose proof (moment_step (a + INR k) b _ ltac:(pose proof (pos_INR k); lra) Hb IH) as M. rewrite S_INR. replace (a + (INR k + 1)) with (a + INR k + 1) by ring.
    cbn [raw]. replace (raw a b k * ((a + INR k) / (a + b + INR k)) * c) with ((a + INR k) / (a + INR k + b) * (raw a b k * c)); [exact M|].
    field. pose proof (pos_INR k). lra. }
  revert S. apply over_ext. intros x Hx. unfold beta_weight. replace (a + INR k - 1) with (a - 1 + INR k) by ring. rewrite Rpower_plus, Rpower_pow by lra. ring.
Qed.
(** polynomials of degree 4 *)
Lemma poly_mean a b k0 k1 k2 k3 k4 : 0 < a -> 0 < b ->
  beta_expects a b (fun x => k0 + k1 * x + k2 * x ^ 2 + k3 * x ^ 3 + k4 * x ^ 4)
    (k0 + k1 * raw a b 1 + k2 * raw a b 2 + k3 * raw a b 3 + k4 * raw a b 4).
Proof.
  intros Ha Hb. destruct (constant_exists a b Ha Hb) as (c & P & H). exists c. split; [now split|].
  pose proof (raw_moment a b c 0 Ha Hb H) as M0. pose proof (raw_moment a b c 1 Ha Hb H) as M1. pose proof (raw_moment a b c 2 Ha Hb H) as M2.
  pose proof (raw_moment a b c 3 Ha Hb H) as M3. pose proof (raw_moment a b c 4 Ha Hb H) as M4.
  apply (over_scal _ (k0 / c)) in M0. apply (over_scal _ (k1 / c)) in M1. apply (over_scal _ (k2 / c)) in M2. apply (over_scal _ (k3 / c)) in M3. apply (over_scal _ (k4 / c)) in M4.
  pose proof (over_plus _ _ _ _ (over_plus _ _ _ _ (over_plus _ _ _ _ (over_plus _ _ _ _ M0 M1) M2) M3) M4) as K.
  replace (k0 + k1 * raw a b 1 + k2 * raw a b 2 + k3 * raw a b 3 + k4 * raw a b 4)
    with (k0 / c * (raw a b 0 * c) + k1 / c * (raw a b 1 * c) + k2 / c * (raw a b 2 * c) + k3 / c * (raw a b 3 * c) + k4 / c * (raw a b 4 * c)).
  - revert K. apply over_ext. intros x Hx. field. lra.
  - generalize (raw a b 1) (raw a b 2) (raw a b 3) (raw a b 4). intros. change (raw a b 0) with 1. field. lra.
Qed.
Lemma expects_ext a b g h v : (forall x, g x = h x) -> beta_expects a b g v -> beta_expects a b h v.
Proof. intros E (c & C & H). exists c. split; trivial. revert H. apply over_ext. intros x _. now rewrite E. Qed.
(** *** the mode *)
Lemma ln_below u : 0 < u -> u <> 1 -> ln u < u - 1.
Proof. intros H N. pose proof (exp_ineq1 (ln u)) as E. rewrite exp_ln in E by trivial. assert (L : ln u <> 0) by (intros C; apply N; rewrite <- (exp_ln u), C by trivial; apply exp_0). specialize (E L). lra. Qed.
Lemma mode_max a b x : 1 < a -> 1 < b -> 0 < x < 1 -> x <> (a - 1) / (a + b - 2) -> beta_weight a b x < beta_weight a b ((a - 1) / (a + b - 2)).
Proof.
  intros Ha Hb Hx N. set (m := (a - 1) / (a + b - 2)). assert (M : 0 < m < 1).
  { unfold m. split; [apply Rdiv_lt_0_compat; lra|]. apply (Rmult_lt_reg_r (a + b - 2)); [lra|]. unfold Rdiv. rewrite Rmult_assoc, Rinv_l by lra. lra. }
  unfold beta_weight, Rpower. rewrite <- !exp_plus. apply exp_increasing.
  assert (L1 : ln (x / m) < x / m - 1).
  { apply ln_below; [apply Rdiv_lt_0_compat; lra|]. intros C. apply N. apply (Rmult_eq_compat_r m) in C. unfold Rdiv in C. rewrite Rmult_assoc, Rinv_l, Rmult_1_r, Rmult_1_l in C by lra. exact C. }
  assert (L2 : ln ((1 - x) / (1 - m)) < (1 - x) / (1 - m) - 1).
  { apply ln_below; [apply Rdiv_lt_0_compat; lra|]. intros C. apply N. apply (Rmult_eq_compat_r (1 - m)) in C. unfold Rdiv in C. rewrite Rmult_assoc, Rinv_l, Rmult_1_r, Rmult_1_l in C by lra. fold m. lra. }
  rewrite ln_div in L1, L2 by lra.
  assert (S : (a - 1) * (x / m - 1) + (b - 1) * ((1 - x) / (1 - m) - 1) = 0).
  { replace (1 - m) with ((b - 1) / (a + b - 2)) by (unfold m; field; lra). unfold m. field. lra. }
  nra.
Qed.
(** *** means of logarithms *)
Lemma over_mirror f v : over_unit f v -> over_unit (fun x => f (1 - x)) v.
Proof.
  intros H P HP. destruct (H P HP) as [Q S HQ HS HQS].
  apply (Filter_prod _ _ _ (fun u => S (1 - u)) (fun w => Q (1 - w))).
  - destruct HS as [d Hd]. exists d. intros u Hu H0. apply Hd; [|lra]. change (Rabs (u - 0) < d) in Hu. change (Rabs (1 - u - 1) < d).
    replace (1 - u - 1) with (- (u - 0)) by ring. now rewrite Rabs_Ropp.
  - destruct HQ as [d Hd]. exists d. intros u Hu H0. apply Hd; [|lra]. change (Rabs (u - 1) < d) in Hu. change (Rabs (1 - u - 0) < d).
    replace (1 - u - 0) with (- (u - 1)) by ring. now rewrite Rabs_Ropp.
  - intros u w Hu Hw. destruct (HQS (1 - w) (1 - u) Hw Hu) as (y & Hy & Py). simpl in *. exists y. split; [|exact Py].
    apply is_RInt_swap in Hy. replace (1 - u) with (- 1 * u + 1) in Hy by ring. replace (1 - w) with (- 1 * w + 1) in Hy by ring.
    apply (is_RInt_comp_lin (V := R_NormedModule)) in Hy. apply (is_RInt_opp (V := R_NormedModule)) in Hy. rewrite opp_opp in Hy.
    revert Hy. apply (is_RInt_ext (V := R_NormedModule)). intros x _. unfold opp, scal; simpl; unfold mult; simpl. replace (- 1 * x + 1) with (1 - x) by ring. ring.
Qed.
Lemma power_log_bound A x : 0 < A -> 0 < x < 1 -> Rabs (ln x * Rpower x A) <= 2 / A * Rpower x (A / 2).
Proof.
  intros HA Hx. pose proof (Rpower_pos x A) as P1. pose proof (Rpower_pos x (A / 2)) as P2.
  assert (L : ln x < 0) by (rewrite <- ln_1; apply ln_increasing; lra).
  rewrite Rabs_mult, (Rabs_left (ln x)), (Rabs_pos_eq (Rpower x A)) by lra.
  assert (E : A / 2 * - ln x <= Rpower x (- (A / 2))).
  { unfold Rpower. pose proof (exp_ineq1_le (- (A / 2) * ln x)). lra. }
  assert (S : Rpower x A = Rpower x (A / 2) * Rpower x (A / 2)) by (rewrite <- Rpower_plus; f_equal; field).
  assert (I : Rpower x (- (A / 2)) * Rpower x (A / 2) = 1) by (rewrite <- Rpower_plus; replace (- (A / 2) + A / 2) with 0 by ring; apply Rpower_O; lra).
  apply (Rmult_le_reg_l (A / 2)); [lra|]. rewrite S.
  replace (A / 2 * (- ln x * (Rpower x (A / 2) * Rpower x (A / 2)))) with (A / 2 * - ln x * Rpower x (A / 2) * Rpower x (A / 2)) by ring.
  replace (A / 2 * (2 / A * Rpower x (A / 2))) with (1 * Rpower x (A / 2)) by (field; lra).
  apply Rmult_le_compat_r; [lra|]. rewrite <- I. apply Rmult_le_compat_r; lra.
Qed.
Definition logmono A B x := ln x * mono A B x.
Lemma logmono_lim0 A B : 0 < A -> 0 <= B -> filterlim (logmono A B) (at_right 0) (locally 0).
Proof.
  intros HA HB P [eps HP]. pose proof (cond_pos eps) as He. assert (Hq : 0 < eps * A / 2) by nra.
  destruct (power_lim (A / 2) ltac:(lra) (eps * A / 2) Hq) as (d & Hd & L).
  assert (M : 0 < Rmin d 1) by (apply Rmin_pos; lra).
  exists (mkposreal _ M). intros x Hx Hx0. change (Rabs (x - 0) < Rmin d 1) in Hx. apply Rabs_def2 in Hx as [Hx _].
  pose proof (Rmin_l d 1). pose proof (Rmin_r d 1). apply HP. change (Rabs (logmono A B x - 0) < eps). rewrite Rminus_0_r.
  assert (Hx' : 0 < x < 1) by lra. pose proof (power_log_bound A x HA Hx') as PB. pose proof (power_le_1 (1 - x) B ltac:(lra) HB) as P1. pose proof (Rpower_pos (1 - x) B) as P2.
  unfold logmono, mono. rewrite <- Rmult_assoc, Rabs_mult, (Rabs_pos_eq (Rpower (1 - x) B)) by lra.
  apply (Rle_lt_trans _ (2 / A * Rpower x (A / 2))).
  - pose proof (Rabs_pos (ln x * Rpower x A)). nra.
  - specialize (L x ltac:(lra)). apply (Rlt_le_trans _ (2 / A * (eps * A / 2))); [apply Rmult_lt_compat_l; trivial; apply Rdiv_lt_0_compat; lra|]. right. field. lra.
Qed.
Lemma logmono_lim1 A B : 0 <= A -> 0 < B -> filterlim (logmono A B) (at_left 1) (locally 0).
Proof.
  intros HA HB P [eps HP]. destruct (mono_lim1 A B HA HB (fun y => Rabs (y - 0) < eps)) as [d Hd]; [exists eps; intros y Hy; exact Hy|].
  assert (M : 0 < Rmin d (1 / 2)) by (apply Rmin_pos; [apply cond_pos|lra]).
  exists (mkposreal _ M). intros x Hx Hx1. change (Rabs (x - 1) < Rmin d (1 / 2)) in Hx.
  pose proof (Rmin_l d (1 / 2)). pose proof (Rmin_r d (1 / 2)). apply HP. change (Rabs (logmono A B x - 0) < eps). rewrite Rminus_0_r.
  assert (D : Rabs (mono A B x - 0) < eps) by (apply Hd; trivial; change (Rabs (x - 1) < d); lra). rewrite Rminus_0_r in D.
  apply Rabs_def2 in Hx. unfold logmono. rewrite Rabs_mult. assert (L : ln x < 0) by (rewrite <- ln_1; apply ln_increasing; lra).
  assert (U : Rabs (ln x) <= 1).
  { rewrite Rabs_left by trivial. pose proof (exp_ineq1_le (- ln x)) as E. rewrite exp_Ropp, exp_ln in E by lra.
    assert (/ x < 2) by (rewrite <- (Rinv_inv 2); apply Rinv_lt_contravar; lra). lra. }
  pose proof (Rabs_pos (mono A B x)). nra.
Qed.
Lemma logmono_derive A B x : 0 < x < 1 -> is_derive (logmono A B) x (mono (A - 1) B x + ln x * (A * mono (A - 1) B x - B * mono A (B - 1) x)).
Proof.
  intros Hx. unfold logmono.
  replace (mono (A - 1) B x) with (mult (/ x) (mono A B x)) at 1 by (unfold mult; simpl; replace A with (A - 1 + 1) at 1 by ring; rewrite mono_shift by trivial; field; lra).
  apply (is_derive_mult ln (mono A B)); [apply is_derive_Reals, derivable_pt_lim_ln; lra|now apply mono_derive|intros; apply Rmult_comm].
Qed.
Lemma log_cont x : 0 < x -> continuous ln x.
Proof. intros Hx. apply (@ex_derive_continuous R_AbsRing R_NormedModule). eexists. apply is_derive_Reals. now apply derivable_pt_lim_ln. Qed.
Lemma log_parts a b : 0 < a -> 0 < b -> over_unit (fun x => beta_weight a (b + 1) x + ln x * (a * beta_weight a b x - (a + b) * (x * beta_weight a b x))) 0.
Proof.
  intros Ha Hb. replace 0 with (0 - 0) by ring.
  assert (E : forall x, 0 < x < 1 -> mono (a - 1) b x + ln x * (a * mono (a - 1) b x - b * mono a (b - 1) x) = beta_weight a (b + 1) x + ln x * (a * beta_weight a b x - (a + b) * (x * beta_weight a b x))).
  { intros x Hx. rewrite !weight_mono. replace (b + 1 - 1) with b by ring. f_equal. f_equal.
    replace b with (b - 1 + 1) at 1 by ring. replace a with (a - 1 + 1) at 3 by ring. rewrite mono_shift, mono_shift' by trivial. ring. }
  apply (over_ext (fun x => mono (a - 1) b x + ln x * (a * mono (a - 1) b x - b * mono a (b - 1) x))); [exact E|].
  apply (over_derive (logmono a b)); [apply logmono_derive| |apply logmono_lim0; lra|apply logmono_lim1; lra].
  intros x Hx. apply (continuous_plus (V := R_NormedModule) (mono (a - 1) b) (fun x => ln x * (a * mono (a - 1) b x - b * mono a (b - 1) x))); [now apply mono_cont|].
  apply (continuous_mult ln (fun x => a * mono (a - 1) b x - b * mono a (b - 1) x)); [apply log_cont; lra|].
  apply (continuous_minus (V := R_NormedModule) (fun x => a * mono (a - 1) b x) (fun x => b * mono a (b - 1) x)); apply (continuous_scal_r (V := R_NormedModule)); now apply mono_cont.
Qed.
Lemma weight_up_b a b c : 0 < a -> 0 < b -> over_unit (beta_weight a b) c -> over_unit (beta_weight a (b + 1)) (b / (a + b) * c).
Proof.
  intros Ha Hb H. pose proof (by_parts a b Ha Hb) as D. pose proof (over_plus _ _ _ _ (over_scal _ (/ (a + b)) _ D) (over_scal _ (b / (a + b)) _ H)) as K.
  replace (b / (a + b) * c) with (/ (a + b) * 0 + b / (a + b) * c) by ring. revert K. apply over_ext. intros x Hx.
  rewrite (weight_mono a (b + 1)), (weight_mono a b). replace (b + 1 - 1) with (b - 1 + 1) by ring. rewrite mono_shift' by trivial. field. lra.
Qed.
Lemma log_up_b a b c L : 0 < a -> 0 < b -> over_unit (beta_weight a b) c -> over_unit (fun x => ln x * beta_weight a b x) L ->
  over_unit (fun x => ln x * beta_weight a (b + 1) x) (b / (a + b) * L - / (a + b) * (b / (a + b) * c)).
Proof.
  intros Ha Hb Hc HL. pose proof (log_parts a b Ha Hb) as D. pose proof (weight_up_b a b c Ha Hb Hc) as W.
  pose proof (over_plus _ _ _ _ (over_plus _ _ _ _ (over_scal _ (/ (a + b)) _ D) (over_scal _ (b / (a + b)) _ HL)) (over_scal _ (- / (a + b)) _ W)) as K.
  replace (b / (a + b) * L - / (a + b) * (b / (a + b) * c)) with (/ (a + b) * 0 + b / (a + b) * L + - / (a + b) * (b / (a + b) * c)) by ring.
  revert K. apply over_ext. intros x Hx. rewrite !weight_mono. replace (b + 1 - 1) with (b - 1 + 1) by ring. rewrite mono_shift' by trivial. field. lra.
Qed.
Lemma weight_one a : 0 < a -> over_unit (beta_weight a 1) (/ a).
Proof.
  intros Ha. replace (/ a) with (/ a - 0) by ring. apply (over_derive (fun x => / a * Rpower x a)).
  - intros x Hx. unfold beta_weight. replace (1 - 1) with 0 by ring. rewrite Rpower_O by lra. unfold Rpower. auto_derive; [lra|].
    replace ((a - 1) * ln x) with (a * ln x + - ln x) by ring. rewrite exp_plus, exp_Ropp, exp_ln by lra. field. lra.
  - intros x Hx. now apply mono_cont.
  - replace 0 with (scal (/ a) 0) at 2 by (unfold scal; simpl; unfold mult; simpl; ring).
    apply (filterlim_comp _ _ _ (fun x => Rpower x a) (fun y => scal (/ a) y) _ (locally 0)); [|apply (filterlim_scal_r (V := R_NormedModule))].
    pose proof (mono_lim0 a 0 Ha ltac:(lra)) as M. revert M. apply filterlim_ext_loc.
    exists (mkposreal 1 Rlt_0_1). intros x Hx H0. change (Rabs (x - 0) < 1) in Hx. apply Rabs_def2 in Hx. unfold mono. rewrite Rpower_O by lra. ring.
  - apply (filterlim_filter_le_1 (F := locally 1)); [apply filter_le_within|].
    assert (C : continuous (fun x => / a * Rpower x a) 1) by (apply (@ex_derive_continuous R_AbsRing R_NormedModule (fun x => / a * Rpower x a)); unfold Rpower; auto_derive; lra).
    unfold continuous in C. assert (V : / a * Rpower 1 a = / a) by (unfold Rpower; rewrite ln_1, Rmult_0_r, exp_0; ring). rewrite V in C. exact C.
Qed.
Lemma log_one a : 0 < a -> over_unit (fun x => ln x * beta_weight a 1 x) (- / a ^ 2).
Proof.
  intros Ha. replace (- / a ^ 2) with (- / a ^ 2 - 0) by ring.
  assert (Dv : forall x, 0 < x -> is_derive (fun x => / a * (ln x * Rpower x a) + - / a ^ 2 * Rpower x a) x (ln x * Rpower x (a - 1))).
  { intros x Hx. unfold Rpower. auto_derive; [lra|]. replace ((a - 1) * ln x) with (a * ln x + - ln x) by ring. rewrite exp_plus, exp_Ropp, exp_ln by lra. field. lra. }
  apply (over_derive (fun x => / a * (ln x * Rpower x a) + - / a ^ 2 * Rpower x a)).
  - intros x Hx. unfold beta_weight. replace (1 - 1) with 0 by ring. rewrite Rpower_O by lra. rewrite Rmult_1_r. apply Dv. lra.
  - intros x Hx. apply (continuous_mult ln (beta_weight a 1)); [apply log_cont; lra|now apply mono_cont].
  - replace 0 with (plus (scal (/ a) 0) (scal (- / a ^ 2) 0)) at 2 by (unfold plus, scal; simpl; unfold mult; simpl; ring).
    apply (filterlim_comp_2 (F := at_right 0) (G := locally (scal (/ a) 0)) (H := locally (scal (- / a ^ 2) 0)) (fun x => / a * (ln x * Rpower x a)) (fun x => - / a ^ 2 * Rpower x a) plus); [| |apply (filterlim_plus (V := R_NormedModule))].
    + apply (filterlim_comp _ _ _ (fun x => ln x * Rpower x a) (fun y => scal (/ a) y) _ (locally 0)); [|apply (filterlim_scal_r (V := R_NormedModule))].
      pose proof (logmono_lim0 a 0 Ha ltac:(lra)) as M. revert M. apply filterlim_ext_loc.
      exists (mkposreal 1 Rlt_0_1). intros x Hx H0. change (Rabs (x - 0) < 1) in Hx. apply Rabs_def2 in Hx. unfold logmono, mono. rewrite (Rpower_O (1 - x)) by lra. ring.
    + apply (filterlim_comp _ _ _ (fun x => Rpower x a) (fun y => scal (- / a ^ 2) y) _ (locally 0)); [|apply (filterlim_scal_r (V := R_NormedModule))].
      pose proof (mono_lim0 a 0 Ha ltac:(lra)) as M. revert M. apply filterlim_ext_loc.
      exists (mkposreal 1 Rlt_0_1). intros x Hx H0. change (Rabs (x - 0) < 1) in Hx. apply Rabs_def2 in Hx. unfold mono. rewrite Rpower_O by lra. ring.
  - apply (filterlim_filter_le_1 (F := locally 1)); [apply filter_le_within|].
    assert (C : continuous (fun x => / a * (ln x * Rpower x a) + - / a ^ 2 * Rpower x a) 1)
      by (apply (@ex_derive_continuous R_AbsRing R_NormedModule (fun x => / a * (ln x * Rpower x a) + - / a ^ 2 * Rpower x a)); eexists; apply Dv; lra).
    unfold continuous in C. assert (V : / a * (ln 1 * Rpower 1 a) + - / a ^ 2 * Rpower 1 a = - / a ^ 2) by (unfold Rpower; rewrite ln_1, Rmult_0_r, exp_0; ring). rewrite V in C. exact C.
Qed.
Lemma log_mean_int psi a m : (forall x, 0 < x -> psi (x + 1) = psi x + / x) -> 0 < a ->
  exists c, beta_constant a (INR m + 1) c /\ over_unit (fun x => ln x * beta_weight a (INR m + 1) x) ((psi a - psi (a + (INR m + 1))) * c).
Proof.
  intros Hp Ha. induction m as [|m (c & [Pc Hc] & HL)].
  - exists (/ a). simpl. rewrite Rplus_0_l. split; [split; [now apply Rinv_0_lt_compat|now apply weight_one]|].
    rewrite Hp by trivial. replace ((psi a - (psi a + / a)) * / a) with (- / a ^ 2) by (field; lra). now apply log_one.
  - set (b := INR m + 1) in *. assert (Hb : 0 < b) by (unfold b; pose proof (pos_INR m); lra). rewrite S_INR. fold b.
    exists (b / (a + b) * c). split; [split; [apply Rmult_lt_0_compat; trivial; apply Rdiv_lt_0_compat; lra|now apply weight_up_b]|].
    pose proof (log_up_b a b c _ Ha Hb Hc HL) as K. replace (a + (b + 1)) with (a + b + 1) by ring. rewrite Hp by lra.
    replace ((psi a - (psi (a + b) + / (a + b))) * (b / (a + b) * c)) with (b / (a + b) * ((psi a - psi (a + b)) * c) - / (a + b) * (b / (a + b) * c)) by ring.
    exact K.
Qed.
(** *** all real parameters *)
Lemma over_nonneg f v : (forall x, 0 < x < 1 -> 0 <= f x) -> over_unit f v -> 0 <= v.
Proof.
  intros H O. destruct (Rle_dec 0 v) as [|N]; trivial. exfalso.
  assert (E : 0 < - v) by lra.
  assert (B : locally v (fun y => y < 0)) by (exists (mkposreal _ E); intros y Hy; change (Rabs (y - v) < - v) in Hy; apply Rabs_def2 in Hy; lra).
  specialize (O _ B). unfold filtermapi in O.
  assert (N2 : filter_prod (at_right 0) (at_left 1) (fun ab => 0 < fst ab /\ fst ab < snd ab /\ snd ab < 1)) by (apply (near_unit (fun u v => 0 < u /\ u < v /\ v < 1)); intros; lra).
  pose proof (filter_and _ _ O N2) as F. apply filter_ex in F as [[u w] [(y & Hy & Ny) (A1 & A2 & A3)]]. simpl in *.
  pose proof (is_RInt_unique _ _ _ _ Hy) as Q. assert (0 <= RInt f u w); [|lra].
  apply RInt_ge_0; [lra|eexists; exact Hy|]. intros x Hx. apply H. lra.
Qed.
Lemma over_le f g u v : (forall x, 0 < x < 1 -> f x <= g x) -> over_unit f u -> over_unit g v -> u <= v.
Proof.
  intros H F G. assert (0 <= v + -1 * u); [|lra]. apply (over_nonneg (fun x => g x + -1 * f x)).
  - intros x Hx. specialize (H x Hx). lra.
  - apply over_plus; trivial. now apply over_scal.
Qed.
Lemma over_unique f u v : over_unit f u -> over_unit f v -> u = v.
Proof. intros H K. apply Rle_antisym; [apply (over_le f f)|apply (over_le f f)]; trivial; intros; lra. Qed.
(** the mean logarithm exists *)
Definition lext a b x := if Rle_dec x 0 then 0 else if Rle_dec 1 x then 0 else ln x * beta_weight a b x.
Lemma lext_in a b x : 0 < x < 1 -> lext a b x = ln x * beta_weight a b x.
Proof. intros Hx. unfold lext. destruct (Rle_dec x 0); [lra|]. destruct (Rle_dec 1 x); [lra|]. reflexivity. Qed.
Lemma lext_out a b x : x <= 0 \/ 1 <= x -> lext a b x = 0.
Proof. intros Hx. unfold lext. destruct (Rle_dec x 0); trivial. destruct (Rle_dec 1 x); trivial. lra. Qed.
Lemma lext_cont a b x : 1 < a -> 1 < b -> continuous (lext a b) x.
Proof.
  intros Ha Hb. destruct (Rlt_dec x 0) as [H|H].
  { apply (continuous_ext_loc (lext a b) (fun _ => 0)); [|apply continuous_const].
    exists (mkposreal (- x) ltac:(lra)). intros y Hy. change (Rabs (y - x) < - x) in Hy. apply Rabs_def2 in Hy. rewrite lext_out; trivial. left; lra. }
  destruct (Rlt_dec 1 x) as [H1|H1].
  { apply (continuous_ext_loc (lext a b) (fun _ => 0)); [|apply continuous_const].
    exists (mkposreal (x - 1) ltac:(lra)). intros y Hy. change (Rabs (y - x) < x - 1) in Hy. apply Rabs_def2 in Hy. rewrite lext_out; trivial. right; lra. }
  destruct (Req_dec x 0) as [->|N0].
  { intros P HP. rewrite lext_out in HP by lra. destruct (logmono_lim0 (a - 1) (b - 1) ltac:(lra) ltac:(lra) P HP) as [d Hd].
    assert (M : 0 < Rmin d 1) by (apply Rmin_pos; [apply cond_pos|lra]). exists (mkposreal _ M). intros y Hy. change (Rabs (y - 0) < Rmin d 1) in Hy.
    pose proof (Rmin_l d 1). pose proof (Rmin_r d 1). destruct (Rle_dec y 0) as [Y|Y].
    - rewrite lext_out by lra. now apply locally_singleton in HP.
    - pose proof Hy as Hy'. apply Rabs_def2 in Hy'. rewrite lext_in by lra. apply (Hd y); [|lra]. change (Rabs (y - 0) < d). lra. }
  destruct (Req_dec x 1) as [->|N1].
  { intros P HP. rewrite lext_out in HP by lra. destruct (logmono_lim1 (a - 1) (b - 1) ltac:(lra) ltac:(lra) P HP) as [d Hd].
    assert (M : 0 < Rmin d 1) by (apply Rmin_pos; [apply cond_pos|lra]). exists (mkposreal _ M). intros y Hy. change (Rabs (y - 1) < Rmin d 1) in Hy.
    pose proof (Rmin_l d 1). pose proof (Rmin_r d 1). destruct (Rle_dec 1 y) as [Y|Y].
    - rewrite lext_out by lra. now apply locally_singleton in HP.
    - pose proof Hy as Hy'. apply Rabs_def2 in Hy'. rewrite lext_in by lra. apply (Hd y); [|lra]. change (Rabs (y - 1) < d). lra. }
  apply (continuous_ext_loc (lext a b) (logmono (a - 1) (b - 1))); [|apply (@ex_derive_continuous R_AbsRing R_NormedModule); eexists; apply logmono_derive; lra].
  assert (M : 0 < Rmin x (1 - x)) by (apply Rmin_pos; lra). exists (mkposreal _ M). intros y Hy. change (Rabs (y - x) < Rmin x (1 - x)) in Hy.
  pose proof (Rmin_l x (1 - x)). pose proof (Rmin_r x (1 - x)). apply Rabs_def2 in Hy. now rewrite lext_in by lra.
Qed.
Lemma log_large a b : 1 < a -> 1 < b -> exists L, over_unit (fun x => ln x * beta_weight a b x) L.
Proof.
  intros Ha Hb. set (G := fun x => RInt (lext a b) 0 x). exists (G 1 - G 0).
  assert (Ex : forall u v, ex_RInt (lext a b) u v) by (intros u v; apply (ex_RInt_continuous (V := R_CompleteNormedModule)); intros; now apply lext_cont).
  assert (D : forall x, is_derive G x (lext a b x)).
  { intros x. apply (is_derive_RInt (V := R_CompleteNormedModule) (lext a b) G 0); [|now apply lext_cont]. apply filter_forall. intros y. apply RInt_correct, Ex. }
  assert (C : forall x, continuous G x) by (intros x; apply (@ex_derive_continuous R_AbsRing R_NormedModule); eexists; apply D).
  apply (over_ext (lext a b)); [intros x Hx; now apply lext_in|].
  apply (over_derive G); [intros; apply D|intros; now apply lext_cont| |].
  - apply (filterlim_filter_le_1 (F := locally 0)); [apply filter_le_within|apply (C 0)].
  - apply (filterlim_filter_le_1 (F := locally 1)); [apply filter_le_within|apply (C 1)].
Qed.
Lemma log_down_a a b L : 0 < a -> 0 < b -> over_unit (fun x => ln x * beta_weight (a + 1) b x) L -> exists M, over_unit (fun x => ln x * beta_weight a b x) M.
Proof.
  intros Ha Hb H. destruct (constant_exists a (b + 1)) as (c & _ & W); [lra..|]. pose proof (log_parts a b Ha Hb) as D.
  eexists. pose proof (over_plus _ _ _ _ (over_plus _ _ _ _ (over_scal _ (/ a) _ D) (over_scal _ (- / a) _ W)) (over_scal _ ((a + b) / a) _ H)) as K.
  revert K. apply over_ext. intros x Hx. rewrite !weight_mono. replace (a + 1 - 1) with (a - 1 + 1) by ring. rewrite mono_shift by trivial. field. lra.
Qed.
Lemma log_down_b a b L : 0 < a -> 0 < b -> over_unit (fun x => ln x * beta_weight a (b + 1) x) L -> exists M, over_unit (fun x => ln x * beta_weight a b x) M.
Proof.
  intros Ha Hb H. destruct (constant_exists a (b + 1)) as (c & _ & W); [lra..|]. pose proof (log_parts a b Ha Hb) as D.
  eexists. pose proof (over_plus _ _ _ _ (over_plus _ _ _ _ (over_scal _ (- / b) _ D) (over_scal _ (/ b) _ W)) (over_scal _ ((a + b) / b) _ H)) as K.
  revert K. apply over_ext. intros x Hx. rewrite !weight_mono. replace (b + 1 - 1) with (b - 1 + 1) by ring. rewrite mono_shift' by trivial. field. lra.
Qed.
Lemma log_exists a b : 0 < a -> 0 < b -> exists L, over_unit (fun x => ln x * beta_weight a b x) L.
Proof.
  intros Ha Hb. destruct (log_large (a + 1) (b + 1)) as [L HL]; [lra..|]. destruct (log_down_a a (b + 1) L Ha ltac:(lra) HL) as [M HM]. now apply (log_down_b a b M).
Qed.
(** h is the mean logarithm *)
Definition is_log a b h := exists c, beta_constant a b c /\ over_unit (fun x => ln x * beta_weight a b x) (h * c).
Lemma is_log_ex a b : 0 < a -> 0 < b -> exists h, is_log a b h.
Proof.
  intros Ha Hb. destruct (constant_exists a b Ha Hb) as (c & Pc & Hc). destruct (log_exists a b Ha Hb) as [L HL]. exists (L / c), c. split; [now split|].
  replace (L / c * c) with L by (field; lra). exact HL.
Qed.
Lemma is_log_unique a b h k : is_log a b h -> is_log a b k -> h = k.
Proof.
  intros (c & [Pc Hc] & H) (d & [Pd Hd] & K). rewrite (over_unique _ _ _ Hd Hc) in K. pose proof (over_unique _ _ _ H K) as E.
  apply Rmult_eq_reg_r in E; lra.
Qed.
Lemma is_log_up a b h : 0 < a -> 0 < b -> is_log a b h -> is_log a (b + 1) (h - / (a + b)).
Proof.
  intros Ha Hb (c & [Pc Hc] & H). exists (b / (a + b) * c). split; [split; [apply Rmult_lt_0_compat; trivial; apply Rdiv_lt_0_compat; lra|now apply weight_up_b]|].
  pose proof (log_up_b a b c _ Ha Hb Hc H) as K. replace ((h - / (a + b)) * (b / (a + b) * c)) with (b / (a + b) * (h * c) - / (a + b) * (b / (a + b) * c)) by ring. exact K.
Qed.
Lemma is_log_up_n a b h n : 0 < a -> 0 < b -> is_log a b h -> is_log a (b + INR n) (h - Rsum (map (fun j => / (a + b + INR j)) (seq 0 n))).
Proof.
  intros Ha Hb H. induction n as [|n IH]; [simpl; unfold Rsum; simpl; rewrite Rplus_0_r, Rminus_0_r; exact H|].
  pose proof (pos_INR n). rewrite seq_S, map_app, Rsum_app, S_INR. cbn [map]. replace (b + (INR n + 1)) with (b + INR n + 1) by ring.
  replace (h - (Rsum (map (fun j => / (a + b + INR j)) (seq 0 n)) + Rsum [/ (a + b + INR (0 + n))])) with (h - Rsum (map (fun j => / (a + b + INR j)) (seq 0 n)) - / (a + (b + INR n))).
  - apply is_log_up; trivial. lra.
  - unfold Rsum at 3. cbn [fold_right Nat.add]. replace (a + (b + INR n)) with (a + b + INR n) by ring. ring.
Qed.
Lemma is_log_neg a b h : is_log a b h -> h <= 0.
Proof.
  intros (c & [Pc Hc] & H). assert (h * c <= 0 * c); [|nra]. apply (over_le (fun x => ln x * beta_weight a b x) (fun x => 0 * beta_weight a b x)); [|exact H|now apply over_scal].
  intros x Hx. pose proof (mono_pos (a - 1) (b - 1) x). rewrite weight_mono. assert (ln x < 0) by (rewrite <- ln_1; apply ln_increasing; lra). nra.
Qed.
Lemma is_log_mono a b d h k : 0 < a -> 0 < b -> 0 <= d -> is_log a b h -> is_log a (b + d) k -> k <= h.
Proof.
  intros Ha Hb Hd H K. pose proof (is_log_neg _ _ _ H) as N. destruct H as (c & [Pc Hc] & H). destruct K as (e & [Pe He] & K).
  assert (Z : (k - h) * e <= 0); [|nra].
  destruct (Req_dec h 0) as [->|NZ].
  { apply (Rle_trans _ (0 * e)); [|lra]. apply (over_le (fun x => ln x * beta_weight a (b + d) x) (fun x => 0 * beta_weight a (b + d) x)); [|replace (k - 0) with k by ring; exact K|now apply over_scal].
    intros x Hx. pose proof (mono_pos (a - 1) (b + d - 1) x). rewrite weight_mono. assert (ln x < 0) by (rewrite <- ln_1; apply ln_increasing; lra). nra. }
  set (q := Rpower (1 - exp h) d). assert (X0 : 0 < exp h < 1) by (split; [apply exp_pos|rewrite <- exp_0; apply exp_increasing; lra]).
  pose proof (over_plus _ _ _ _ K (over_scal _ (- h) _ He)) as L. pose proof (over_scal _ q _ (over_plus _ _ _ _ H (over_scal _ (- h) _ Hc))) as U.
  replace ((k - h) * e) with (k * e + - h * e) by ring. replace 0 with (q * (h * c + - h * c)) by ring.
  refine (over_le _ _ _ _ _ L U). intros x Hx. cbv beta.
  assert (S : beta_weight a (b + d) x = beta_weight a b x * Rpower (1 - x) d) by (unfold beta_weight; replace (b + d - 1) with (b - 1 + d) by ring; rewrite Rpower_plus; ring).
  rewrite S. pose proof (mono_pos (a - 1) (b - 1) x) as W. rewrite <- weight_mono in W. set (w := beta_weight a b x) in *.
  assert (T : (ln x - h) * (Rpower (1 - x) d - q) <= 0).
  { unfold q. destruct (Rle_dec x (exp h)) as [Y|Y].
    - assert (ln x <= h) by (rewrite <- (ln_exp h); destruct Y as [Y| ->]; [left; apply ln_increasing; lra|lra]).
      assert (Rpower (1 - exp h) d <= Rpower (1 - x) d) by (apply Rle_Rpower_l; lra). nra.
    - assert (h <= ln x) by (rewrite <- (ln_exp h) at 1; left; apply ln_increasing; lra).
      assert (Rpower (1 - x) d <= Rpower (1 - exp h) d) by (apply Rle_Rpower_l; lra). nra. }
  nra.
Qed.
Lemma psi_up psi x n : digamma_like psi -> 0 < x -> psi (x + INR n) = psi x + Rsum (map (fun j => / (x + INR j)) (seq 0 n)).
Proof.
  intros [D _] Hx. induction n as [|n IH]; [simpl; unfold Rsum; simpl; now rewrite !Rplus_0_r|].
  pose proof (pos_INR n). rewrite seq_S, map_app, Rsum_app, S_INR. replace (x + (INR n + 1)) with (x + INR n + 1) by ring. rewrite D, IH by lra.
  unfold Rsum at 3. cbn [map fold_right Nat.add]. ring.
Qed.
(** the mean logarithm is a difference of digamma values *)
Lemma log_digamma psi a b : digamma_like psi -> 0 < a -> 0 < b -> is_log a b (psi a - psi (a + b)).
Proof.
  intros D Ha Hb. destruct (is_log_ex a b Ha Hb) as [h H]. assert (E : h = psi a - psi (a + b)); [|now rewrite <- E].
  set (p := h - (psi a - psi (a + b))).
  (* shifting b leaves the difference *)
  assert (Sh : forall n, is_log a (b + INR n) (psi a - psi (a + b + INR n) + p)).
  { intros n. pose proof (is_log_up_n a b h n Ha Hb H) as K. rewrite (psi_up psi (a + b) n D ltac:(lra)).
    match type of K with is_log _ _ ?v => replace (psi a - (psi (a + b) + Rsum (map (fun j => / (a + b + INR j)) (seq 0 n))) + p) with v; [exact K|] end. unfold p. ring. }
  assert (I : forall m, is_log a (INR m + 1) (psi a - psi (a + (INR m + 1)))).
  { intros m. apply log_mean_int; trivial. apply D. }
  destruct (nfloor_ex b ltac:(lra)) as [m Hm].
  assert (B : forall n, Rabs p <= / (a + INR (m + S n))).
  { intros n. pose proof (Sh (S n)) as K. set (N := (m + S n)%nat).
    assert (N1 : INR N = INR m + INR (S n)) by (unfold N; apply plus_INR). assert (n1 : 1 <= INR (S n)) by (rewrite S_INR; pose proof (pos_INR n); lra).
    pose proof (pos_INR m) as m0.
    (* between two integers *)
    assert (NN : INR N = INR (m + n) + 1) by (unfold N; rewrite Nat.add_succ_r; apply S_INR).
    pose proof (I (m + n)%nat) as I0. rewrite <- NN in I0. pose proof (I N) as I1.
    assert (LE : psi a - psi (a + b + INR (S n)) + p <= psi a - psi (a + INR N)).
    { apply (is_log_mono a (INR N) (b + INR (S n) - INR N) _ _ Ha); [lra|lra|exact I0|]. replace (INR N + (b + INR (S n) - INR N)) with (b + INR (S n)) by ring. exact K. }
    assert (GE : psi a - psi (a + (INR N + 1)) <= psi a - psi (a + b + INR (S n)) + p).
    { apply (is_log_mono a (b + INR (S n)) (INR N + 1 - (b + INR (S n))) _ _ Ha); [lra|lra|exact K|]. replace (b + INR (S n) + (INR N + 1 - (b + INR (S n)))) with (INR N + 1) by ring. exact I1. }
    destruct D as [D1 D2]. pose proof (D2 (a + INR N) (a + b + INR (S n)) ltac:(lra) ltac:(lra)) as M1. pose proof (D2 (a + b + INR (S n)) (a + (INR N + 1)) ltac:(lra) ltac:(lra)) as M2.
    pose proof (D1 (a + INR N) ltac:(lra)) as St. replace (a + INR N + 1) with (a + (INR N + 1)) in St by ring. apply Rabs_le. lra. }
  assert (Z : p = 0).
  { destruct (Req_dec p 0) as [|NZ]; trivial. exfalso. pose proof (Rabs_pos_lt p NZ) as Pp. destruct (nfloor_ex (/ Rabs p)) as [n Hn]; [left; now apply Rinv_0_lt_compat|].
    specialize (B n). rewrite plus_INR, S_INR in B. pose proof (pos_INR m). assert (G : / Rabs p < a + (INR m + (INR n + 1))) by lra.
    apply Rinv_lt_contravar in G; [rewrite Rinv_inv in G; lra|]. apply Rmult_lt_0_compat; [now apply Rinv_0_lt_compat|]. pose proof (pos_INR n). lra. }
  unfold p in Z. lra.
Qed.
