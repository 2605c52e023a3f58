(** The Legendre polynomials: orthogonality on [0, 1] in the variable 2x - 1. *)
From Coquelicot Require Import Coquelicot.
From Verif Require Import Base UniformModel UniformSpec.
From Coq Require Import Lra Lia.
Local Open Scope R_scope.

Notation P := legendre.
Lemma pair_spec j t : legendre_pair j t = (P j t, P (S j) t).
Proof. unfold legendre. cbn [legendre_pair]. now destruct (legendre_pair j t). Qed.
Lemma P_0 t : P 0 t = 1. Proof. reflexivity. Qed.
Lemma P_1 t : P 1 t = t. Proof. reflexivity. Qed.
Lemma bonnet j t : (INR j + 2) * P (S (S j)) t = (2 * INR j + 3) * t * P (S j) t - (INR j + 1) * P j t.
Proof.
  pose proof (pos_INR j) as H. assert (E : P (S (S j)) t = ((2 * INR (S j) + 1) * t * P (S j) t - INR (S j) * P j t) / (INR (S j) + 1)).
  { change (P (S (S j)) t) with (fst (let (p, q) := legendre_pair (S j) t in (q, ((2 * INR (S (S j)) + 1) * t * q - INR (S (S j)) * p) / (INR (S (S j)) + 1)))).
    assert (F : legendre_pair (S j) t = (P (S j) t, ((2 * INR (S j) + 1) * t * P (S j) t - INR (S j) * P j t) / (INR (S j) + 1))).
    { change (legendre_pair (S j) t) with (let (p, q) := legendre_pair j t in (q, ((2 * INR (S j) + 1) * t * q - INR (S j) * p) / (INR (S j) + 1))). now rewrite pair_spec. }
    rewrite F. reflexivity. }
  rewrite E, S_INR. field. lra.
Qed.
(** the derivatives *)
Fixpoint dpair (j : nat) (t : R) : R * R :=
  match j with
  | 0%nat => (0, 1)
  | S j' => let (p, q) := dpair j' t in
            (q, ((2 * INR j + 1) * (P j t + t * q) - INR j * p) / (INR j + 1))
  end.
Definition D (j : nat) (t : R) : R := fst (dpair j t).
Lemma dpair_spec j t : dpair j t = (D j t, D (S j) t).
Proof. unfold D. cbn [dpair]. now destruct (dpair j t). Qed.
Lemma bonnet_D j t : (INR j + 2) * D (S (S j)) t = (2 * INR j + 3) * (P (S j) t + t * D (S j) t) - (INR j + 1) * D j t.
Proof.
  pose proof (pos_INR j) as H. assert (E : D (S (S j)) t = ((2 * INR (S j) + 1) * (P (S j) t + t * D (S j) t) - INR (S j) * D j t) / (INR (S j) + 1)).
  { assert (F : dpair (S j) t = (D (S j) t, ((2 * INR (S j) + 1) * (P (S j) t + t * D (S j) t) - INR (S j) * D j t) / (INR (S j) + 1))).
    { change (dpair (S j) t) with (let (p, q) := dpair j t in (q, ((2 * INR (S j) + 1) * (P (S j) t + t * q) - INR (S j) * p) / (INR (S j) + 1))). now rewrite dpair_spec. }
    rewrite dpair_spec in F. congruence. }
  rewrite E, S_INR. field. lra.
Qed.
Lemma P_step j t : P (S (S j)) t = ((2 * INR j + 3) * t * P (S j) t - (INR j + 1) * P j t) / (INR j + 2).
Proof. pose proof (pos_INR j). rewrite <- bonnet. field. lra. Qed.
Lemma D_step j t : D (S (S j)) t = ((2 * INR j + 3) * (P (S j) t + t * D (S j) t) - (INR j + 1) * D j t) / (INR j + 2).
Proof. pose proof (pos_INR j). rewrite <- bonnet_D. field. lra. Qed.
Lemma P_derive2 j t : is_derive (P j) t (D j t) /\ is_derive (P (S j)) t (D (S j) t).
Proof.
  induction j as [|j [IH1 IH2]].
  - split.
    + apply (is_derive_ext (fun _ => 1)); [reflexivity|]. apply (is_derive_const 1).
    + apply (is_derive_ext (fun t => t)); [reflexivity|]. apply (is_derive_id t).
  - split; trivial. apply (is_derive_ext (fun t => ((2 * INR j + 3) * t * P (S j) t - (INR j + 1) * P j t) / (INR j + 2))).
    + intros s. now rewrite P_step.
    + rewrite D_step. set (a := P (S j)) in *. set (b := P j) in *.
      auto_derive; [split; [eexists; exact IH2|split; [eexists; exact IH1|exact I]]|].
      replace (Derive (fun x => a x) t) with (D (S j) t) by (symmetry; apply is_derive_unique, IH2).
      replace (Derive (fun x => b x) t) with (D j t) by (symmetry; apply is_derive_unique, IH1). unfold Rdiv. ring.
Qed.
Lemma P_derive j t : is_derive (P j) t (D j t). Proof. apply P_derive2. Qed.
Lemma identities j t : D (S j) t - t * D j t = (INR j + 1) * P j t /\ t * D (S j) t - D j t = (INR j + 1) * P (S j) t.
Proof.
  induction j as [|j [IA IB]].
  - change (D 1 t) with 1. change (D 0 t) with 0. rewrite P_0, P_1. cbn. split; ring.
  - pose proof (pos_INR j) as H. pose proof (bonnet j t) as BP. pose proof (bonnet_D j t) as BD. rewrite S_INR.
    set (x := D (S (S j)) t) in *. set (y := D (S j) t) in *. set (z := D j t) in *. set (p := P (S (S j)) t) in *. set (q := P (S j) t) in *. set (r := P j t) in *.
    assert (A : x - t * y = (INR j + 2) * q).
    { apply (Rmult_eq_reg_l (INR j + 2)); [|lra]. rewrite Rmult_minus_distr_l, BD.
      replace ((2 * INR j + 3) * (q + t * y) - (INR j + 1) * z - (INR j + 2) * (t * y)) with ((2 * INR j + 3) * q + (INR j + 1) * (t * y - z)) by ring.
      rewrite IB. ring. }
    split; [rewrite A; ring|]. replace x with (t * y + (INR j + 2) * q) by lra.
    replace (t * (t * y + (INR j + 2) * q) - y) with (t * (t * y) - y + (INR j + 2) * t * q) by ring.
    assert (E : t * y = z + (INR j + 1) * q) by lra. rewrite E. assert (F : y = t * z + (INR j + 1) * r) by lra. rewrite F at 1.
    replace (INR j + 1 + 1) with (INR j + 2) by ring. rewrite BP. ring.
Qed.
(** Legendre's differential equation *)
Definition G (j : nat) (t : R) : R := (1 - t ^ 2) * D j t.
Lemma G_closed j t : G (S j) t = (INR j + 1) * (P j t - t * P (S j) t).
Proof.
  unfold G. destruct (identities j t) as [IA IB]. set (y := D (S j) t) in *. set (z := D j t) in *.
  replace ((1 - t ^ 2) * y) with (y - t * (t * y)) by ring. assert (E : t * y = z + (INR j + 1) * P (S j) t) by lra. rewrite E.
  replace y with (t * z + (INR j + 1) * P j t) by lra. ring.
Qed.
Lemma G_derive j t : is_derive (G j) t (- (INR j * (INR j + 1)) * P j t).
Proof.
  destruct j as [|j].
  - apply (is_derive_ext (fun _ => 0)); [intros s; unfold G, D; cbn; ring|]. replace (- (INR 0 * (INR 0 + 1)) * P 0 t) with 0 by (cbn; ring). apply (is_derive_const 0).
  - apply (is_derive_ext (fun t => (INR j + 1) * (P j t - t * P (S j) t))); [intros s; now rewrite G_closed|].
    pose proof (P_derive j t) as H1. pose proof (P_derive (S j) t) as H2.
    auto_derive; [split; [eexists; exact H1|split; [eexists; exact H2|exact I]]|].
    replace (Derive (fun x => P (S j) x) t) with (D (S j) t) by (symmetry; apply is_derive_unique, H2).
    replace (Derive (fun x => P j x) t) with (D j t) by (symmetry; apply is_derive_unique, H1). destruct (identities j t) as [_ IB]. rewrite S_INR.
    replace (1 * D j t + - (1 * P (S j) t + t * (1 * D (S j) t))) with (- (t * D (S j) t - D j t) - P (S j) t) by ring.
    rewrite IB. ring.
Qed.

(** ** integrals over [0, 1] *)
Ltac asreal := match goal with |- @eq _ ?a ?b => change (@eq R a b) end.
Definition at_ (f : R -> R) (x : R) : R := f (2 * x - 1).
Lemma P_continuous j x : continuous (at_ (P j)) x.
Proof.
  apply (continuous_comp (fun x => 2 * x - 1) (P j)).
  - apply (ex_derive_continuous (fun x => 2 * x - 1)). auto_derive. exact I.
  - apply (ex_derive_continuous (P j)). eexists. apply P_derive.
Qed.
Lemma orthogonal m n : m <> n -> is_RInt (fun x => at_ (P m) x * at_ (P n) x) 0 1 0.
Proof.
  intros Hmn. set (c := INR m * (INR m + 1) - INR n * (INR n + 1)).
  assert (Hc : c <> 0).
  { unfold c. pose proof (pos_INR m). pose proof (pos_INR n). assert (INR m <> INR n) by (intros E; apply Hmn, INR_eq, E).
    replace (INR m * (INR m + 1) - INR n * (INR n + 1)) with ((INR m - INR n) * (INR m + INR n + 1)) by ring. apply Rmult_integral_contrapositive. split; lra. }
  set (F := fun x => G n (2 * x - 1) * P m (2 * x - 1) - G m (2 * x - 1) * P n (2 * x - 1)).
  assert (DF : forall x, is_derive F x (2 * c * (at_ (P m) x * at_ (P n) x))).
  { intros x. unfold F. set (t := 2 * x - 1). pose proof (P_derive m t) as Pm. pose proof (P_derive n t) as Pn. pose proof (G_derive m t) as Gm. pose proof (G_derive n t) as Gn.
    auto_derive.
    - fold t. repeat split; eexists; eassumption.
    - replace (2 * x + - (1)) with t by (unfold t; ring). replace (Derive (fun x => P m x) t) with (D m t) by (symmetry; apply is_derive_unique, Pm).
      replace (Derive (fun x => P n x) t) with (D n t) by (symmetry; apply is_derive_unique, Pn).
      replace (Derive (fun x => G m x) t) with (- (INR m * (INR m + 1)) * P m t) by (symmetry; apply is_derive_unique, Gm).
      replace (Derive (fun x => G n x) t) with (- (INR n * (INR n + 1)) * P n t) by (symmetry; apply is_derive_unique, Gn).
      unfold at_, c, G. fold t. ring. }
  assert (I : is_RInt (fun x => 2 * c * (at_ (P m) x * at_ (P n) x)) 0 1 (F 1 - F 0)).
  { apply (is_RInt_derive F); [intros x _; apply DF|]. intros x _. apply (continuous_scal_r (2 * c) (fun x => at_ (P m) x * at_ (P n) x)). apply (continuous_mult (at_ (P m)) (at_ (P n))); apply P_continuous. }
  assert (Z : F 1 - F 0 = 0) by (unfold F, G; ring). rewrite Z in I.
  apply (is_RInt_ext (fun x => scal (/ (2 * c)) (2 * c * (at_ (P m) x * at_ (P n) x)))).
  - intros x _. change (/ (2 * c) * (2 * c * (at_ (P m) x * at_ (P n) x)) = at_ (P m) x * at_ (P n) x). field. exact Hc.
  - replace 0 with (scal (/ (2 * c)) 0) at 2 by (change (/ (2 * c) * 0 = 0); ring). apply (is_RInt_scal (V := R_NormedModule)), I.
Qed.
Lemma cont_ex (f : R -> R) : (forall x, continuous f x) -> ex_RInt f 0 1.
Proof. intros H. apply (ex_RInt_continuous (V := R_CompleteNormedModule)). intros x _. apply H. Qed.
Lemma prod_cont i j x : continuous (fun x => at_ (P i) x * at_ (P j) x) x.
Proof. apply (continuous_mult (at_ (P i)) (at_ (P j))); apply P_continuous. Qed.
Lemma tprod_cont i j x : continuous (fun x => (2 * x - 1) * (at_ (P i) x * at_ (P j) x)) x.
Proof. apply (continuous_mult (fun x => 2 * x - 1)); [|apply prod_cont]. apply (ex_derive_continuous (fun x => 2 * x - 1)). auto_derive. exact I. Qed.
Definition sq (j : nat) : R := RInt (fun x => at_ (P j) x * at_ (P j) x) 0 1.
Definition tp (j : nat) : R := RInt (fun x => (2 * x - 1) * (at_ (P j) x * at_ (P (S j)) x)) 0 1.
Lemma is_sq j : is_RInt (fun x => at_ (P j) x * at_ (P j) x) 0 1 (sq j).
Proof. apply (RInt_correct (V := R_CompleteNormedModule)), cont_ex. intros x. apply prod_cont. Qed.
Lemma is_tp j : is_RInt (fun x => (2 * x - 1) * (at_ (P j) x * at_ (P (S j)) x)) 0 1 (tp j).
Proof. apply (RInt_correct (V := R_CompleteNormedModule)), cont_ex. intros x. apply tprod_cont. Qed.
Lemma lin2 f g a b (u v : R) : is_RInt f 0 1 u -> is_RInt g 0 1 v -> is_RInt (fun x => a * f x - b * g x) 0 1 (a * u - b * v).
Proof.
  intros Hf Hg. apply (is_RInt_ext (fun x => minus (scal a (f x)) (scal b (g x)))); [reflexivity|].
  apply (is_RInt_minus (V := R_NormedModule)); now apply (is_RInt_scal (V := R_NormedModule)).
Qed.
Lemma same_integral (f : R -> R) (u v : R) : is_RInt f 0 1 u -> is_RInt f 0 1 v -> u = v.
Proof. intros H1 H2. transitivity (RInt f 0 1); [symmetry|]; now apply (is_RInt_unique (V := R_CompleteNormedModule)). Qed.
Lemma lower_rel j : (2 * INR j + 3) * tp j = (INR j + 1) * sq j.
Proof.
  pose proof (lin2 _ _ (2 * INR j + 3) (INR j + 1) _ _ (is_tp j) (is_sq j)) as H1.
  assert (H2 : is_RInt (fun x => (2 * INR j + 3) * ((2 * x - 1) * (at_ (P j) x * at_ (P (S j)) x)) - (INR j + 1) * (at_ (P j) x * at_ (P j) x)) 0 1 ((INR j + 2) * 0 - 0 * sq j)).
  { apply (is_RInt_ext (fun x => (INR j + 2) * (at_ (P (S (S j))) x * at_ (P j) x) - 0 * (at_ (P j) x * at_ (P j) x))).
    - intros x _. unfold at_. set (t := 2 * x - 1). pose proof (bonnet j t) as B. asreal. rewrite Rmult_0_l, Rminus_0_r, <- Rmult_assoc, B. ring.
    - apply lin2; [apply orthogonal; lia|apply is_sq]. }
  pose proof (same_integral _ _ _ H1 H2) as E1. lra.
Qed.
Lemma upper_rel j : (INR j + 1) * sq (S j) = (2 * INR j + 1) * tp j.
Proof.
  destruct j as [|j].
  - assert (E : sq 1 = tp 0); [|rewrite E; cbn; ring]. unfold sq, tp. apply RInt_ext. intros x _. unfold at_. asreal. rewrite P_0, P_1. ring.
  - rewrite S_INR. pose proof (lin2 _ _ (INR j + 2) 0 _ _ (is_sq (S (S j))) (is_sq 0)) as H1.
    assert (H2 : is_RInt (fun x => (INR j + 2) * (at_ (P (S (S j))) x * at_ (P (S (S j))) x) - 0 * (at_ (P 0) x * at_ (P 0) x)) 0 1 ((2 * INR j + 3) * tp (S j) - (INR j + 1) * 0)).
    { apply (is_RInt_ext (fun x => (2 * INR j + 3) * ((2 * x - 1) * (at_ (P (S j)) x * at_ (P (S (S j))) x)) - (INR j + 1) * (at_ (P j) x * at_ (P (S (S j))) x))).
      - intros x _. unfold at_. set (t := 2 * x - 1). pose proof (bonnet j t) as B. asreal. transitivity ((INR j + 2) * P (S (S j)) t * P (S (S j)) t - 0); [rewrite B; ring|ring].
      - apply lin2; [apply is_tp|apply orthogonal; lia]. }
    pose proof (same_integral _ _ _ H1 H2) as E1. lra.
Qed.
Lemma sq_value j : sq j = / (2 * INR j + 1).
Proof.
  induction j as [|j IH].
  - unfold sq. rewrite (RInt_ext _ (fun _ => 1)) by (intros x _; unfold at_; asreal; rewrite P_0; ring). rewrite RInt_const. change (scal (1 - 0) 1) with ((1 - 0) * 1). cbn. field.
  - pose proof (pos_INR j) as H. pose proof (lower_rel j) as L. pose proof (upper_rel j) as U. rewrite S_INR.
    assert (T : tp j = (INR j + 1) * sq j / (2 * INR j + 3)) by (rewrite <- L; field; lra). rewrite T, IH in U.
    apply (Rmult_eq_reg_l (INR j + 1)); [|lra]. rewrite U. field. lra.
Qed.
Lemma sqrt_odd j : 0 < 2 * INR j + 1. Proof. pose proof (pos_INR j). lra. Qed.
Lemma phi_legendre j x : (1 <= j)%nat -> neyman_phi j x = at_ (P j) x * sqrt (2 * INR j + 1).
Proof.
  intros Hj. unfold at_. destruct j as [|[|[|[|j]]]]; [lia| | | |reflexivity]; unfold neyman_phi; replace 0.5 with (/ 2) by lra.
  - rewrite P_1. replace 12 with (2 * 2 * 3) by ring. rewrite sqrt_mult, sqrt_square by lra. replace (2 * INR 1 + 1) with 3 by (cbn; ring). field.
  - rewrite P_step, P_1, P_0. replace (2 * INR 2 + 1) with 5 by (cbn; ring). cbn [INR]. field.
  - rewrite P_step, P_step, P_1, P_0. replace (2 * INR 3 + 1) with 7 by (cbn; ring). cbn [INR]. field.
Qed.
Lemma phi_orthonormal : orthonormal neyman_phi (fun j => (1 <= j)%nat).
Proof.
  intros i j Hi Hj. apply (is_RInt_ext (fun x => scal (sqrt (2 * INR i + 1) * sqrt (2 * INR j + 1)) (at_ (P i) x * at_ (P j) x))).
  { intros x _. change (sqrt (2 * INR i + 1) * sqrt (2 * INR j + 1) * (at_ (P i) x * at_ (P j) x) = neyman_phi i x * neyman_phi j x). rewrite !phi_legendre by trivial. ring. }
  destruct (Nat.eqb_spec i j) as [->|N].
  - replace 1 with (scal (sqrt (2 * INR j + 1) * sqrt (2 * INR j + 1)) (sq j)) at 2.
    + apply (is_RInt_scal (V := R_NormedModule)), is_sq.
    + pose proof (sqrt_odd j). change (sqrt (2 * INR j + 1) * sqrt (2 * INR j + 1) * sq j = 1). rewrite sqrt_sqrt, sq_value by lra. field. lra.
  - replace 0 with (scal (sqrt (2 * INR i + 1) * sqrt (2 * INR j + 1)) 0) at 2 by (change (sqrt (2 * INR i + 1) * sqrt (2 * INR j + 1) * 0 = 0); ring).
    apply (is_RInt_scal (V := R_NormedModule)), orthogonal, N.
Qed.
Lemma phi_mean j : (1 <= j)%nat -> is_RInt (neyman_phi j) 0 1 0.
Proof.
  intros Hj. apply (is_RInt_ext (fun x => scal (sqrt (2 * INR j + 1)) (at_ (P j) x * at_ (P 0) x))).
  { intros x _. change (sqrt (2 * INR j + 1) * (at_ (P j) x * at_ (P 0) x) = neyman_phi j x). rewrite phi_legendre by trivial. unfold at_. rewrite P_0. ring. }
  replace 0 with (scal (sqrt (2 * INR j + 1)) 0) at 2 by (change (sqrt (2 * INR j + 1) * 0 = 0); ring).
  apply (is_RInt_scal (V := R_NormedModule)), orthogonal. lia.
Qed.
(** ** degrees *)
Fixpoint padd (a b : list R) : list R :=
  match a, b with [], _ => b | _, [] => a | x :: a', y :: b' => (x + y) :: padd a' b' end.
Lemma padd_eval a : forall b t, horner (padd a b) t = horner a t + horner b t.
Proof. induction a as [|x a IH]; intros [|y b] t; cbn; try ring. unfold horner in IH. rewrite IH. ring. Qed.
Lemma pscale_eval k a t : horner (map (Rmult k) a) t = k * horner a t.
Proof. induction a as [|x a IH]; cbn; [ring|]. unfold horner in IH. rewrite IH. ring. Qed.
Lemma padd_last a : forall b, (length b < length a)%nat -> length (padd a b) = length a /\ last (padd a b) 0 = last a 0.
Proof.
  induction a as [|x a IH]; intros [|y b] H; cbn in *; try lia; [auto|]. destruct (IH b ltac:(lia)) as [L E]. split; [lia|].
  destruct a as [|x' a']; [cbn in *; lia|]. destruct (padd (x' :: a') b) as [|z p] eqn:Q; [cbn in L; lia|]. exact E.
Qed.
Lemma last_map_mult k a : last (map (Rmult k) a) 0 = k * last a 0.
Proof. induction a as [|x [|y a] IH]; cbn in *; trivial; ring. Qed.
Definition degree (j : nat) (f : R -> R) : Prop := exists c, length c = S j /\ 0 < last c 0 /\ forall t, f t = horner c t.
Lemma P_degree2 j : degree j (P j) /\ degree (S j) (P (S j)).
Proof.
  induction j as [|j [(a & La & Pa & Ea) (b & Lb & Pb & Eb)]].
  - split.
    + exists [1]. split; [reflexivity|]. split; [cbn; lra|]. intros t. rewrite P_0. cbn. ring.
    + exists [0; 1]. split; [reflexivity|]. split; [cbn; lra|]. intros t. rewrite P_1. cbn. ring.
  - split; [exists b; auto|]. pose proof (pos_INR j) as H. set (k := (2 * INR j + 3) / (INR j + 2)). set (m := - ((INR j + 1) / (INR j + 2))).
    assert (Hk : 0 < k) by (apply Rdiv_lt_0_compat; lra).
    exists (padd (0 :: map (Rmult k) b) (map (Rmult m) a)). destruct (padd_last (0 :: map (Rmult k) b) (map (Rmult m) a)) as [L E]; [cbn; rewrite !map_length; lia|].
    rewrite L, E. split; [cbn; rewrite map_length; lia|]. split.
    + destruct b as [|b0 b']; [discriminate|]. cbn [map]. change (0 < last (map (Rmult k) (b0 :: b')) 0). rewrite last_map_mult. now apply Rmult_lt_0_compat.
    + intros t. rewrite padd_eval. change (horner (0 :: map (Rmult k) b) t) with (0 + t * horner (map (Rmult k) b) t). rewrite !pscale_eval, <- Ea, <- Eb, P_step. unfold k, m. field. lra.
Qed.
Lemma phi_degree j : (1 <= j)%nat -> polynomial_of_degree j (neyman_phi j).
Proof.
  intros Hj. destruct (proj1 (P_degree2 j)) as (c & L & Pc & E). pose proof (sqrt_lt_R0 _ (sqrt_odd j)) as S0.
  exists (map (Rmult (sqrt (2 * INR j + 1))) c). split; [now rewrite map_length|]. split; [rewrite last_map_mult; now apply Rmult_lt_0_compat|].
  intros x. rewrite pscale_eval, <- E, phi_legendre by trivial. unfold at_. ring.
Qed.
(** ** parity *)
Lemma P_parity2 j t : P j (- t) = (- 1) ^ j * P j t /\ P (S j) (- t) = (- 1) ^ S j * P (S j) t.
Proof.
  induction j as [|j [A B]].
  - rewrite !P_0, !P_1. cbn. split; ring.
  - split; trivial. pose proof (pos_INR j). rewrite !P_step, A, B. cbn [pow]. field. lra.
Qed.
Lemma pm1_sq j : (- 1) ^ j * (- 1) ^ j = 1. Proof. rewrite <- Rpow_mult_distr. replace (- 1 * - 1) with 1 by ring. apply pow1. Qed.
Lemma phi_parity j x : (1 <= j)%nat -> neyman_phi j (1 - x) = (- 1) ^ j * neyman_phi j x.
Proof.
  intros Hj. rewrite !phi_legendre by trivial. unfold at_. replace (2 * (1 - x) - 1) with (- (2 * x - 1)) by ring. rewrite (proj1 (P_parity2 j _)). ring.
Qed.
