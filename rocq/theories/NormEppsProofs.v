(** The Epps-Pulley statistic is positive: it is the squared distance between the sums of the features
    e^(-z^2/2) z^k / sqrt k! of the standardised sample and their limits under the normal law. *)
From Verif Require Import Base DecModel EdfModel GraphModel RegistryModel NormalLaw ExpModel NormModel NormRangeSpec NormFormSpec EdfProofs ExpProofs NormProofs NormSymProofs NormAffProofs NormReflProofs NormRangeProofs NormFiniteProofs NormDistProofs NormDist2Proofs.
From Coq Require Import Lra Lia.
Local Open Scope R_scope.

(** ** the central binomial series is at most 1 / sqrt (1 - 4 x) *)
Definition cbin (j : nat) : R := INR (fact (2 * j)) / (INR (fact j) * INR (fact j)).
Lemma factR j : 0 < INR (fact j). Proof. apply lt_0_INR, lt_O_fact. Qed.
Lemma cbin_pos j : 0 < cbin j.
Proof. unfold cbin. apply Rdiv_lt_0_compat; [apply factR|apply Rmult_lt_0_compat; apply factR]. Qed.
Lemma factS j : INR (fact (S j)) = (INR j + 1) * INR (fact j).
Proof. rewrite fact_simpl, mult_INR, S_INR. reflexivity. Qed.
Lemma cbin_S j : INR (S j) * cbin (S j) = (4 * INR j + 2) * cbin j.
Proof.
  unfold cbin. replace (2 * S j)%nat with (S (S (2 * j))) by lia. rewrite !factS, !S_INR, mult_INR. simpl (INR 2). pose proof (factR j). pose proof (pos_INR j). field. split; lra.
Qed.
Fixpoint cser (J : nat) (x : R) : R := match J with O => 1 | S j => cser j x + cbin (S j) * x ^ S j end.
Fixpoint cser' (J : nat) (x : R) : R := match J with O => 0 | S j => cser' j x + cbin (S j) * (INR (S j) * x ^ j) end.
Lemma cser_deriv J x : derivable_pt_lim (cser J) x (cser' J x).
Proof.
  induction J as [|j IH]; [apply (derivable_pt_lim_const 1)|]. cbn [cser cser']. apply (derivable_pt_lim_plus (cser j) (fun y => cbin (S j) * y ^ S j)); [exact IH|].
  apply (derivable_pt_lim_scal (fun y => y ^ S j)). apply derivable_pt_lim_pow.
Qed.
Lemma cser_pos J x : 0 <= x -> 1 <= cser J x.
Proof. intros H. induction J as [|j IH]; cbn [cser]; [lra|]. pose proof (cbin_pos (S j)). pose proof (pow_le x (S j) H). assert (0 <= cbin (S j) * x ^ S j) by (apply Rmult_le_pos; lra). lra. Qed.
Lemma cser_ode J x : (1 - 4 * x) * cser' J x - 2 * cser J x = - ((4 * INR J + 2) * cbin J * x ^ J).
Proof.
  induction J as [|j IH].
  - cbn [cser cser']. unfold cbin. simpl. field.
  - cbn [cser cser']. transitivity ((1 - 4 * x) * cser' j x - 2 * cser j x + (1 - 4 * x) * (INR (S j) * cbin (S j) * x ^ j) - 2 * cbin (S j) * x ^ S j); [ring|].
    rewrite IH, (cbin_S j). replace (INR (S j) * cbin (S j)) with ((4 * INR j + 2) * cbin j) by (symmetry; apply cbin_S).
    transitivity (- 4 * ((4 * INR j + 2) * cbin j) * x ^ S j - 2 * cbin (S j) * x ^ S j); [simpl; ring|]. rewrite <- cbin_S. ring.
Qed.
Lemma cser_bound J x : 0 < x < 1 / 4 -> cser J x ^ 2 * (1 - 4 * x) <= 1.
Proof.
  intros H. set (f := fun y => cser J y ^ 2 * (1 - 4 * y)).
  destruct (MVT_cor2 f (fun y => 2 * cser J y * cser' J y * (1 - 4 * y) + cser J y ^ 2 * (- 4)) 0 x) as (c & E & Hc); [lra| |].
  - intros c _. unfold f. apply (derivable_pt_lim_mult (fun y => cser J y ^ 2) (fun y => 1 - 4 * y)).
    + replace (2 * cser J c * cser' J c) with (INR 2 * cser J c ^ (pred 2) * cser' J c) by (simpl; ring). apply (derivable_pt_lim_comp (cser J) (fun y => y ^ 2)); [apply cser_deriv|apply derivable_pt_lim_pow].
    + replace (- 4) with (0 - 4 * 1) by ring. apply (derivable_pt_lim_minus (fun _ => 1) (fun y => 4 * y)); [apply derivable_pt_lim_const|]. apply (derivable_pt_lim_scal (fun y => y)). apply derivable_pt_lim_id.
  - assert (F0 : f 0 = 1). { unfold f. assert (cser J 0 = 1); [|rewrite H0; ring]. clear. induction J as [|j IH]; [reflexivity|]. cbn [cser]. rewrite IH. simpl. ring. }
    fold (f x). rewrite F0 in E. pose proof (cser_pos J c ltac:(lra)) as P. pose proof (cser_ode J c) as O.
    assert (D : 2 * cser J c * cser' J c * (1 - 4 * c) + cser J c ^ 2 * -4 = 2 * cser J c * ((1 - 4 * c) * cser' J c - 2 * cser J c)) by ring.
    rewrite D, O in E. assert (0 <= (4 * INR J + 2) * cbin J * c ^ J).
    { apply Rmult_le_pos; [apply Rmult_le_pos; [pose proof (pos_INR J); lra|left; apply cbin_pos]|apply pow_le; lra]. }
    match type of H0 with 0 <= ?t => set (T := t) in * end. assert (Q : 0 <= cser J c * T * x) by (apply Rmult_le_pos; [apply Rmult_le_pos|]; lra).
    replace (2 * cser J c * - T * (x - 0)) with (-2 * (cser J c * T * x)) in E by ring. lra.
Qed.

(** ** features *)
Definition feat (k : nat) (z : R) : R := exp (- (z ^ 2 / 2)) * z ^ k / sqrt (INR (fact k)).
Definition ck (j : nat) : R := sqrt (INR (fact (2 * j))) / (4 ^ j * INR (fact j)) / sqrt 2.
Lemma sqrt_fact_pos k : 0 < sqrt (INR (fact k)). Proof. apply sqrt_lt_R0, factR. Qed.
Lemma feat_prod k y z : feat k y * feat k z = exp (- (y ^ 2 / 2)) * exp (- (z ^ 2 / 2)) * (/ INR (fact k) * (y * z) ^ k).
Proof.
  unfold feat. pose proof (sqrt_fact_pos k) as P. assert (Q : sqrt (INR (fact k)) * sqrt (INR (fact k)) = INR (fact k)) by (apply sqrt_sqrt; left; apply factR).
  rewrite Rpow_mult_distr. rewrite <- Q at 3. field. lra.
Qed.
Lemma feat_ck j z : 2 * ck j * feat (2 * j) z = sqrt 2 * exp (- (z ^ 2 / 2)) * (/ INR (fact j) * (z ^ 2 / 4) ^ j).
Proof.
  unfold feat, ck. pose proof (sqrt_fact_pos (2 * j)) as P. pose proof (factR j) as F. assert (S2 : 0 < sqrt 2) by (apply sqrt_lt_R0; lra). assert (Q : sqrt 2 * sqrt 2 = 2) by (apply sqrt_sqrt; lra).
  assert (F4 : 0 < 4 ^ j) by (apply pow_lt; lra). replace ((z ^ 2 / 4) ^ j) with (z ^ (2 * j) / 4 ^ j). 2: { unfold Rdiv. rewrite Rpow_mult_distr, pow_inv, pow_mult. reflexivity. }
  apply (Rmult_eq_reg_r (sqrt 2)); [|lra]. transitivity (2 * (exp (- (z ^ 2 / 2)) * z ^ (2 * j)) / (4 ^ j * INR (fact j))); [field; lra|].
  rewrite <- Q at 1. field. lra.
Qed.
Lemma ck_sq j : ck j ^ 2 = cbin j * (1 / 16) ^ j / 2.
Proof.
  unfold ck, cbin. pose proof (factR j) as F. assert (S2 : 0 < sqrt 2) by (apply sqrt_lt_R0; lra). assert (Q : sqrt 2 * sqrt 2 = 2) by (apply sqrt_sqrt; lra).
  assert (Q2 : sqrt (INR (fact (2 * j))) * sqrt (INR (fact (2 * j))) = INR (fact (2 * j))) by (apply sqrt_sqrt; left; apply factR).
  assert (F4 : 0 < 4 ^ j) by (apply pow_lt; lra). replace ((1 / 16) ^ j) with (/ (4 ^ j * 4 ^ j)). 2: { rewrite <- Rpow_mult_distr. replace (4 * 4) with 16 by ring. unfold Rdiv. rewrite Rmult_1_l. symmetry. apply pow_inv. }
  transitivity ((sqrt (INR (fact (2 * j))) * sqrt (INR (fact (2 * j)))) / (4 ^ j * 4 ^ j * (INR (fact j) * INR (fact j))) / (sqrt 2 * sqrt 2)); [field; lra|]. rewrite Q, Q2. field. lra.
Qed.
Lemma cser_sum J x : cser J x = sum_f_R0 (fun j => cbin j * x ^ j) J.
Proof. induction J as [|j IH]; cbn [cser sum_f_R0]; [unfold cbin; simpl; field|now rewrite IH]. Qed.
Lemma ck_sum J : sum_f_R0 (fun j => ck j ^ 2) J <= 1 / sqrt 3.
Proof.
  assert (E : sum_f_R0 (fun j => ck j ^ 2) J = cser J (1 / 16) / 2).
  { rewrite cser_sum. match goal with |- _ = ?t / 2 => replace (t / 2) with (/ 2 * t) by lra end. rewrite scal_sum. apply sum_eq. intros j _. rewrite ck_sq. lra. }
  rewrite E. pose proof (cser_bound J (1 / 16) ltac:(lra)) as B. pose proof (cser_pos J (1 / 16) ltac:(lra)) as P. assert (S3 : 0 < sqrt 3) by (apply sqrt_lt_R0; lra). assert (Q : sqrt 3 * sqrt 3 = 3) by (apply sqrt_sqrt; lra).
  set (g := cser J (1 / 16)) in *. apply (Rmult_le_reg_r (sqrt 3)); trivial. replace (1 / sqrt 3 * sqrt 3) with 1 by (field; lra).
  assert (g * sqrt 3 <= 2); [|lra]. apply Rsqr_incr_0; [unfold Rsqr; nra|nra|lra].
Qed.

(** ** limits of sums over a sample *)
Lemma cv_Rsum {A} (u : A -> nat -> R) (lim : A -> R) l : (forall x, In x l -> Un_cv (u x) (lim x)) -> Un_cv (fun N => Rsum (map (fun x => u x N) l)) (Rsum (map lim l)).
Proof.
  induction l as [|a l IH]; intros H; cbn [map Rsum].
  - intros e He. exists 0%nat. intros n _. unfold R_dist. rewrite Rminus_diag_eq, Rabs_R0; trivial; reflexivity.
  - apply CV_plus; [apply H; now left|apply IH; intros; apply H; now right].
Qed.
Lemma cv_scal c u l : Un_cv u l -> Un_cv (fun n => c * u n) (c * l).
Proof. intros H. apply (CV_mult (fun _ => c) u); [|exact H]. intros e He. exists 0%nat. intros n _. unfold R_dist. rewrite Rminus_diag_eq, Rabs_R0; trivial; reflexivity. Qed.
Lemma exp_cv x : Un_cv (sum_f_R0 (fun k => / INR (fact k) * x ^ k)) (exp x).
Proof. unfold exp. destruct (exist_exp x) as [y Hy]. exact Hy. Qed.
Lemma sum_scal_l c f N : sum_f_R0 (fun k => c * f k) N = c * sum_f_R0 f N.
Proof. rewrite scal_sum. apply sum_eq. intros. ring. Qed.
Lemma sum_Rsum {A} (f : nat -> A -> R) l N : sum_f_R0 (fun k => Rsum (map (f k) l)) N = Rsum (map (fun x => sum_f_R0 (fun k => f k x) N) l).
Proof. induction N as [|N IH]; cbn [sum_f_R0]; [reflexivity|]. rewrite IH, <- Rsum_map_plus. reflexivity. Qed.
Definition F (l : list R) (k : nat) : R := Rsum (map (feat k) l).
Lemma F_sq l k : F l k ^ 2 = Rsum (map (fun y => Rsum (map (fun z => feat k y * feat k z) l)) l).
Proof.
  unfold F. rewrite (Rsum_map_ext (fun y => Rsum (map (fun z => feat k y * feat k z) l)) (fun y => feat k y * Rsum (map (feat k) l))).
  - rewrite Rsum_map_scal_r. ring.
  - intros y _. apply Rsum_map_scal.
Qed.
Definition kernel_sum (l : list R) : R := Rsum (map (fun y => Rsum (map (fun z => exp (- ((y - z) ^ 2 / 2))) l)) l).
Lemma F_cv l : Un_cv (sum_f_R0 (fun k => F l k ^ 2)) (kernel_sum l).
Proof.
  apply Un_cv_ext with (un := fun N => Rsum (map (fun y => Rsum (map (fun z => exp (- (y ^ 2 / 2)) * exp (- (z ^ 2 / 2)) * sum_f_R0 (fun k => / INR (fact k) * (y * z) ^ k) N) l)) l)).
  - intros N. rewrite (sum_eq _ (fun k => Rsum (map (fun y => Rsum (map (fun z => feat k y * feat k z) l)) l))) by (intros; apply F_sq).
    rewrite sum_Rsum. apply Rsum_map_ext. intros y _. rewrite sum_Rsum. apply Rsum_map_ext. intros z _. rewrite <- sum_scal_l. apply sum_eq. intros k _. now rewrite feat_prod.
  - unfold kernel_sum. apply (cv_Rsum (fun y N => Rsum (map (fun z => exp (- (y ^ 2 / 2)) * exp (- (z ^ 2 / 2)) * sum_f_R0 (fun k => / INR (fact k) * (y * z) ^ k) N) l))). intros y _.
    apply (cv_Rsum (fun z N => exp (- (y ^ 2 / 2)) * exp (- (z ^ 2 / 2)) * sum_f_R0 (fun k => / INR (fact k) * (y * z) ^ k) N)). intros z _.
    replace (exp (- ((y - z) ^ 2 / 2))) with (exp (- (y ^ 2 / 2)) * exp (- (z ^ 2 / 2)) * exp (y * z)) by (rewrite <- !exp_plus; f_equal; lra).
    apply cv_scal, exp_cv.
Qed.
Lemma cross_cv l : Un_cv (sum_f_R0 (fun j => 2 * ck j * F l (2 * j))) (sqrt 2 * Rsum (map (fun z => exp (- (z ^ 2 / 4))) l)).
Proof.
  apply Un_cv_ext with (un := fun N => Rsum (map (fun z => sqrt 2 * exp (- (z ^ 2 / 2)) * sum_f_R0 (fun j => / INR (fact j) * (z ^ 2 / 4) ^ j) N) l)).
  - intros N. rewrite (sum_eq _ (fun j => Rsum (map (fun z => 2 * ck j * feat (2 * j) z) l))) by (intros; unfold F; now rewrite Rsum_map_scal).
    rewrite sum_Rsum. apply Rsum_map_ext. intros z _. rewrite <- sum_scal_l. apply sum_eq. intros j _. now rewrite feat_ck.
  - rewrite <- Rsum_map_scal. apply (cv_Rsum (fun z N => sqrt 2 * exp (- (z ^ 2 / 2)) * sum_f_R0 (fun j => / INR (fact j) * (z ^ 2 / 4) ^ j) N)). intros z _.
    replace (sqrt 2 * exp (- (z ^ 2 / 4))) with (sqrt 2 * exp (- (z ^ 2 / 2)) * exp (z ^ 2 / 4)) by (rewrite Rmult_assoc, <- exp_plus; f_equal; f_equal; lra).
    apply cv_scal, exp_cv.
Qed.
Lemma cv_ge u l c i : Un_cv u l -> (forall N, (i <= N)%nat -> c <= u N) -> c <= l.
Proof.
  intros H K. destruct (Rle_lt_dec c l) as [|L]; trivial. exfalso. destruct (H (c - l) ltac:(lra)) as (N & HN). specialize (HN (max N i) ltac:(lia)). specialize (K (max N i) ltac:(lia)).
  unfold R_dist in HN. rewrite Rabs_pos_eq in HN; lra.
Qed.
Lemma cv_double u l : Un_cv u l -> Un_cv (fun N => u (2 * N)%nat) l.
Proof. intros H e He. destruct (H e He) as (N & HN). exists N. intros n Hn. apply HN. lia. Qed.
Lemma even_sum_le (f : nat -> R) N : (forall k, 0 <= f k) -> sum_f_R0 (fun j => f (2 * j)%nat) N <= sum_f_R0 f (2 * N).
Proof.
  intros H. induction N as [|N IH]; [simpl; lra|]. replace (2 * S N)%nat with (S (S (2 * N))) by lia. cbn [sum_f_R0]. replace (2 * S N)%nat with (S (S (2 * N))) by lia. pose proof (H (S (2 * N))). lra.
Qed.
Lemma sum_term_le (f : nat -> R) i N : (forall k, 0 <= f k) -> (i <= N)%nat -> f i <= sum_f_R0 f N.
Proof.
  intros H. induction N as [|N IH]; intros Hi; [replace i with 0%nat by lia; simpl; lra|]. cbn [sum_f_R0]. destruct (Nat.eq_dec i (S N)) as [->|E].
  - assert (0 <= sum_f_R0 f N) by (apply cond_pos_sum; trivial). lra.
  - specialize (IH ltac:(lia)). pose proof (H (S N)). lra.
Qed.
Definition ep_value (z : list R) : R := kernel_sum z / len z - sqrt 2 * Rsum (map (fun z => exp (- (z ^ 2 / 4))) z) + len z / sqrt 3.
Lemma ep_value_ge z i : z <> [] -> (F z (2 * i) - len z * ck i) ^ 2 / len z <= ep_value z.
Proof.
  intros N. pose proof (len_pos z N) as L. set (n := len z) in *. assert (S3 : 0 < sqrt 3) by (apply sqrt_lt_R0; lra).
  assert (C : Un_cv (fun M => / n * sum_f_R0 (fun k => F z k ^ 2) (2 * M) - sum_f_R0 (fun j => 2 * ck j * F z (2 * j)) M + n / sqrt 3) (ep_value z)).
  { unfold ep_value. fold n. replace (kernel_sum z / n) with (/ n * kernel_sum z) by (unfold Rdiv; ring). apply (CV_plus (fun M => / n * sum_f_R0 (fun k => F z k ^ 2) (2 * M) - sum_f_R0 (fun j => 2 * ck j * F z (2 * j)) M) (fun _ => n / sqrt 3)).
    - apply CV_minus; [apply cv_scal; apply (cv_double (sum_f_R0 (fun k => F z k ^ 2))), F_cv|apply cross_cv].
    - intros e He. exists 0%nat. intros m _. unfold R_dist. rewrite Rminus_diag_eq, Rabs_R0; trivial; reflexivity. }
  apply (cv_ge _ _ _ i C). intros M HM.
  assert (E1 : sum_f_R0 (fun j => F z (2 * j) ^ 2) M <= sum_f_R0 (fun k => F z k ^ 2) (2 * M)) by (apply (even_sum_le (fun k => F z k ^ 2)); intros; apply pow2_ge_0).
  pose proof (ck_sum M) as E2.
  assert (E3 : sum_f_R0 (fun j => (F z (2 * j) - n * ck j) ^ 2) M = sum_f_R0 (fun j => F z (2 * j) ^ 2) M - n * sum_f_R0 (fun j => 2 * ck j * F z (2 * j)) M + n * n * sum_f_R0 (fun j => ck j ^ 2) M).
  { rewrite <- !sum_scal_l, <- minus_sum, <- plus_sum. apply sum_eq. intros j _. ring. }
  assert (E4 : (F z (2 * i) - n * ck i) ^ 2 <= sum_f_R0 (fun j => (F z (2 * j) - n * ck j) ^ 2) M) by (apply (sum_term_le (fun j => (F z (2 * j) - n * ck j) ^ 2)); [intros; apply pow2_ge_0|trivial]).
  rewrite E3 in E4. set (A := sum_f_R0 (fun j => F z (2 * j) ^ 2) M) in *. set (A' := sum_f_R0 (fun k => F z k ^ 2) (2 * M)) in *. set (B := sum_f_R0 (fun j => 2 * ck j * F z (2 * j)) M) in *. set (D := sum_f_R0 (fun j => ck j ^ 2) M) in *.
  apply (Rmult_le_reg_l n); trivial. replace (n * ((F z (2 * i) - n * ck i) ^ 2 / n)) with ((F z (2 * i) - n * ck i) ^ 2) by (field; lra).
  replace (n * (/ n * A' - B + n / sqrt 3)) with (A' - n * B + n * n * (1 / sqrt 3)) by (field; lra).
  assert (n * n * D <= n * n * (1 / sqrt 3)) by (apply Rmult_le_compat_l; [nra|exact E2]). lra.
Qed.
Lemma fact_ge j m : INR j ^ m * INR (fact j) <= INR (fact (j + m)).
Proof.
  induction m as [|m IH]; [rewrite Nat.add_0_r; simpl; lra|]. rewrite Nat.add_succ_r, factS. simpl pow. pose proof (pos_INR j). pose proof (pos_INR m). pose proof (factR (j + m)). rewrite plus_INR.
  apply Rle_trans with (INR j * INR (fact (j + m))); [rewrite Rmult_assoc; apply Rmult_le_compat_l; trivial|]. apply Rmult_le_compat_r; lra.
Qed.
Lemma ep_value_pos z : z <> [] -> (forall x, In x z -> x ^ 2 <= len z) -> 0 < ep_value z.
Proof.
  intros N H. pose proof (len_pos z N) as L. set (j := (8 * length z)%nat). assert (J1 : (1 <= j)%nat) by (unfold j; destruct z; [easy|simpl; lia]).
  pose proof (ep_value_ge z j N) as G. cut (F z (2 * j) < len z * ck j).
  { intros K. assert (0 < (F z (2 * j) - len z * ck j) ^ 2 / len z); [|lra]. apply Rdiv_lt_0_compat; trivial. nra. }
  set (n := len z) in *. assert (Jn : INR j = 8 * n) by (unfold j, n, len; rewrite mult_INR; simpl (INR 8); ring).
  apply Rle_lt_trans with (n * (n ^ j / sqrt (INR (fact (2 * j))))).
  - unfold F, n at 1, len. rewrite <- (Rsum_map_const (n ^ j / sqrt (INR (fact (2 * j)))) z). apply Rsum_map_le. intros x Hx. unfold feat.
    apply Rmult_le_compat_r; [left; apply Rinv_0_lt_compat, sqrt_fact_pos|]. rewrite pow_mult. specialize (H x Hx). pose proof (pow2_ge_0 x) as P.
    assert (E : exp (- (x ^ 2 / 2)) <= 1) by (rewrite <- exp_0; destruct (Req_dec (x ^ 2) 0) as [->|]; [replace (- (0 / 2)) with 0 by lra; lra|left; apply exp_increasing; lra]).
    pose proof (exp_pos (- (x ^ 2 / 2))). assert (Q : (x ^ 2) ^ j <= n ^ j) by (apply pow_incr; lra). pose proof (pow_le (x ^ 2) j P). nra.
  - apply Rmult_lt_compat_l; trivial. unfold ck. set (s := sqrt (INR (fact (2 * j)))). pose proof (sqrt_fact_pos (2 * j)) as Ps. fold s in Ps. assert (Q : s * s = INR (fact (2 * j))) by (apply sqrt_sqrt; left; apply factR).
    pose proof (fact_ge j j) as Fg. replace (j + j)%nat with (2 * j)%nat in Fg by lia. rewrite Jn in Fg. pose proof (factR j) as Fj. assert (F4 : 0 < 4 ^ j) by (apply pow_lt; lra).
    assert (S2 : 0 < sqrt 2 < 2) by (split; [apply sqrt_lt_R0; lra|]; rewrite <- (sqrt_square 2) at 2 by lra; apply sqrt_lt_1; lra).
    assert (P2 : 2 <= 2 ^ j) by (destruct j as [|j']; [lia|]; simpl; pose proof (pow_R1_Rle 2 j' ltac:(lra)); lra). assert (Pn : 0 < n ^ j) by (now apply pow_lt).
    replace (8 * n) with (2 * (4 * n)) in Fg by ring. rewrite !Rpow_mult_distr in Fg.
    apply (Rmult_lt_reg_r (s * (4 ^ j * INR (fact j)) * sqrt 2)); [repeat apply Rmult_lt_0_compat; lra|].
    replace (n ^ j / s * (s * (4 ^ j * INR (fact j)) * sqrt 2)) with (sqrt 2 * (4 ^ j * n ^ j * INR (fact j))) by (field; lra).
    replace (s / (4 ^ j * INR (fact j)) / sqrt 2 * (s * (4 ^ j * INR (fact j)) * sqrt 2)) with (s * s) by (field; lra). rewrite Q.
    apply Rlt_le_trans with (2 ^ j * (4 ^ j * n ^ j) * INR (fact j)); trivial. replace (2 ^ j * (4 ^ j * n ^ j) * INR (fact j)) with (2 ^ j * (4 ^ j * n ^ j * INR (fact j))) by ring. apply Rmult_lt_compat_r; [|lra]. repeat apply Rmult_lt_0_compat; trivial.
Qed.
(** ** the statistic *)
Lemma double_pairs (K : R -> R -> R) l : (forall x y, K x y = K y x) ->
  Rsum (map (fun y => Rsum (map (K y) l)) l) = Rsum (map (fun y => K y y) l) + 2 * sum_pairs K l.
Proof.
  intros S. induction l as [|a l IH]; [simpl; ring|]. cbn [map Rsum sum_pairs].
  rewrite (Rsum_map_plus (fun y => K y a) (fun y => Rsum (map (K y) l))), IH. rewrite (Rsum_map_ext (fun y => K y a) (K a)) by (intros; apply S). ring.
Qed.
Lemma sum_pairs_map_k (K : R -> R -> R) (f : R -> R) l : sum_pairs K (map f l) = sum_pairs (fun x y => K (f x) (f y)) l.
Proof. induction l as [|a l IH]; [reflexivity|]. cbn [map sum_pairs]. now rewrite IH, map_map. Qed.
Lemma sum_pairs_ext_k (K K' : R -> R -> R) l : (forall x y, K x y = K' x y) -> sum_pairs K l = sum_pairs K' l.
Proof. intros H. induction l as [|a l IH]; [reflexivity|]. cbn [sum_pairs]. rewrite IH. f_equal. apply Rsum_map_ext. intros. apply H. Qed.
Lemma ep_norm_value l v : ep_norm l = Ok (Some (Fin v)) -> 0 < np_var l /\ v = ep_value (zscores (sqrt (np_var l)) l).
Proof.
  unfold ep_norm. destruct l as [|x l0] eqn:El; [discriminate|]. rewrite <- El in *. assert (N : l <> []) by (rewrite El; discriminate). cbv zeta. intros H. apply num_inv in H as [V ->].
  apply varying_iff in V. pose proof (len_pos l N) as L. assert (P : 0 < np_var l) by (rewrite np_var_ssq; now apply Rdiv_lt_0_compat). split; [trivial|].
  set (m2 := np_var l) in *. set (s := sqrt m2). assert (Ps : 0 < s) by (now apply sqrt_lt_R0). assert (Qs : s * s = m2) by (apply sqrt_sqrt; lra).
  unfold ep_value, kernel_sum. rewrite (double_pairs (fun y z => exp (- ((y - z) ^ 2 / 2)))) by (intros; f_equal; f_equal; lra).
  assert (D : Rsum (map (fun y => exp (- ((y - y) ^ 2 / 2))) (zscores s l)) = len l).
  { rewrite (Rsum_map_ext _ (fun _ => 1)); [rewrite Rsum_map_const; unfold zscores, len; rewrite map_length; ring|]. intros y _. replace (- ((y - y) ^ 2 / 2)) with 0 by lra. apply exp_0. }
  rewrite D. assert (LZ : len (zscores s l) = len l) by (unfold zscores, len; now rewrite map_length). rewrite LZ.
  unfold zscores. rewrite sum_pairs_map_k, map_map.
  rewrite (sum_pairs_perm _ (rsort l) l) by (try apply rsort_perm; intros; f_equal; f_equal; f_equal; ring).
  rewrite (sum_pairs_ext_k (fun x y => exp (- ((x - y) ^ 2 / (2 * m2)))) (fun x0 y => exp (- (((x0 - mean l) / s - (y - mean l) / s) ^ 2 / 2)))).
  2: { intros a b. rewrite <- Qs. f_equal. f_equal. field. lra. }
  rewrite (Rsum_map_perm (fun x => exp (- ((x - mean l) ^ 2 / (4 * m2)))) (rsort l) l) by apply rsort_perm.
  rewrite (Rsum_map_ext (fun x => exp (- ((x - mean l) ^ 2 / (4 * m2)))) (fun x0 => exp (- (((x0 - mean l) / s) ^ 2 / 4)))).
  2: { intros a _. rewrite <- Qs. f_equal. f_equal. field. lra. }
  field. split; [apply Rgt_not_eq, sqrt_lt_R0; lra|lra].
Qed.
Lemma ep_positive l v : ep_norm l = Ok (Some (Fin v)) -> 0 < v.
Proof.
  intros H. assert (N : l <> []) by (intros ->; discriminate). apply ep_norm_value in H as [P ->]. pose proof (len_pos l N) as L. apply ep_value_pos; [destruct l; [easy|discriminate]|].
  intros z Hz. unfold zscores in Hz. apply in_map_iff in Hz as (x & <- & Hx). assert (LZ : len (zscores (sqrt (np_var l)) l) = len l) by (unfold zscores, len; now rewrite map_length). rewrite LZ.
  set (s := sqrt (np_var l)). assert (Ps : 0 < s) by (now apply sqrt_lt_R0). assert (Qs : s * s = np_var l) by (apply sqrt_sqrt; lra).
  replace (((x - mean l) / s) ^ 2) with ((x - mean l) ^ 2 / (s * s)) by (field; lra). rewrite Qs, np_var_ssq.
  assert (B : (x - mean l) ^ 2 <= ssq l).
  { unfold ssq. apply in_split in Hx as (l1 & l2 & E). set (m := mean l). rewrite E, map_app, Rsum_app. cbn [map Rsum].
    assert (0 <= Rsum (map (fun x => (x - m) ^ 2) l1)) by (apply Rsum_nonneg; intros y Hy; apply in_map_iff in Hy as (q & <- & _); apply pow2_ge_0).
    assert (0 <= Rsum (map (fun x => (x - m) ^ 2) l2)) by (apply Rsum_nonneg; intros y Hy; apply in_map_iff in Hy as (q & <- & _); apply pow2_ge_0). lra. }
  rewrite np_var_ssq in P. assert (S : 0 < ssq l). { destruct (Rlt_le_dec 0 (ssq l)); trivial. pose proof (ssq_nonneg l). assert (E : ssq l = 0) by lra. rewrite E in P. unfold Rdiv in P. lra. }
  apply (Rmult_le_reg_r (ssq l / len l)); trivial. replace ((x - mean l) ^ 2 / (ssq l / len l) * (ssq l / len l)) with ((x - mean l) ^ 2) by (field; lra).
  replace (len l * (ssq l / len l)) with (ssq l) by (field; lra). exact B.
Qed.
