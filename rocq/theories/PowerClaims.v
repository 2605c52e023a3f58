(** Property C119: the Kolmogorov-Smirnov test is consistent. *)
From Verif Require Import Base ProbSpec ProbProofs DecModel DecSpec DecProofs DecMoreProofs EdfModel EdfSpec EdfClaims SizeSpec SizeClaims ConvSpec ConvClaims PowerSpec.
From Coq Require Import Permutation Lra Lia ListDec.

Lemma Rabs_def2_le a b : Rabs a <= b -> - b <= a <= b.
Proof. unfold Rabs. destruct (Rcase_abs a); lra. Qed.
Lemma edf_fraction l x : edf l x = fraction (fun y => Rleb y x) l. Proof. reflexivity. Qed.
Lemma edf_le l x y : x <= y -> l <> [] -> edf l x <= edf l y.
Proof.
  intros H Ne. assert (P : 0 < INR (length l)) by (apply INR_pos; destruct l; [contradiction|simpl; lia]).
  unfold edf, Rdiv. apply Rmult_le_compat_r; [left; now apply Rinv_0_lt_compat|]. apply le_INR.
  apply (count_mono (fun z => Rleb z x) (fun z => Rleb z y)). intros z _ Hz. apply Rleb_true in Hz. apply Rleb_true. lra.
Qed.
Lemma edf_unit l x : l <> [] -> 0 <= edf l x <= 1.
Proof.
  intros Ne. assert (P : 0 < INR (length l)) by (apply INR_pos; destruct l; [contradiction|simpl; lia]).
  unfold edf. assert (C : INR (length (filter (fun y => Rleb y x) l)) <= INR (length l)) by (apply le_INR, (count_le_length (fun y => Rleb y x))).
  pose proof (pos_INR (length (filter (fun y => Rleb y x) l))). split; [unfold Rdiv; apply Rmult_le_pos; [lra|left; now apply Rinv_0_lt_compat]|]. apply (Rmult_le_reg_r (INR (length l))); [exact P|].
  unfold Rdiv. rewrite Rmult_assoc, Rinv_l by lra. lra.
Qed.
(** points that cut the law into m parts *)
Lemma grid_exists F m : full_cdf F -> exists xs : nat -> R, forall k, (0 < k < m)%nat -> F (xs k) = INR k / INR m.
Proof.
  intros [_ HF]. assert (G : forall j, (j <= m)%nat -> exists xs : nat -> R, forall k, (0 < k < j)%nat -> F (xs k) = INR k / INR m).
  { induction j as [|j IH]; intros Hj; [exists (fun _ => 0); intros k Hk; lia|].
    destruct IH as [xs Hxs]; [lia|]. destruct (Nat.eq_dec j 0) as [->|Nj]; [exists xs; intros k Hk; lia|].
    destruct (HF (INR j / INR m)) as [x Hx].
    { assert (0 < INR j) by (apply INR_pos; lia). assert (INR j < INR m) by (apply lt_INR; lia). split; [apply Rdiv_lt_0_compat; lra|].
      apply (Rmult_lt_reg_r (INR m)); [lra|]. unfold Rdiv. rewrite Rmult_assoc, Rinv_l by lra. lra. }
    exists (fun k => if Nat.eqb k j then x else xs k). intros k Hk. destruct (Nat.eqb_spec k j) as [->|N]; [exact Hx|]. apply Hxs. lia. }
  apply G. lia.
Qed.
Lemma uniform_deviation F H l xs m d eta : full_cdf F -> l <> [] -> (0 < m)%nat -> (forall k, (0 < k < m)%nat -> F (xs k) = INR k / INR m) ->
  laws_within eta H F -> 0 <= d -> (forall k, (0 < k < m)%nat -> Rabs (edf l (xs k) - H (xs k)) <= d) ->
  forall x, Rabs (edf l x - F x) <= d + eta + 2 / INR m.
Proof.
  intros [[HM [HU _]] _] Ne Hm Hxs Hw Hd Hg x. assert (P : 0 < INR m) by (apply INR_pos; exact Hm).
  pose proof (HU x) as Ux. pose proof (edf_unit l x Ne) as El. pose proof (Rle_trans _ _ _ (Rabs_pos _) (Hw 0)) as He.
  assert (I : 0 < / INR m) by (now apply Rinv_0_lt_compat). assert (IM : INR m * / INR m = 1) by (field; lra).
  set (k := floor_nat (INR m * F x)). destruct (floor_nat_spec (INR m * F x) ltac:(nra)) as [K1 K2]. fold k in K1, K2.
  assert (KF : INR k / INR m <= F x < (INR k + 1) / INR m).
  { split; [apply (Rmult_le_reg_l (INR m))|apply (Rmult_lt_reg_l (INR m))]; try exact P.
    - replace (INR m * (INR k / INR m)) with (INR k) by (field; lra). exact K1.
    - replace (INR m * ((INR k + 1) / INR m)) with (INR k + 1) by (field; lra). exact K2. }
  assert (lt_of : forall a b, F a < F b -> a <= b). { intros a b Hab. apply Rnot_lt_le. intros Hlt. pose proof (HM b a (Rlt_le _ _ Hlt)). lra. }
  unfold Rdiv in *. apply Rabs_le. split.
  - (* F x - edf l x *)
    destruct (Nat.le_gt_cases k 1) as [C|C].
    + assert (INR k <= 1) by (apply (le_INR k 1); exact C). nra.
    + assert (Hk : (0 < k - 1 < m)%nat).
      { split; [lia|]. apply INR_lt. rewrite minus_INR by lia. simpl (INR 1). nra. }
      specialize (Hxs _ Hk). specialize (Hg _ Hk). rewrite minus_INR in Hxs by lia. simpl (INR 1) in Hxs.
      assert (L : xs (k - 1)%nat <= x) by (apply lt_of; nra). pose proof (edf_le l _ _ L Ne) as EL. specialize (Hw (xs (k - 1)%nat)).
      apply Rabs_def2_le in Hg. apply Rabs_def2_le in Hw. nra.
  - destruct (Nat.le_gt_cases m (k + 1)) as [C|C].
    + apply le_INR in C. rewrite plus_INR in C. simpl (INR 1) in C. nra.
    + assert (Hk : (0 < k + 1 < m)%nat) by lia. specialize (Hxs _ Hk). specialize (Hg _ Hk). rewrite plus_INR in Hxs. simpl (INR 1) in Hxs.
      assert (L : x <= xs (k + 1)%nat) by (apply lt_of; nra). pose proof (edf_le l _ _ L Ne) as EL. specialize (Hw (xs (k + 1)%nat)).
      apply Rabs_def2_le in Hg. apply Rabs_def2_le in Hw. nra.
Qed.
Lemma ks_value F alt l : continuous_cdf F -> l <> [] -> exists d, ks_stat F alt l = Ok d /\
  supremum (fun x => match alt with TWO_TAILED => Rabs (edf l x - F x) | RIGHT => edf l x - F x | LEFT => F x - edf l x end) d.
Proof. intros HF Ne. destruct (C47_ks_is_sup_distance_holds F l HF Ne) as (A & B & C). destruct alt; assumption. Qed.
Lemma ks_upper F alt l b : continuous_cdf F -> l <> [] -> (forall x, Rabs (edf l x - F x) <= b) -> outcome (ks_stat F alt l) <= b.
Proof.
  intros HF Ne Hb. destruct (ks_value F alt l HF Ne) as (d & -> & _ & HL). simpl. apply HL. intros v (x & ->). specialize (Hb x).
  apply Rabs_def2_le in Hb as Hb'. destruct alt; lra.
Qed.
Lemma ks_lower F alt l x : continuous_cdf F -> l <> [] ->
  match alt with TWO_TAILED => Rabs (edf l x - F x) | RIGHT => edf l x - F x | LEFT => F x - edf l x end <= outcome (ks_stat F alt l).
Proof. intros HF Ne. destruct (ks_value F alt l HF Ne) as (d & -> & HU & _). simpl. apply HU. exists x. reflexivity. Qed.
Lemma draws_ne {Om} n S (w : Om) : (0 < n)%nat -> draws n S w <> [].
Proof. intros Hn. unfold draws. destruct n; [lia|discriminate]. Qed.

(** samples of a law within eta of the hypothesised one: the statistic is below eta + eps, up to a probability of order 1/n *)
Lemma C119_ks_null_holds : forall (Om : Type) (E : (Om -> R) -> R) n S F H alt eta eps,
  is_expectation E -> independent_draws E n S H -> (0 < n)%nat -> full_cdf F -> laws_within eta H F -> 0 < eps ->
  Pr E (fun w => Rleb (eta + eps) (outcome (ks_stat F alt (draws n S w)))) <= 4 / (INR n * eps ^ 3).
Proof.
  intros Om E n S F H alt eta eps HE HI Hn HF Hw He. assert (P : 0 < INR n) by (apply INR_pos; exact Hn).
  destruct (archimed (4 / eps)) as [U1 U2]. assert (Q : 0 < 4 / eps) by (apply Rdiv_lt_0_compat; lra).
  set (m := Z.to_nat (up (4 / eps))). assert (Hz : (0 < up (4 / eps))%Z) by (apply lt_IZR; lra).
  assert (EM : INR m = IZR (up (4 / eps))) by (unfold m; rewrite INR_IZR_INZ, Z2Nat.id by lia; reflexivity).
  assert (Hm : (0 < m)%nat) by (unfold m; lia). rewrite <- EM in U1, U2. clearbody m.
  assert (EQ : 4 / eps * eps = 4) by (field; lra). assert (PM : 0 < INR m) by lra.
  assert (M2 : 2 / INR m < eps / 2).
  { apply (Rmult_lt_reg_r (INR m)); [exact PM|]. unfold Rdiv. rewrite Rmult_assoc, Rinv_l by lra. nra. }
  destruct (grid_exists F m HF) as [xs Hxs].
  set (D := fun k w => Rleb (eps / 2) (Rabs (edf (draws n S w) (xs k) - H (xs k)))).
  apply Rle_trans with (Pr E (fun w => existsb (fun k => D k w) (seq 1 (m - 1)))).
  - apply (Pr_mono E HE). intros w Hv. apply Rleb_true in Hv. destruct (existsb (fun k => D k w) (seq 1 (m - 1))) eqn:EX; [reflexivity|]. exfalso.
    assert (A : forall k, (0 < k < m)%nat -> Rabs (edf (draws n S w) (xs k) - H (xs k)) <= eps / 2).
    { intros k Hk. apply Rnot_lt_le. intros HL. assert (X : existsb (fun k => D k w) (seq 1 (m - 1)) = true).
      { apply existsb_exists. exists k. split; [apply in_seq; lia|]. apply Rleb_true. lra. } rewrite X in EX. discriminate. }
    pose proof (ks_upper F alt (draws n S w) _ (proj1 HF) (draws_ne n S w Hn) (uniform_deviation F H (draws n S w) xs m (eps / 2) eta HF (draws_ne n S w Hn) Hm Hxs Hw ltac:(lra) A)). lra.
  - apply (Rle_trans _ _ _ (Pr_union E HE D (seq 1 (m - 1)))).
    apply Rle_trans with (Rsum (map (fun _ => / (4 * INR n * (eps / 2) ^ 2)) (seq 1 (m - 1)))).
    + apply Rsum_map_le. intros k _. apply (fraction_chebyshev E HE n S H (xs k) (D k) (eps / 2) HI Hn); [lra|]. intros w HD. apply Rleb_true in HD. exact HD.
    + rewrite Rsum_map_const, seq_length, minus_INR by lia. simpl (INR 1).
      replace (4 / (INR n * eps ^ 3)) with (4 / eps * / (4 * INR n * (eps / 2) ^ 2)) by (field; lra).
      apply Rmult_le_compat_r; [|lra]. left. apply Rinv_0_lt_compat. pose proof (pow_lt (eps / 2) 2 ltac:(lra)). nra.
Qed.
(** samples of a law that differs by gap somewhere: the statistic exceeds gap - eps *)
Lemma C119_ks_alternative_holds : forall (Om : Type) (E : (Om -> R) -> R) n S F H alt gap eps,
  is_expectation E -> independent_draws E n S H -> (0 < n)%nat -> continuous_cdf F -> laws_apart gap alt H F -> 0 < eps ->
  Pr E (fun w => Rleb (outcome (ks_stat F alt (draws n S w))) (gap - eps)) <= 1 / (4 * INR n * eps ^ 2).
Proof.
  intros Om E n S F H alt gap eps HE HI Hn HF [x Hx] He. replace (1 / (4 * INR n * eps ^ 2)) with (/ (4 * INR n * eps ^ 2)) by (unfold Rdiv; ring).
  apply (fraction_chebyshev E HE n S H x _ eps HI Hn He). intros w Hv. apply Rleb_true in Hv. rewrite <- edf_fraction.
  pose proof (ks_lower F alt (draws n S w) x HF (draws_ne n S w Hn)) as L. set (e := edf (draws n S w) x) in *.
  destruct alt.
  - rewrite Rabs_left1; lra.
  - rewrite Rabs_pos_eq; lra.
  - revert L Hx. unfold Rabs. destruct (Rcase_abs (e - F x)), (Rcase_abs (H x - F x)), (Rcase_abs (e - H x)); lra.
Qed.
Lemma gof_is_test meth F alt level sims obs : continuous_cdf F -> obs <> [] ->
  ks_test_rejects meth F alt level sims obs = test_rejects meth (ks_statistic F alt) level (length obs) (map (fun s => outcome (ks_stat F alt s)) sims) (outcome (ks_stat F alt obs)).
Proof.
  intros HF Ne. unfold ks_test_rejects, gof_test, test_rejects. destruct (ks_value F alt obs HF Ne) as (d & Ed & _).
  change (st_execute (ks_statistic F alt) obs) with (ks_stat F alt obs). rewrite Ed. reflexivity.
Qed.
(** an observation above all simulated values *)
Lemma above_all meth F alt level k sim obs : meth = PValueMethod \/ meth = CriticalValueMethod -> sim <> [] -> (forall y, In y sim -> y < obs) -> 0 <= level <= 1 ->
  (alt <> LEFT -> test_rejects meth (ks_statistic F alt) level k sim obs = true) /\ (alt = LEFT -> level < 1 -> test_rejects meth (ks_statistic F alt) level k sim obs = false).
Proof.
  intros Hm Ne Ha Hl. assert (F1 : ecdf_evaluate sim obs = 1).
  { rewrite ecdf_is_fraction. unfold fraction. rewrite count_all by (intros y Hy; apply Rleb_true; specialize (Ha y Hy); lra). field.
    assert (0 < INR (length sim)) by (apply INR_pos; destruct sim; [contradiction|simpl; lia]). lra. }
  assert (C : forall q, 0 <= q <= 1 -> cvh sim q < obs).
  { intros q Hq. destruct (cvh_range sim q Ne Hq) as (lo & hi & _ & Hhi & _ & B). specialize (Ha hi Hhi). lra. }
  destruct Hm as [-> | ->].
  - rewrite p_test. unfold reject_p. change (st_alternative (ks_statistic F alt)) with alt. split.
    + intros HA. apply Rleb_true. destruct alt; [|contradiction|]; simpl; unfold right_p_value, two_sided_p_value; rewrite F1; [lra|]. rewrite Rmin_right; lra.
    + intros -> Hl1. apply Rleb_false. simpl. unfold left_p_value. rewrite F1. exact Hl1.
  - rewrite cv_test by auto. change (st_alternative (ks_statistic F alt)) with alt. unfold cvl, cvr. split.
    + intros HA. destruct alt; [|contradiction|]; [apply Rltb_true, C; lra|]. apply orb_true_iff. right. apply Rltb_true, C. lra.
    + intros -> _. apply Rltb_false. left. apply C. lra.
Qed.
Lemma separated (Om : Type) (E : (Om -> R) -> R) n m X Y F H0 H alt eta gap eps (A : Om -> bool) :
  is_expectation E -> (0 < n)%nat -> full_cdf F ->
  independent_draws E n X H -> laws_apart gap alt H F -> (forall i, (i < m)%nat -> independent_draws E n (Y i) H0) -> laws_within eta H0 F ->
  0 < eps -> 2 * eps <= gap - eta ->
  (forall w, (forall y, In y (map (fun s => outcome (ks_stat F alt s)) (simulated_samples m n Y w)) -> y < outcome (ks_stat F alt (draws n X w))) -> A w = false) ->
  Pr E A <= 1 / (4 * INR n * eps ^ 2) + INR m * (4 / (INR n * eps ^ 3)).
Proof.
  intros HE Hn HF HX Hap HY Hwi He Hg HA.
  set (B := fun w => Rleb (outcome (ks_stat F alt (draws n X w))) (gap - eps)).
  set (D := fun i w => Rleb (eta + eps) (outcome (ks_stat F alt (draws n (Y i) w)))).
  apply Rle_trans with (Pr E (fun w => B w || existsb (fun i => D i w) (seq 0 m))).
  - apply (Pr_mono E HE). intros w Hw. destruct (B w) eqn:EB; [reflexivity|]. simpl. destruct (existsb (fun i => D i w) (seq 0 m)) eqn:EX; [reflexivity|].
    rewrite HA in Hw; [discriminate|]. intros y Hy. apply in_map_iff in Hy. destruct Hy as (s & <- & Hs). apply in_map_iff in Hs. destruct Hs as (i & <- & Hi).
    apply Rleb_false in EB. assert (ED : D i w = false).
    { destruct (D i w) eqn:ED; [|reflexivity]. assert (X' : existsb (fun i => D i w) (seq 0 m) = true) by (apply existsb_exists; exists i; auto). rewrite X' in EX. discriminate. }
    apply Rleb_false in ED. lra.
  - apply (Rle_trans _ _ _ (Pr_or E HE _ _)). apply Rplus_le_compat.
    + apply (C119_ks_alternative_holds Om E n X F H alt gap eps HE HX Hn (proj1 HF) Hap He).
    + apply (Rle_trans _ _ _ (Pr_union E HE D (seq 0 m))).
      apply Rle_trans with (Rsum (map (fun _ => 4 / (INR n * eps ^ 3)) (seq 0 m))).
      * apply Rsum_map_le. intros i Hi. apply in_seq in Hi. apply (C119_ks_null_holds Om E n (Y i) F H0 alt eta eps HE (HY i ltac:(lia)) Hn HF Hwi He).
      * rewrite Rsum_map_const, seq_length. lra.
Qed.
(** The test accepts a sample of a law at distance gap only with a probability of order m/n, whatever the level: simulated samples of a law
    within eta of the hypothesised one, m simulations, two-sided or right-sided statistic, either decision method. *)
Lemma C119_power_holds : forall (Om : Type) (E : (Om -> R) -> R) n m X Y F H0 H alt eta gap eps level meth,
  is_expectation E -> (0 < n)%nat -> (0 < m)%nat -> full_cdf F -> meth = PValueMethod \/ meth = CriticalValueMethod -> alt <> LEFT -> 0 <= level <= 1 ->
  independent_draws E n X H -> laws_apart gap alt H F -> (forall i, (i < m)%nat -> independent_draws E n (Y i) H0) -> laws_within eta H0 F ->
  0 < eps -> 2 * eps <= gap - eta ->
  Pr E (fun w => negb (ks_test_rejects meth F alt level (simulated_samples m n Y w) (draws n X w))) <= 1 / (4 * INR n * eps ^ 2) + INR m * (4 / (INR n * eps ^ 3)).
Proof.
  intros Om E n m X Y F H0 H alt eta gap eps level meth HE Hn Hm HF Hmeth Halt Hl HX Hap HY Hwi He Hg.
  apply (separated Om E n m X Y F H0 H alt eta gap eps _ HE Hn HF HX Hap HY Hwi He Hg). intros w Hw.
  assert (Ne : forall f : list R -> R, map f (simulated_samples m n Y w) <> []) by (intros f; unfold simulated_samples; destruct m; [lia|discriminate]).
  rewrite gof_is_test by (try apply draws_ne; auto; apply HF). rewrite (proj1 (above_all meth F alt level _ _ _ Hmeth (Ne _) Hw Hl) Halt). reflexivity.
Qed.
(** With the alternative LEFT the statistic is the largest excess of F over the empirical distribution function, but the test rejects small
    values: the more the law departs from F in this direction, the less likely it rejects. *)
Lemma C119_left_alternative_refuted_holds : forall (Om : Type) (E : (Om -> R) -> R) n m X Y F H0 H eta gap eps level meth,
  is_expectation E -> (0 < n)%nat -> (0 < m)%nat -> full_cdf F -> meth = PValueMethod \/ meth = CriticalValueMethod -> 0 <= level < 1 ->
  independent_draws E n X H -> laws_apart gap LEFT H F -> (forall i, (i < m)%nat -> independent_draws E n (Y i) H0) -> laws_within eta H0 F ->
  0 < eps -> 2 * eps <= gap - eta ->
  Pr E (fun w => ks_test_rejects meth F LEFT level (simulated_samples m n Y w) (draws n X w)) <= 1 / (4 * INR n * eps ^ 2) + INR m * (4 / (INR n * eps ^ 3)).
Proof.
  intros Om E n m X Y F H0 H eta gap eps level meth HE Hn Hm HF Hmeth Hl HX Hap HY Hwi He Hg.
  apply (separated Om E n m X Y F H0 H LEFT eta gap eps _ HE Hn HF HX Hap HY Hwi He Hg). intros w Hw.
  assert (Ne : forall f : list R -> R, map f (simulated_samples m n Y w) <> []) by (intros f; unfold simulated_samples; destruct m; [lia|discriminate]).
  rewrite gof_is_test by (try apply draws_ne; auto; apply HF). apply (proj2 (above_all meth F LEFT level _ _ _ Hmeth (Ne _) Hw ltac:(lra))); [reflexivity|lra].
Qed.
(** in terms of the sample size alone *)
Lemma C119_consistent_holds : forall m gap eta delta, (0 < m)%nat -> eta < gap -> 0 < delta -> exists N, forall n, (N <= n)%nat ->
  forall (Om : Type) (E : (Om -> R) -> R) X Y F H0 H alt level meth,
  is_expectation E -> full_cdf F -> meth = PValueMethod \/ meth = CriticalValueMethod -> alt <> LEFT -> 0 <= level <= 1 ->
  independent_draws E n X H -> laws_apart gap alt H F -> (forall i, (i < m)%nat -> independent_draws E n (Y i) H0) -> laws_within eta H0 F ->
  1 - delta <= Pr E (fun w => ks_test_rejects meth F alt level (simulated_samples m n Y w) (draws n X w)).
Proof.
  intros m gap eta delta Hm Hgap Hd. set (eps := (gap - eta) / 2). assert (He : 0 < eps) by (unfold eps; lra).
  set (c := 1 / (4 * eps ^ 2) + INR m * (4 / eps ^ 3)). assert (P2 : 0 < eps ^ 2) by (apply pow_lt; exact He). assert (P3 : 0 < eps ^ 3) by (apply pow_lt; exact He).
  assert (PM : 0 < INR m) by (apply INR_pos; exact Hm).
  assert (Hc : 0 < c). { apply Rplus_lt_0_compat; [apply Rdiv_lt_0_compat; lra|apply Rmult_lt_0_compat; [exact PM|apply Rdiv_lt_0_compat; lra]]. }
  destruct (archimed_cor1 (delta / c)) as (N & HN & HN0); [apply Rdiv_lt_0_compat; assumption|].
  exists N. intros n Hn Om E X Y F H0 H alt level meth HE HF Hmeth Halt Hl HX Hap HY Hwi.
  assert (Hn0 : (0 < n)%nat) by lia. assert (P0 : 0 < INR N) by (apply INR_pos; lia). assert (P : INR N <= INR n) by (apply le_INR; exact Hn).
  pose proof (C119_power_holds Om E n m X Y F H0 H alt eta gap eps level meth HE Hn0 Hm HF Hmeth Halt Hl HX Hap HY Hwi He ltac:(unfold eps; lra)) as B.
  rewrite (Pr_negb E HE) in B.
  replace (1 / (4 * INR n * eps ^ 2) + INR m * (4 / (INR n * eps ^ 3))) with (c * / INR n) in B by (unfold c; field; lra).
  assert (c * / INR n <= delta).
  { apply Rle_trans with (c * (delta / c)); [|right; field; lra]. apply Rmult_le_compat_l; [lra|]. apply Rle_trans with (/ INR N); [apply Rinv_le_contravar; lra|lra]. }
  lra.
Qed.
Definition five (i : nat) (w : bool * bool) : R := 5.
Definition five_law (x : R) : R := ind (Rleb 5 x).
Lemma unit_full : full_cdf (uniform_cdf 0 1).
Proof.
  split; [apply uniform_cdf_continuous_cdf; lra|]. intros p Hp. exists p. unfold uniform_cdf. rewrite (proj2 (Rltb_false p 0)) by lra. rewrite (proj2 (Rltb_false 1 p)) by lra. field.
Qed.
(** the hypotheses can be met: the uniform law on [0,1], simulated samples of two fair coins, an observed sample that is constant *)
Lemma C119_nonvacuous_holds : is_expectation (finite_expectation coins) /\ full_cdf (uniform_cdf 0 1) /\
  independent_draws (finite_expectation coins) 2 five five_law /\ laws_apart 1 TWO_TAILED five_law (uniform_cdf 0 1) /\ laws_apart 1 LEFT five_law (uniform_cdf 0 1) /\
  independent_draws (finite_expectation coins) 2 coin coin_law /\ laws_within (1 / 2) coin_law (uniform_cdf 0 1).
Proof.
  destruct C118_nonvacuous_coins_holds as (HE & HC & _). split; [exact HE|]. split; [exact unit_full|]. split; [|split; [|split; [|split; [exact HC|]]]].
  - constructor.
    + intros i x _. unfold Pr, five, five_law. apply (E_const _ HE).
    + intros i j x y _ _ _. unfold Pr, five, five_law. rewrite (E_const _ HE (ind (Rleb 5 x && Rleb 5 y))). destruct (Rleb 5 x), (Rleb 5 y); simpl; ring.
  - exists 4. unfold five_law, uniform_cdf. rewrite (proj2 (Rleb_false 5 4)), (proj2 (Rltb_false 4 0)), (proj2 (Rltb_true 1 4)) by lra. simpl. rewrite Rabs_left; lra.
  - exists 4. unfold five_law, uniform_cdf. rewrite (proj2 (Rleb_false 5 4)), (proj2 (Rltb_false 4 0)), (proj2 (Rltb_true 1 4)) by lra. simpl. lra.
  - intros x. unfold coin_law, uniform_cdf. destruct (Rltb x 0) eqn:E0; [replace (0 - 0) with 0 by ring; rewrite Rabs_R0; lra|]. apply Rltb_false in E0.
    destruct (Rltb x 1) eqn:E1; [apply Rltb_true in E1|apply Rltb_false in E1]; destruct (Rltb 1 x) eqn:E2; [apply Rltb_true in E2; lra|apply Rltb_false in E2|apply Rltb_true in E2|apply Rltb_false in E2].
    + replace ((x - 0) / (1 - 0)) with x by field. unfold Rabs. destruct (Rcase_abs _); lra.
    + unfold Rabs. destruct (Rcase_abs _); lra.
    + replace ((x - 0) / (1 - 0)) with x by field. unfold Rabs. destruct (Rcase_abs _); lra.
Qed.
