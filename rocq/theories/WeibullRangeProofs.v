(** Ranges of the Weibull statistics. *)
From Coq Require Import String.
From Verif Require Import Base DecModel EdfModel EdfSpec GraphModel RegistryModel ExpModel NormModel WeibullModel WeibullSpec Analysis EdfProofs EdfRotProofs EdfPowerProofs NormProofs NormRangeProofs NormFiniteProofs NormAffProofs NormSymProofs NormReflProofs NormBoundProofs ExpProofs EdfClaims GammaProofs WeibullProofs WeibullInvProofs.
From Coq Require Import Lra Lia Psatz.
From Coquelicot Require Import Coquelicot.
Local Open Scope R_scope.

Lemma fin_inj x y : Ok (Some x) = Ok (Some (Fin y)) :> outcome -> x = Fin y. Proof. intros H. congruence. Qed.
(** *** chi-squared: observed and expected totals differ *)
Lemma pearson_total : forall f_obs f_exp s, length f_obs = length f_exp -> (forall e, In e f_exp -> 0 < e) -> pd_sum 1 f_obs f_exp = Some s ->
  (Rsum f_obs - Rsum f_exp) ^ 2 <= s * Rsum f_exp.
Proof.
  induction f_obs as [|o f_obs IH]; intros [|e f_exp] s HL He H; simpl in HL; try discriminate.
  - cbn. cbn in H. injection H as <-. lra.
  - cbn [pd_sum] in H. unfold pd_term in H. rewrite (proj2 (Reqb_true 1 1) eq_refl) in H. assert (Hep : 0 < e) by (apply He; now left).
    rewrite (proj2 (Reqb_false e 0)) in H by lra. destruct (pd_sum 1 f_obs f_exp) as [s'|] eqn:Es; [|discriminate]. injection H as <-.
    specialize (IH f_exp s' ltac:(congruence) ltac:(intros; apply He; now right) Es). cbn [Rsum]. set (O := Rsum f_obs) in *. set (E := Rsum f_exp) in *.
    assert (HE : 0 <= E) by (apply Rsum_nonneg; intros v Hv; apply Rlt_le, He; now right).
    assert (Hs : 0 <= s') by (refine (proj1 (pearson_ge f_obs f_exp s' ltac:(congruence) _ Es)); intros; apply He; now right).
    set (a := o - e) in *. set (b := O - E) in *. replace (o + O - (e + E)) with (a + b) by (unfold a, b; ring).
    assert (P : a ^ 2 / e * e = a ^ 2) by (field; lra). assert (P2 : 0 <= a ^ 2 / e) by (apply Rmult_le_pos; [apply pow2_ge_0|apply Rlt_le, Rinv_0_lt_compat, Hep]).
    set (q := a ^ 2 / e) in *. assert (X : 2 * a * b <= q * E + s' * e).
    { assert (G : (2 * a * b) ^ 2 <= (q * E + s' * e) ^ 2).
      { assert (G1 : (2 * a * b) ^ 2 <= 4 * (q * e) * (s' * E)). { rewrite P. replace ((2 * a * b) ^ 2) with (4 * a ^ 2 * b ^ 2) by ring. apply Rmult_le_compat_l; [|exact IH]. assert (0 <= a ^ 2) by apply pow2_ge_0. lra. }
        assert (G2 : 0 <= (q * E - s' * e) ^ 2) by apply pow2_ge_0. nra. }
      assert (0 <= q * E) by now apply Rmult_le_pos. assert (0 <= s' * e) by (apply Rmult_le_pos; lra). apply abs_le_of_sq in G; lra. }
    replace ((a + b) ^ 2) with (a ^ 2 + b ^ 2 + 2 * a * b) by ring. change (a * (a * 1) / e) with q. replace ((q + s') * (e + E)) with (q * e + s' * E + (q * E + s' * e)) by ring. rewrite P. lra.
Qed.
Lemma chi2_edges_increasing l k i j : l <> [] -> (0 < k)%nat -> (i < j)%nat -> chi2_edge l k i < chi2_edge l k j.
Proof.
  intros Hne Hk Hij. unfold chi2_edge. assert (H : 0 < snd (chi2_range l) - fst (chi2_range l)).
  { unfold chi2_range. pose proof (Rmaxl_ge 0 l _ (Rminl_in 0 l Hne)). destruct (Reqb_spec (Rminl 0 l) (Rmaxl 0 l)); cbn [fst snd]; lra. }
  assert (0 < INR k) by now apply lt_0_INR. assert (INR i < INR j) by now apply lt_INR. assert (0 < / INR k) by now apply Rinv_0_lt_compat.
  unfold Rdiv. rewrite !Rmult_assoc. apply Rplus_lt_compat_l, Rmult_lt_compat_l; trivial. now apply Rmult_lt_compat_r.
Qed.
Lemma chi2_edges_sum (F : R -> R) l k : (0 < k)%nat ->
  Rsum (diff (map (fun i => F (chi2_edge l k i)) (seq 0 (S k)))) = F (snd (chi2_range l)) - F (fst (chi2_range l)).
Proof.
  intros Hk. assert (PK : 0 < INR k) by now apply lt_0_INR. cbn [seq map]. rewrite diff_sum. f_equal; [|unfold chi2_edge; f_equal; cbn [INR]; field; lra].
  rewrite <- (map_map (chi2_edge l k) F). change (F (chi2_edge l k 0) :: map F (map (chi2_edge l k) (seq 1 k))) with (map F (map (chi2_edge l k) (seq 0 (S k)))).
  rewrite seq_S, !map_app. cbn [map]. rewrite last_last. f_equal. unfold chi2_edge. rewrite Nat.add_0_l. field. lra.
Qed.
Lemma sqrt_up_pos n : (0 < n)%nat -> (0 < Nat.sqrt_up n)%nat.
Proof. intros H. now apply Nat.sqrt_up_pos. Qed.
Lemma chi2_value F l v : l <> [] -> (forall x y, fst (chi2_range l) <= x -> x < y -> F x < F y) ->
  let E := F (snd (chi2_range l)) - F (fst (chi2_range l)) in
  (exists v, chi2_weibull F l = Ok (Some (Fin v))) /\ (chi2_weibull F l = Ok (Some (Fin v)) -> (1 - E) ^ 2 <= v * E /\ 0 <= v /\ 0 < E).
Proof.
  intros Hne FS E. set (k := Nat.sqrt_up (length l)). assert (Hk : (0 < k)%nat) by (apply sqrt_up_pos; destruct l; [easy|simpl; lia]).
  set (obs := map (fun c => INR c / len l) (histogram (map (fun i => chi2_edge l k (S i)) (seq 0 (k - 1))) (rsort l))).
  set (ex := diff (map (fun i => F (chi2_edge l k i)) (seq 0 (S k)))).
  assert (V : chi2_weibull F l = Ok (Some (power_divergence 1 obs ex))) by (unfold chi2_weibull; now rewrite match_ne).
  assert (L : length obs = length ex). { unfold obs, ex. rewrite map_length, histogram_length, map_length, seq_length, NormReflProofs.diff_length, map_length, seq_length. lia. }
  assert (W0 : 0 < snd (chi2_range l) - fst (chi2_range l)).
  { unfold chi2_range. pose proof (Rmaxl_ge 0 l _ (Rminl_in 0 l Hne)). destruct (Reqb_spec (Rminl 0 l) (Rmaxl 0 l)); cbn [fst snd]; lra. }
  assert (EP : forall e, In e ex -> 0 < e).
  { apply diff_pos. apply strict_seq. intros i j Hi Hj. apply FS; [|now apply chi2_edges_increasing]. unfold chi2_edge. assert (0 <= INR i) by apply pos_INR.
    assert (0 < / INR k) by now apply Rinv_0_lt_compat, lt_0_INR. assert (0 <= (snd (chi2_range l) - fst (chi2_range l)) * INR i / INR k); [|lra]. repeat apply Rmult_le_pos; lra. }
  assert (SE : Rsum ex = E) by (unfold ex; now apply chi2_edges_sum).
  assert (SO : Rsum obs = 1).
  { unfold obs. pose proof (len_pos l Hne). rewrite (Rsum_map_ext _ (fun c => / len l * INR c)) by (intros; unfold Rdiv; ring). rewrite Rsum_map_scal, histogram_total.
    replace (len (rsort l)) with (len l) by (unfold len; now rewrite rsort_length). field. lra. }
  rewrite V. split.
  - destruct (pd_defined 1 obs ex EP ltac:(left; lra)) as (s & ->). eexists; reflexivity.
  - intros Ev. apply fin_inj in Ev. unfold power_divergence in Ev. destruct (pd_sum 1 obs ex) as [s|] eqn:Es; [|discriminate]. injection Ev as ->.
    pose proof (pearson_total obs ex v L EP Es) as T. rewrite SE, SO in T. split; [exact T|]. split; [exact (proj1 (pearson_ge obs ex v L EP Es))|].
    unfold E. pose proof (FS (fst (chi2_range l)) (snd (chi2_range l)) ltac:(lra) ltac:(lra)). lra.
Qed.
(** *** Mahdi-Doostparast *)
Lemma md_step a u v : 0 < u -> u <= v -> 0 <= a ^ 2 * (ln v - ln u) + 2 * a * (v - u) + (v ^ 2 - u ^ 2) / 2.
Proof.
  intros Hu Huv. pose proof (derive_nonneg_le (fun x => a ^ 2 * ln x + 2 * a * x + x ^ 2 / 2) (fun x => (a + x) ^ 2 / x) u v Huv) as D.
  enough (K : a ^ 2 * ln u + 2 * a * u + u ^ 2 / 2 <= a ^ 2 * ln v + 2 * a * v + v ^ 2 / 2) by lra. apply D.
  - intros c Hc. auto_derive; [lra|]. field. lra.
  - intros c Hc. apply Rmult_le_pos; [apply pow2_ge_0|]. apply Rlt_le, Rinv_0_lt_compat. lra.
Qed.
Lemma telescope (g : nat -> R) k : Rsum (map (fun i => g i - g (i - 1)%nat) (seq 1 k)) = g k - g 0%nat.
Proof.
  induction k as [|k IH]; [cbn; ring|]. rewrite seq_S, map_app, Rsum_app, IH. cbn [map Rsum]. replace (1 + k - 1)%nat with k by lia. replace (1 + k)%nat with (S k) by lia. ring.
Qed.
Lemma md_nonneg F l v : l <> [] -> (forall x y, x <= y -> F x <= F y) -> (forall x, 0 <= F x <= 1) -> (forall x, In x l -> 0 < F x) -> md_weibull F l = Ok (Some (Fin v)) -> 0 <= v.
Proof.
  intros Hne M B P E. unfold md_weibull in E. cbv zeta in E. apply num_inv in E as [_ ->]. set (u := map F (rsort l)). set (n := length l).
  assert (Hn : (0 < n)%nat) by (unfold n; destruct l; [easy|simpl; lia]). assert (PN : 0 < INR n) by now apply lt_0_INR.
  assert (LU : length u = n) by (unfold u; now rewrite map_length, rsort_length).
  assert (SU : sortedR u) by (unfold u; apply sorted_map_mono; trivial; apply rsort_sorted).
  assert (PU : forall i, (i < n)%nat -> 0 < nth i u 0 <= 1).
  { intros i Hi. assert (I : In (nth i u 0) u) by (apply nth_In; now rewrite LU). unfold u in I at 2. apply in_map_iff in I as (x & <- & Hx). rewrite rsort_in in Hx.
    pose proof (P x Hx). pose proof (B x). lra. }
  apply Rmult_le_pos; [lra|]. rewrite <- (Rsum_map_scal 2), <- Rsum_map_plus.
  assert (T : Rsum (map (fun i => - (nth i u 0 ^ 2 / 2 - nth (i - 1) u 0 ^ 2 / 2)) (seq 1 (n - 1))) <=
    Rsum (map (fun i => (INR i / INR n - 1) ^ 2 * (ln (nth i u 0) - ln (nth (i - 1) u 0)) + 2 * ((INR i / INR n - 1) * (nth i u 0 - nth (i - 1) u 0))) (seq 1 (n - 1)))).
  { apply Rsum_map_le. intros i Hi. apply in_seq in Hi. pose proof (md_step (INR i / INR n - 1) (nth (i - 1) u 0) (nth i u 0)) as S.
    assert (0 < nth (i - 1) u 0) by (apply PU; lia). assert (nth (i - 1) u 0 <= nth i u 0) by (apply sorted_nth_le; trivial; lia). specialize (S ltac:(trivial) ltac:(trivial)). lra. }
  rewrite Rsum_map_opp in T. rewrite (telescope (fun i => nth i u 0 ^ 2 / 2)) in T.
  pose proof (PU 0%nat Hn). pose proof (PU (n - 1)%nat ltac:(lia)). set (s := Rsum (map (fun i => (INR i / INR n - 1) ^ 2 * (ln (nth i u 0) - ln (nth (i - 1) u 0)) + 2 * ((INR i / INR n - 1) * (nth i u 0 - nth (i - 1) u 0))) (seq 1 (n - 1)))) in *.
  assert (nth (n - 1) u 0 ^ 2 <= 1) by nra. assert (0 <= nth 0 u 0 ^ 2) by apply pow2_ge_0. lra.
Qed.
(** *** Liao-Shimokawa *)
Lemma ls_pos F l v : l <> [] -> (forall x, In x l -> 0 < F x <= 1) -> ls_weibull F l = Ok (Some (Fin v)) -> 0 < v.
Proof.
  intros Hne P E. unfold ls_weibull in E. cbv zeta in E. apply num_inv in E as [_ ->]. set (u := map F (rsort l)). assert (LU : length u = length l) by (unfold u; now rewrite map_length, rsort_length).
  assert (NU : u <> []) by (destruct u; [destruct l; [easy|discriminate]|discriminate]). pose proof (len_pos u NU) as PU.
  apply Rdiv_lt_0_compat; [|now apply sqrt_lt_R0]. set (z := imap _ u). assert (NZ : z <> []) by (intros Z; apply (f_equal (@length R)) in Z; unfold z in Z; rewrite imap_length in Z; destruct u; [easy|discriminate]).
  assert (Q : forall w, In w z -> 0 < w).
  { intros w Hw. unfold z in Hw. apply imap_in in Hw as (i & x & Hi & ->). assert (Hx : In x u) by (eapply nth_error_In, Hi). unfold u in Hx. apply in_map_iff in Hx as (y & <- & Hy). rewrite rsort_in in Hy. specialize (P y Hy).
    apply Rdiv_lt_0_compat.
    - rewrite S_INR. set (q := INR i / len u). assert (X : (INR i + 1) / len u = q + / len u) by (unfold q; field; lra). rewrite X. assert (0 < / len u) by now apply Rinv_0_lt_compat.
      pose proof (Rmax_l (q + / len u - F y) (F y - q)). pose proof (Rmax_r (q + / len u - F y) (F y - q)). lra.
    - apply sqrt_lt_R0. apply Rmult_lt_0_compat; lra. }
  destruct z as [|a z']; [easy|]. cbn [Rsum]. pose proof (Q a ltac:(now left)). assert (0 <= Rsum z'); [|lra]. apply Rsum_nonneg. intros w Hw. apply Rlt_le, Q. now right.
Qed.
(** *** Cabana-Quiroz and the Laplace transform *)
Lemma cq_range Gam l v : cq_weibull Gam l = Ok (Some (Fin v)) ->
  0 <= v /\ (v = 0 <-> mean (map (fun x => exp (- x * - 0.1)) l) = Gam (1 - - 0.1) /\ mean (map (fun x => exp (- x * 0.02)) l) = Gam (1 - 0.02)).
Proof.
  intros E. unfold cq_weibull in E. cbv zeta in E. apply num_inv in E as [N ->]. apply negb_true_iff, Nat.eqb_neq in N.
  assert (S : 0 < sqrt (len l)) by (apply sqrt_lt_R0; unfold len; apply lt_0_INR; lia).
  set (d1 := mean (map (fun x => exp (- x * - 0.1)) l) - Gam (1 - - 0.1)). set (d2 := mean (map (fun x => exp (- x * 0.02)) l) - Gam (1 - 0.02)).
  set (a := sqrt (len l) * d1). set (b := sqrt (len l) * d2). set (q := 0.53 * a ^ 2 - 2 * a * b * 0.91 + 1.59 * b ^ 2).
  assert (Q : 0 <= q /\ (q = 0 <-> a = 0 /\ b = 0)).
  { assert (K : q = 53 / 100 * (a - 91 / 53 * b) ^ 2 + 146 / 5300 * b ^ 2) by (unfold q; lra). pose proof (pow2_ge_0 (a - 91 / 53 * b)). pose proof (pow2_ge_0 b).
    split; [lra|]. split; [intros Z|intros [Za Zb]; unfold q; rewrite Za, Zb; ring].
    assert (Zb : b ^ 2 = 0) by lra. assert (b = 0) by nra. assert (Za : (a - 91 / 53 * b) ^ 2 = 0) by lra. subst b. split; trivial. rewrite H1 in Za. nra. }
  assert (C : 1 / (1.59 * 0.53 - 0.91 ^ 2) = 1 / 0.0146) by (f_equal; lra). rewrite C. destruct Q as [Q1 Q2]. split; [lra|]. split.
  - intros Z. assert (q = 0) by lra. apply Q2 in H as [A B]. unfold a in A. unfold b in B. apply Rmult_integral in A as [A|A]; [lra|]. apply Rmult_integral in B as [B|B]; [lra|]. unfold d1 in A. unfold d2 in B. lra.
  - intros [A B]. assert (d1 = 0) by (unfold d1; lra). assert (d2 = 0) by (unfold d2; lra). assert (q = 0); [apply Q2; unfold a, b; rewrite H, H0; lra|lra].
Qed.
Lemma lt_nonneg Gam m a type_ l v : lt_execute Gam m a type_ l = Ok (Some (Fin v)) -> 0 <= v.
Proof.
  unfold lt_execute. destruct (String.eqb type_ "LT2_WEIBULL"); [|destruct (String.eqb type_ "LT3_WEIBULL"); [|discriminate]]; cbn [bind]; intros E; apply num_inv in E as [_ ->];
    (apply Rmult_le_pos; [apply pos_INR|]; apply Rsum_nonneg; intros w Hw; apply in_map_iff in Hw as (t & <- & _); apply Rmult_le_pos; [apply Rlt_le, exp_pos|apply pow2_ge_0]).
Qed.
Lemma st1_nonneg l v : st1_weibull l = Ok (Some (Fin v)) -> 0 <= v.
Proof. unfold st1_weibull. destruct l; [discriminate|]. intros E. apply num_inv in E as [_ ->]. apply pow2_ge_0. Qed.
Lemma st2_nonneg l v : st2_weibull l = Ok (Some (Fin v)) -> 0 <= v.
Proof. unfold st2_weibull. destruct l; [discriminate|]. intros E. apply num_inv in E as [_ ->]. apply pow2_ge_0. Qed.
Lemma sb_nonneg l v : sb_weibull l = Ok (Some (Fin v)) -> 0 <= v.
Proof.
  unfold sb_weibull. cbv zeta. intros E. apply num_inv in E as [V ->]. apply andb_true_iff in V as [_ V]. apply varying_true in V. apply Rmult_le_pos.
  - apply Rmult_le_pos; [apply pos_INR|apply pow2_ge_0].
  - apply Rlt_le, Rinv_0_lt_compat, V.
Qed.
Lemma rsb_range l v : rsb_weibull l = Ok (Some (Fin v)) -> 0 <= v <= len l.
Proof.
  unfold rsb_weibull. destruct l as [|x0 l0]; [discriminate|]. set (l := x0 :: l0). cbv zeta. intros E. apply num_inv in E as [V ->]. apply andb_true_iff in V as [V V2]. apply andb_true_iff in V as [_ V1].
  apply varying_true in V1, V2. set (y := map ln l) in *. set (m := rsb_scores (length l)) in *. assert (L : length y = length m) by (unfold y, m, rsb_scores; now rewrite !map_length, seq_length).
  rewrite pearson_dot by trivial. pose proof (dot_cauchy (dev y) (dev m) ltac:(now rewrite !dev_length)) as C. rewrite !dev_sumsqs in C.
  pose proof (ratio_01 (dot (dev y) (dev m) ^ 2) (ssq y * ssq m) ltac:(now apply Rmult_lt_0_compat) ltac:(split; [apply pow2_ge_0|exact C])) as R.
  replace (dot (dev y) (dev m) ^ 2 / (ssq y * ssq m)) with (dot (dev y) (dev m) ^ 2 / ssq y / ssq m) in R by (field; lra).
  set (r := dot (dev y) (dev m) ^ 2 / ssq y / ssq m) in *. pose proof (pos_INR (length l)) as N. fold (len l) in N. nra.
Qed.
(** *** Tiku-Singh, Lockhart-O'Reilly-Stephens, Mann-Scheuer-Fertig *)
Lemma sum_split (z : list R) k : Rsum z = Rsum (firstn k z) + Rsum (skipn k z).
Proof. rewrite <- Rsum_app, firstn_skipn. reflexivity. Qed.
Lemma part_nonneg (z : list R) k : (forall r, In r z -> 0 <= r) -> 0 <= Rsum (firstn k z) /\ 0 <= Rsum (skipn k z).
Proof.
  intros H. rewrite <- (firstn_skipn k z) in H. split; apply Rsum_nonneg; intros r Hr; apply H, in_or_app; [left|right]; exact Hr.
Qed.
Lemma part_pos (z : list R) k : (forall r, In r z -> 0 < r) -> ((0 < k)%nat -> z <> [] -> 0 < Rsum (firstn k z)) /\ ((k < length z)%nat -> 0 < Rsum (skipn k z)).
Proof.
  intros H. assert (K : forall w, w <> [] -> (forall r, In r w -> 0 < r) -> 0 < Rsum w).
  { intros [|a w] N P; [easy|]. cbn [Rsum]. pose proof (P a ltac:(now left)). assert (0 <= Rsum w); [|lra]. apply Rsum_nonneg. intros r Hr. apply Rlt_le, P. now right. }
  rewrite <- (firstn_skipn k z) in H. split.
  - intros Hk Hz. apply K; [destruct z, k; try easy; lia|]. intros r Hr. apply H, in_or_app. now left.
  - intros Hk. apply K; [|intros r Hr; apply H, in_or_app; now right]. intros E. apply (f_equal (@length R)) in E. rewrite skipn_length in E. simpl in E. lia.
Qed.
Lemma ts_range l v : ts_weibull l = Ok (Some (Fin v)) -> 0 <= v <= 2.
Proof.
  unfold ts_weibull. cbv zeta. intros E. apply num_inv in E as [V ->]. apply andb_true_iff in V as [V V3]. apply andb_true_iff in V as [_ V2]. apply Nat.ltb_lt in V2.
  set (z := ns_ratios l) in *. set (m := length l) in *. assert (Z : forall r, In r z -> 0 <= r) by apply ns_ratios_nonneg.
  assert (Hm : 0 < INR m - 2) by (apply lt_INR in V2; cbn [INR] in V2; lra).
  assert (S0 : 0 <= Rsum z) by now apply Rsum_nonneg. apply negb_true_iff, Reqb_false in V3. assert (SP : 0 < Rsum z). { destruct S0 as [S0|S0]; trivial. exfalso. apply V3. rewrite <- S0. ring. }
  assert (LZ : (length (firstn (m - 2) z) <= m - 2)%nat) by apply firstn_le_length.
  assert (B : 0 <= Rsum (imap (fun i g => (INR m - 1 - INR (S i)) * g) (firstn (m - 2) z)) <= (INR m - 2) * Rsum (firstn (m - 2) z)).
  { assert (Zf : forall r, In r (firstn (m - 2) z) -> 0 <= r) by (intros r Hr; apply Z; rewrite <- (firstn_skipn (m - 2) z); apply in_or_app; now left).
    set (w := firstn (m - 2) z) in *. rewrite (imap_seq _ w 0). split.
    - apply Rsum_nonneg. intros r Hr. apply in_map_iff in Hr as (i & <- & Hi). apply in_seq in Hi. apply Rmult_le_pos; [|apply Zf, nth_In; lia].
      assert (INR (S i) <= INR m - 2); [|lra]. replace (INR m - 2) with (INR (m - 2)) by (rewrite minus_INR by lia; reflexivity). apply le_INR. lia.
    - apply Rle_trans with ((INR m - 2) * Rsum (map (fun i => nth i w 0) (seq 0 (length w)))); [|rewrite map_nth_seq; lra]. rewrite <- Rsum_map_scal. apply Rsum_map_le. intros i Hi. apply in_seq in Hi. apply Rmult_le_compat_r; [apply Zf, nth_In; lia|]. rewrite S_INR. pose proof (pos_INR i). lra. }
  pose proof (sum_split z (m - 2)) as SS. pose proof (part_nonneg z (m - 2) Z) as [P1 P2]. set (N := Rsum (imap _ _)) in *. set (D := Rsum z) in *.
  assert (DP : 0 < (INR m - 2) * D) by now apply Rmult_lt_0_compat. split.
  - apply Rmult_le_pos; [lra|]. apply Rlt_le, Rinv_0_lt_compat, DP.
  - apply (Rmult_le_reg_r ((INR m - 2) * D)); trivial. unfold Rdiv. rewrite Rmult_assoc, Rinv_l by lra. assert ((INR m - 2) * Rsum (firstn (m - 2) z) <= (INR m - 2) * D) by (apply Rmult_le_compat_l; lra). lra.
Qed.
Lemma msf_range l v : msf_weibull l = Ok (Some (Fin v)) -> 0 <= v <= 1.
Proof.
  unfold msf_weibull. cbv zeta. intros E. apply num_inv in E as [V ->]. apply andb_true_iff in V as [_ V]. apply negb_true_iff, Reqb_false in V.
  set (z := ns_ratios l) in *. assert (Z : forall r, In r z -> 0 <= r) by apply ns_ratios_nonneg. pose proof (sum_split z (length l / 2)) as SS. pose proof (part_nonneg z (length l / 2) Z) as [P1 P2].
  apply ratio_01; lra.
Qed.
Lemma los_z_inside l z : all_positive l -> NoDup l -> In z (los_z l) -> 0 < z < 1.
Proof.
  intros P D H. unfold los_z in H. cbv zeta in H. apply in_map_iff in H as (i & <- & Hi). apply in_seq in Hi. set (g := ns_ratios l) in *.
  assert (LG : length g = (length l - 1)%nat) by apply ns_ratios_length. assert (G : forall r, In r g -> 0 < r) by (intros r Hr; now apply (ns_ratios_pos l)).
  destruct (part_pos g (S i) G) as [A B]. specialize (A ltac:(lia) ltac:(destruct g; [simpl in LG; lia|discriminate])). specialize (B ltac:(lia)).
  pose proof (sum_split g (S i)) as SS. split; [apply Rdiv_lt_0_compat; lra|]. apply (Rmult_lt_reg_r (Rsum g)); [lra|]. unfold Rdiv. rewrite Rmult_assoc, Rinv_l; lra.
Qed.
Lemma los_value l : (3 <= length l)%nat -> all_positive l -> NoDup l -> exists v, los_weibull l = Ok (Some (Fin v)) /\ 0 <= v.
Proof.
  intros L P D. unfold los_weibull. cbv zeta. rewrite (proj2 (Nat.eqb_neq (length l) 2)), (proj2 (Nat.ltb_ge (length l) 2)) by lia. rewrite (proj2 (ns_ok_iff l) P).
  assert (G : forall r, In r (ns_ratios l) -> 0 < r) by (intros r Hr; now apply (ns_ratios_pos l)). destruct (part_pos (ns_ratios l) 0 G) as [_ B]. specialize (B ltac:(rewrite ns_ratios_length; lia)). cbn [skipn] in B.
  rewrite (proj2 (Reqb_false _ _)) by lra. cbn [andb negb].
  destruct (C50_ad_nonnegative_holds (fun x => x) (los_z l)) as (v & E & V).
  - unfold los_z. cbv zeta. intros Z. apply (f_equal (@length R)) in Z. rewrite map_length, seq_length in Z. simpl in Z. lia.
  - intros x Hx. now apply (los_z_inside l).
  - exists v. split; trivial. do 2 f_equal. unfold ad_stat, cdf_vals in E. now rewrite map_id in E.
Qed.
