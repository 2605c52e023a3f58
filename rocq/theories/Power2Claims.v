(** Property C121: consistency of the tests with the Cramer-von Mises and Kuiper statistics. *)
From Verif Require Import Base ProbSpec ProbProofs DecModel DecSpec DecProofs DecMoreProofs EdfModel EdfSpec EdfProofs EdfClaims SizeSpec SizeClaims ConvSpec ConvClaims PowerSpec PowerClaims.
From Coq Require Import Permutation Sorted Lra Lia.

Lemma cvm_sum u : u <> [] -> cvm_do_execute u = Ok (1 / (12 * len u) + Rsum (map (fun i => ((2 * INR (S i) - 1) / (2 * len u) - nth i u 0) ^ 2) (seq 0 (length u)))).
Proof. intros H. destruct u as [|a u]; [contradiction|]. unfold cvm_do_execute. rewrite (imap_seq _ _ 0). reflexivity. Qed.
Lemma len_pos (u : list R) : u <> [] -> 0 < len u.
Proof. intros H. apply INR_pos. destruct u; [contradiction|simpl; lia]. Qed.
Lemma sorted_nth u i j : sortedR u -> (i <= j < length u)%nat -> nth i u 0 <= nth j u 0.
Proof.
  intros Hs. revert i j. induction Hs as [|a u Hs IH Hf]; intros i j Hij; [simpl in Hij; lia|].
  destruct i, j; simpl in *; try lra; [|lia|apply IH; lia].
  rewrite Forall_forall in Hf. apply Hf, nth_In. lia.
Qed.
Lemma half_step n i x : 0 < n -> (2 * INR (S i) - 1) / (2 * n) - x = (INR (S i) / n - x) - / (2 * n).
Proof. intros H. field. lra. Qed.
Lemma half_step' n i x : 0 < n -> (2 * INR (S i) - 1) / (2 * n) - x = - (x - INR i / n) + / (2 * n).
Proof. intros H. rewrite (S_INR i). field. lra. Qed.
(** between the Kolmogorov-Smirnov distance D and the Cramer-von Mises statistic of n values *)
Lemma cvm_above u : u <> [] -> in01 u -> exists w, cvm_do_execute u = Ok w /\ w <= 1 / (12 * len u) + len u * (Rmax (dpv u) (dmv u)) ^ 2.
Proof.
  intros Ne Hu. eexists. split; [apply cvm_sum, Ne|]. pose proof (len_pos u Ne) as P. apply Rplus_le_compat_l.
  set (D := Rmax (dpv u) (dmv u)). pose proof (Rmax_l (dpv u) (dmv u)) as L1. pose proof (Rmax_r (dpv u) (dmv u)) as L2. fold D in L1, L2.
  assert (I : 0 < / (2 * len u)) by (apply Rinv_0_lt_compat; lra).
  apply Rle_trans with (Rsum (map (fun _ => D ^ 2) (seq 0 (length u)))); [|rewrite Rsum_map_const, seq_length; unfold len; lra].
  apply Rsum_map_le. intros i Hi. apply in_seq in Hi. pose proof (dpv_ge u i ltac:(lia)). pose proof (dmv_ge u i ltac:(lia)).
  pose proof (half_step (len u) i (nth i u 0) P) as E1. pose proof (half_step' (len u) i (nth i u 0) P) as E2.
  rewrite <- (pow2_abs (_ - _)). apply pow_incr. split; [apply Rabs_pos|]. apply Rabs_le. lra.
Qed.
Lemma sum_segment (g : nat -> R) n a k c : (forall i, 0 <= g i) -> (a + k <= n)%nat -> (forall i, (a <= i < a + k)%nat -> c <= g i) -> INR k * c <= Rsum (map g (seq 0 n)).
Proof.
  intros Hg Hn Hc. replace n with (a + (k + (n - a - k)))%nat by lia. rewrite seq_app, seq_app, !map_app, !Rsum_app.
  assert (N : forall l, 0 <= Rsum (map g l)) by (intros l; apply Rsum_map_nonneg; auto).
  assert (C : INR k * c <= Rsum (map g (seq (0 + a) k))).
  { apply Rle_trans with (Rsum (map (fun _ => c) (seq (0 + a) k))); [rewrite Rsum_map_const, seq_length; lra|]. apply Rsum_map_le. intros i Hi. apply in_seq in Hi. apply Hc. lia. }
  pose proof (N (seq 0 a)). pose proof (N (seq (0 + a + k) (n - a - k))). lra.
Qed.
Lemma cvm_below u : u <> [] -> in01 u -> sortedR u -> exists w, cvm_do_execute u = Ok w /\ (len u * Rmax (dpv u) (dmv u) - 1) * (Rmax (dpv u) (dmv u)) ^ 2 / 8 <= w.
Proof.
  intros Ne Hu Hs. eexists. split; [apply cvm_sum, Ne|]. pose proof (len_pos u Ne) as P.
  set (D := Rmax (dpv u) (dmv u)). set (g := fun i => ((2 * INR (S i) - 1) / (2 * len u) - nth i u 0) ^ 2).
  assert (Hg : forall i, 0 <= g i) by (intros; apply pow2_ge_0).
  assert (I12 : 0 < 1 / (12 * len u)) by (apply Rdiv_lt_0_compat; lra).
  assert (IL : len u * / len u = 1) by (field; lra). assert (IP : 0 < / len u) by (now apply Rinv_0_lt_compat).
  assert (D2 : 0 <= D ^ 2) by apply pow2_ge_0.
  destruct (Rlt_or_le (len u * D - 1) 0) as [Neg|Pos].
  { assert (0 <= Rsum (map g (seq 0 (length u)))) by (apply Rsum_map_nonneg; auto). fold g. nra. }
  assert (D0 : 0 < D) by nra.
  set (k := floor_nat (len u * D / 2 - 1 / 2)). destruct (floor_nat_spec (len u * D / 2 - 1 / 2) ltac:(lra)) as [K1 K2]. fold k in K1, K2.
  assert (SQ : forall y, D / 2 <= Rabs y -> D ^ 2 / 4 <= y ^ 2).
  { intros y Hy. rewrite <- (pow2_abs y). replace (D ^ 2 / 4) with ((D / 2) ^ 2) by (field). apply pow_incr. lra. }
  assert (SEG : exists a, (a + S k <= length u)%nat /\ forall i, (a <= i < a + S k)%nat -> D ^ 2 / 4 <= g i).
  { unfold D, Rmax in *. destruct (Rle_dec (dpv u) (dmv u)) as [C|C].
    - destruct (dmv_att u Ne) as (i0 & Hi0 & E0). rewrite E0 in *. set (d := nth i0 u 0 - INR i0 / len u) in *.
      assert (U : nth i0 u 0 <= 1) by (apply Hu, nth_In, Hi0).
      assert (B : (i0 + S k <= length u)%nat).
      { apply Nat.lt_succ_r, INR_lt. rewrite plus_INR, (S_INR k), (S_INR (length u)). fold (len u). assert (len u * d = len u * nth i0 u 0 - INR i0) by (unfold d; field; lra).
        assert (0 < len u - INR i0) by (unfold len; rewrite <- minus_INR by lia; apply INR_pos; lia). nra. }
      exists i0. split; [exact B|]. intros i Hi. apply SQ. pose proof (sorted_nth u i0 i Hs ltac:(lia)) as M.
      rewrite half_step' by exact P. rewrite Rabs_left1.
      + assert (IK : INR i <= INR i0 + INR k) by (rewrite <- plus_INR; apply le_INR; lia).
        assert (T : INR i / len u - INR i0 / len u + / (2 * len u) <= d / 2).
        { apply (Rmult_le_reg_l (len u)); [exact P|]. replace (len u * (INR i / len u - INR i0 / len u + / (2 * len u))) with (INR i - INR i0 + / 2) by (field; lra). lra. }
        unfold d in *. lra.
      + assert (IK : INR i <= INR i0 + INR k) by (rewrite <- plus_INR; apply le_INR; lia).
        assert (T : INR i / len u - INR i0 / len u + / (2 * len u) <= d / 2).
        { apply (Rmult_le_reg_l (len u)); [exact P|]. replace (len u * (INR i / len u - INR i0 / len u + / (2 * len u))) with (INR i - INR i0 + / 2) by (field; lra). lra. }
        unfold d in *. lra.
    - destruct (dpv_att u Ne) as (i0 & Hi0 & E0). rewrite E0 in *. set (d := INR (S i0) / len u - nth i0 u 0) in *.
      assert (U : 0 <= nth i0 u 0) by (apply Hu, nth_In, Hi0).
      assert (B : (k <= i0)%nat).
      { apply Nat.lt_succ_r, INR_lt. rewrite (S_INR i0). assert (len u * d = INR i0 + 1 - len u * nth i0 u 0) by (unfold d; rewrite (S_INR i0); field; lra). pose proof (pos_INR i0). nra. }
      exists (i0 - k)%nat. split; [lia|]. intros i Hi. apply SQ. pose proof (sorted_nth u i i0 Hs ltac:(lia)) as M.
      rewrite half_step by exact P.
      assert (IK : INR i0 <= INR i + INR k) by (rewrite <- plus_INR; apply le_INR; lia).
      assert (T : INR (S i0) / len u - INR (S i) / len u + / (2 * len u) <= d / 2).
      { apply (Rmult_le_reg_l (len u)); [exact P|]. replace (len u * (INR (S i0) / len u - INR (S i) / len u + / (2 * len u))) with (INR (S i0) - INR (S i) + / 2) by (field; lra). rewrite !(S_INR _). lra. }
      rewrite Rabs_pos_eq; unfold d in *; lra. }
  destruct SEG as (a & Ha & Hseg). pose proof (sum_segment g (length u) a (S k) (D ^ 2 / 4) Hg Ha Hseg) as S. rewrite (S_INR k) in S. fold g.
  assert ((len u * D / 2 - 1 / 2) * (D ^ 2 / 4) <= (INR k + 1) * (D ^ 2 / 4)) by (apply Rmult_le_compat_r; lra). lra.
Qed.
Lemma cdf_vals_facts F l : continuous_cdf F -> l <> [] -> cdf_vals F l <> [] /\ in01 (cdf_vals F l) /\ sortedR (cdf_vals F l) /\ len (cdf_vals F l) = len l.
Proof.
  intros (HM & HU & _) Ne. unfold cdf_vals. repeat split.
  - intros E0. apply Ne. apply length_zero_iff_nil. rewrite <- rsort_length, <- (map_length F), E0. reflexivity.
  - apply in_map_iff in H. destruct H as (y & <- & _). apply HU.
  - apply in_map_iff in H. destruct H as (y & <- & _). apply HU.
  - apply sorted_map_mono; [exact HM|apply rsort_sorted].
  - unfold len. rewrite map_length, rsort_length. reflexivity.
Qed.
(** n D^2 (D - 1/n) / 8 <= W^2 <= n D^2 + 1/(12 n) for every sample of n values, D the Kolmogorov-Smirnov distance, W^2 the Cramer-von Mises statistic *)
Lemma C121_cvm_and_ks_holds : forall F l, continuous_cdf F -> l <> [] -> exists d w, ks_stat F TWO_TAILED l = Ok d /\ cvm_stat F l = Ok w /\
  (len l * d - 1) * d ^ 2 / 8 <= w <= 1 / (12 * len l) + len l * d ^ 2.
Proof.
  intros F l HF Ne. destruct (cdf_vals_facts F l HF Ne) as (N & U & S & L). unfold ks_stat, cvm_stat. rewrite (ks_eval TWO_TAILED _ N).
  destruct (cvm_above _ N U) as (w & E1 & A). destruct (cvm_below _ N U S) as (w' & E2 & B). rewrite E1 in E2. injection E2 as <-.
  exists (Rmax (dpv (cdf_vals F l)) (dmv (cdf_vals F l))), w. rewrite L in A, B. auto.
Qed.
(** the Kuiper statistic lies between one and two Kolmogorov-Smirnov distances *)
Lemma C121_kuiper_and_ks_holds : forall F l, continuous_cdf F -> l <> [] -> exists d v, ks_stat F TWO_TAILED l = Ok d /\ kuiper_stat F l = Ok v /\ d <= v <= 2 * d.
Proof.
  intros F l HF Ne. destruct (cdf_vals_facts F l HF Ne) as (N & U & S & L). unfold ks_stat, kuiper_stat. rewrite (ks_eval TWO_TAILED _ N), (kuiper_eval _ N).
  eexists _, _. split; [reflexivity|]. split; [reflexivity|]. pose proof (dpv_nonneg _ N U). pose proof (dmv_nonneg _ N U).
  unfold Rmax. destruct (Rle_dec _ _); lra.
Qed.
Lemma above_all_st meth st level k sim obs : meth = PValueMethod \/ meth = CriticalValueMethod -> sim <> [] -> (forall y, In y sim -> y < obs) -> 0 <= level <= 1 ->
  st_alternative st <> LEFT -> test_rejects meth st level k sim obs = true.
Proof.
  intros Hm Ne Ha Hl Halt. pose proof (proj1 (above_all meth (fun _ => 0) (st_alternative st) level k sim obs Hm Ne Ha Hl) Halt) as T.
  destruct Hm as [-> | ->]; [rewrite p_test in *; exact T|]. rewrite cv_test in * by auto. exact T.
Qed.
(** any statistic that is larger for samples at the greater Kolmogorov-Smirnov distance *)
Lemma power_of (Om : Type) (E : (Om -> R) -> R) n m X Y F H0 H st eta gap eps level meth :
  is_expectation E -> (0 < n)%nat -> (0 < m)%nat -> full_cdf F -> meth = PValueMethod \/ meth = CriticalValueMethod -> st_alternative st <> LEFT -> 0 <= level <= 1 ->
  independent_draws E n X H -> laws_apart gap TWO_TAILED H F -> (forall i, (i < m)%nat -> independent_draws E n (Y i) H0) -> laws_within eta H0 F ->
  0 < eps ->
  (forall s o, length s = n -> length o = n -> outcome (ks_stat F TWO_TAILED s) < eta + eps -> gap - eps < outcome (ks_stat F TWO_TAILED o) ->
     exists v, st_execute st o = Ok v /\ outcome (st_execute st s) < v) ->
  Pr E (fun w => negb (run_rejects meth st level (simulated_samples m n Y w) (draws n X w))) <= 1 / (4 * INR n * eps ^ 2) + INR m * (4 / (INR n * eps ^ 3)).
Proof.
  intros HE Hn Hm HF Hmeth Halt Hl HX Hap HY Hwi He Hsep.
  set (B := fun w => Rleb (outcome (ks_stat F TWO_TAILED (draws n X w))) (gap - eps)).
  set (D := fun i w => Rleb (eta + eps) (outcome (ks_stat F TWO_TAILED (draws n (Y i) w)))).
  assert (LD : forall S (w : Om), length (draws n S w) = n) by (intros; unfold draws; rewrite map_length; apply seq_length).
  apply Rle_trans with (Pr E (fun w => B w || existsb (fun i => D i w) (seq 0 m))).
  - apply (Pr_mono E HE). intros w Hw. destruct (B w) eqn:EB; [reflexivity|]. simpl. destruct (existsb (fun i => D i w) (seq 0 m)) eqn:EX; [reflexivity|]. exfalso.
    apply Rleb_false in EB.
    assert (ED : forall i, In i (seq 0 m) -> outcome (ks_stat F TWO_TAILED (draws n (Y i) w)) < eta + eps).
    { intros i Hi. destruct (D i w) eqn:ED; [|apply Rleb_false in ED; exact ED]. assert (X' : existsb (fun i => D i w) (seq 0 m) = true) by (apply existsb_exists; exists i; auto). rewrite X' in EX. discriminate. }
    assert (S1 : forall i, In i (seq 0 m) -> exists v, st_execute st (draws n X w) = Ok v /\ outcome (st_execute st (draws n (Y i) w)) < v) by (intros i Hi; apply Hsep; auto).
    destruct (S1 0%nat ltac:(apply in_seq; lia)) as (v & Ev & _).
    unfold run_rejects, gof_test in Hw. rewrite Ev in Hw. cbn [bind] in Hw.
    change (match decide (meth (limit_is (map (fun s => outcome (st_execute st s)) (simulated_samples m n Y w)))) st v level (length (draws n X w)) with Ok r => tr_rejected r | Raise _ => false end)
      with (test_rejects meth st level (length (draws n X w)) (map (fun s => outcome (st_execute st s)) (simulated_samples m n Y w)) v) in Hw.
    rewrite above_all_st in Hw; [discriminate|exact Hmeth|unfold simulated_samples; destruct m; [lia|discriminate]| |exact Hl|exact Halt].
    intros y Hy. apply in_map_iff in Hy. destruct Hy as (s & <- & Hs). apply in_map_iff in Hs. destruct Hs as (i & <- & Hi).
    destruct (S1 i Hi) as (v' & Ev' & Lv). rewrite Ev in Ev'. injection Ev' as <-. exact Lv.
  - apply (Rle_trans _ _ _ (Pr_or E HE _ _)). apply Rplus_le_compat.
    + apply (C119_ks_alternative_holds Om E n X F H TWO_TAILED gap eps HE HX Hn (proj1 HF) Hap He).
    + apply (Rle_trans _ _ _ (Pr_union E HE D (seq 0 m))).
      apply Rle_trans with (Rsum (map (fun _ => 4 / (INR n * eps ^ 3)) (seq 0 m))).
      * apply Rsum_map_le. intros i Hi. apply in_seq in Hi. apply (C119_ks_null_holds Om E n (Y i) F H0 TWO_TAILED eta eps HE (HY i ltac:(lia)) Hn HF Hwi He).
      * rewrite Rsum_map_const, seq_length. lra.
Qed.
(** the Cramer-von Mises test *)
Lemma C121_cvm_power_holds : forall (Om : Type) (E : (Om -> R) -> R) n m X Y F H0 H alt eta gap eps level meth,
  is_expectation E -> (0 < n)%nat -> (0 < m)%nat -> full_cdf F -> meth = PValueMethod \/ meth = CriticalValueMethod -> alt <> LEFT -> 0 <= level <= 1 ->
  independent_draws E n X H -> laws_apart gap TWO_TAILED H F -> (forall i, (i < m)%nat -> independent_draws E n (Y i) H0) -> laws_within eta H0 F ->
  0 < eps -> eps < gap <= 1 -> (eta + eps) ^ 2 + 1 / INR n <= (gap - eps) ^ 3 / 8 ->
  Pr E (fun w => negb (run_rejects meth {| st_alternative := alt; st_execute := cvm_stat F |} level (simulated_samples m n Y w) (draws n X w))) <=
  1 / (4 * INR n * eps ^ 2) + INR m * (4 / (INR n * eps ^ 3)).
Proof.
  intros Om E n m X Y F H0 H alt eta gap eps level meth HE Hn Hm HF Hmeth Halt Hl HX Hap HY Hwi He Hg Hs.
  apply (power_of Om E n m X Y F H0 H {| st_alternative := alt; st_execute := cvm_stat F |} eta gap eps level meth HE Hn Hm HF Hmeth Halt Hl HX Hap HY Hwi He).
  intros s o Ls Lo Hks Hko. assert (P : 0 < INR n) by (apply INR_pos; exact Hn).
  assert (Ns : s <> []) by (intros ->; simpl in Ls; lia). assert (No : o <> []) by (intros ->; simpl in Lo; lia).
  destruct (C121_cvm_and_ks_holds F s (proj1 HF) Ns) as (ds & ws & Eds & Ews & _ & Us). destruct (C121_cvm_and_ks_holds F o (proj1 HF) No) as (d & w & Ed & Ew & Lw & _).
  rewrite Eds in Hks. rewrite Ed in Hko. simpl in Hks, Hko. exists w. cbn [st_execute]. rewrite Ew, Ews. split; [reflexivity|]. simpl.
  unfold len in Us, Lw. rewrite Ls in Us. rewrite Lo in Lw.
  assert (D0 : 0 <= ds). { destruct (ks_value F TWO_TAILED s (proj1 HF) Ns) as (d' & E' & Hu & _). rewrite Eds in E'. injection E' as <-. apply Rle_trans with (Rabs (edf s 0 - F 0)); [apply Rabs_pos|]. apply Hu. now exists 0. }
  set (b := gap - eps) in *. set (a := eta + eps) in *. set (N := INR n) in *.
  assert (Q : ds ^ 2 <= a ^ 2) by (apply pow_incr; lra).
  assert (I : N * (1 / N) = 1) by (field; lra).
  assert (G : N * a ^ 2 + 1 <= N * b ^ 3 / 8) by (assert (N * (a ^ 2 + 1 / N) <= N * (b ^ 3 / 8)) by (apply Rmult_le_compat_l; lra); lra).
  assert (B1 : b ^ 2 <= 1). { rewrite <- (pow1 2). apply pow_incr. unfold b in *. lra. }
  assert (B2 : 0 < b) by (unfold b; lra).
  assert (NB : 1 < N * b).
  { assert (0 <= a ^ 2) by apply pow2_ge_0. assert (8 <= N * b ^ 3) by nra. replace (N * b ^ 3) with (N * b * b ^ 2) in * by ring. assert (0 < N * b) by nra. nra. }
  assert (U12 : 1 / (12 * N) <= 1 / 12).
  { unfold Rdiv. rewrite Rinv_mult. assert (/ N <= 1); [|lra]. rewrite <- Rinv_1. apply Rinv_le_contravar; [lra|]. unfold N. apply (le_INR 1 n). lia. }
  assert (M1 : (N * b - 1) * b ^ 2 <= (N * d - 1) * d ^ 2).
  { apply Rmult_le_compat; [lra|apply pow2_ge_0|nra|apply pow_incr; lra]. }
  replace ((N * b - 1) * b ^ 2) with (N * b ^ 3 - b ^ 2) in M1 by ring. nra.
Qed.
(** the Kuiper test *)
Lemma C121_kuiper_power_holds : forall (Om : Type) (E : (Om -> R) -> R) n m X Y F H0 H alt eta gap eps level meth,
  is_expectation E -> (0 < n)%nat -> (0 < m)%nat -> full_cdf F -> meth = PValueMethod \/ meth = CriticalValueMethod -> alt <> LEFT -> 0 <= level <= 1 ->
  independent_draws E n X H -> laws_apart gap TWO_TAILED H F -> (forall i, (i < m)%nat -> independent_draws E n (Y i) H0) -> laws_within eta H0 F ->
  0 < eps -> 3 * eps <= gap - 2 * eta ->
  Pr E (fun w => negb (run_rejects meth {| st_alternative := alt; st_execute := kuiper_stat F |} level (simulated_samples m n Y w) (draws n X w))) <=
  1 / (4 * INR n * eps ^ 2) + INR m * (4 / (INR n * eps ^ 3)).
Proof.
  intros Om E n m X Y F H0 H alt eta gap eps level meth HE Hn Hm HF Hmeth Halt Hl HX Hap HY Hwi He Hg.
  apply (power_of Om E n m X Y F H0 H {| st_alternative := alt; st_execute := kuiper_stat F |} eta gap eps level meth HE Hn Hm HF Hmeth Halt Hl HX Hap HY Hwi He).
  intros s o Ls Lo Hks Hko. assert (Ns : s <> []) by (intros ->; simpl in Ls; lia). assert (No : o <> []) by (intros ->; simpl in Lo; lia).
  destruct (C121_kuiper_and_ks_holds F s (proj1 HF) Ns) as (ds & ws & Eds & Ews & _ & Us). destruct (C121_kuiper_and_ks_holds F o (proj1 HF) No) as (d & w & Ed & Ew & Lw & _).
  rewrite Eds in Hks. rewrite Ed in Hko. simpl in Hks, Hko. exists w. cbn [st_execute]. rewrite Ew, Ews. split; [reflexivity|]. simpl. lra.
Qed.
(** the conditions on the distances can be met *)
Lemma C121_nonvacuous_distances_holds : (0 + 1 / 10) ^ 2 + 1 / INR 1000 <= (1 - 1 / 10) ^ 3 / 8 /\ 1 / 10 < 1 <= 1 /\ 3 * (1 / 10) <= 1 - 2 * 0.
Proof. replace (INR 1000) with 1000 by (rewrite INR_IZR_INZ; reflexivity). lra. Qed.
Lemma bound_small m eps delta : (0 < m)%nat -> 0 < eps -> 0 < delta -> exists N, (0 < N)%nat /\ forall n, (N <= n)%nat -> 1 / (4 * INR n * eps ^ 2) + INR m * (4 / (INR n * eps ^ 3)) <= delta.
Proof.
  intros Hm He Hd.
  set (c := 1 / (4 * eps ^ 2) + INR m * (4 / eps ^ 3)). assert (P2 : 0 < eps ^ 2) by (apply pow_lt; exact He). assert (P3 : 0 < eps ^ 3) by (apply pow_lt; exact He).
  assert (PM : 0 < INR m) by (apply INR_pos; exact Hm).
  assert (Hc : 0 < c). { apply Rplus_lt_0_compat; [apply Rdiv_lt_0_compat; lra|apply Rmult_lt_0_compat; [exact PM|apply Rdiv_lt_0_compat; lra]]. }
  destruct (archimed_cor1 (delta / c)) as (N & HN & HN0); [apply Rdiv_lt_0_compat; assumption|].
  exists N. split; [exact HN0|]. intros n Hn. assert (P0 : 0 < INR N) by (apply INR_pos; lia). assert (P : INR N <= INR n) by (apply le_INR; exact Hn).
  replace (1 / (4 * INR n * eps ^ 2) + INR m * (4 / (INR n * eps ^ 3))) with (c * / INR n) by (unfold c; field; lra).
  apply Rle_trans with (c * (delta / c)); [|right; field; lra]. apply Rmult_le_compat_l; [lra|]. apply Rle_trans with (/ INR N); [apply Rinv_le_contravar; lra|lra].
Qed.
(** the probability that the Cramer-von Mises test rejects a law at distance gap tends to 1 *)
Lemma C121_cvm_consistent_holds : forall m gap eta delta, (0 < m)%nat -> 0 < gap <= 1 -> 0 <= eta <= gap ^ 2 / 16 -> 0 < delta -> exists N, forall n, (N <= n)%nat ->
  forall (Om : Type) (E : (Om -> R) -> R) X Y F H0 H alt level meth,
  is_expectation E -> full_cdf F -> meth = PValueMethod \/ meth = CriticalValueMethod -> alt <> LEFT -> 0 <= level <= 1 ->
  independent_draws E n X H -> laws_apart gap TWO_TAILED H F -> (forall i, (i < m)%nat -> independent_draws E n (Y i) H0) -> laws_within eta H0 F ->
  1 - delta <= Pr E (fun w => run_rejects meth {| st_alternative := alt; st_execute := cvm_stat F |} level (simulated_samples m n Y w) (draws n X w)).
Proof.
  intros m gap eta delta Hm Hg Heta Hd. set (eps := gap ^ 2 / 16). assert (P2 : 0 < gap ^ 2) by (apply pow_lt; lra). assert (P3 : 0 < gap ^ 3) by (apply pow_lt; lra).
  assert (He : 0 < eps) by (unfold eps; lra).
  destruct (bound_small m eps delta Hm He Hd) as (N1 & HN1 & B1).
  destruct (archimed_cor1 (gap ^ 3 / 16)) as (N2 & HN2 & HN20); [lra|].
  exists (N1 + N2)%nat. intros n Hn Om E X Y F H0 H alt level meth HE HF Hmeth Halt Hl HX Hap HY Hwi.
  assert (Hn0 : (0 < n)%nat) by lia. assert (PN : 0 < INR N2) by (apply INR_pos; lia). assert (P : INR N2 <= INR n) by (apply le_INR; lia).
  assert (G2 : gap ^ 2 <= gap) by nra.
  assert (S : (eta + eps) ^ 2 + 1 / INR n <= (gap - eps) ^ 3 / 8).
  { assert (1 / INR n <= gap ^ 3 / 16). { unfold Rdiv at 1. rewrite Rmult_1_l. apply Rle_trans with (/ INR N2); [apply Rinv_le_contravar; lra|lra]. }
    assert ((eta + eps) ^ 2 <= gap ^ 3 / 64).
    { apply Rle_trans with ((gap ^ 2 / 8) ^ 2); [apply pow_incr; unfold eps; lra|]. replace ((gap ^ 2 / 8) ^ 2) with (gap ^ 3 * gap / 64) by field. nra. }
    assert ((15 / 16 * gap) ^ 3 <= (gap - eps) ^ 3) by (apply pow_incr; unfold eps; lra).
    replace ((15 / 16 * gap) ^ 3) with (3375 / 4096 * gap ^ 3) in * by field. lra. }
  assert (EG : eps < gap) by (unfold eps; lra).
  pose proof (C121_cvm_power_holds Om E n m X Y F H0 H alt eta gap eps level meth HE Hn0 Hm HF Hmeth Halt Hl HX Hap HY Hwi He (conj EG (proj2 Hg)) S) as B.
  rewrite (Pr_negb E HE) in B. specialize (B1 n ltac:(lia)). lra.
Qed.
(** the same for the Kuiper test *)
Lemma C121_kuiper_consistent_holds : forall m gap eta delta, (0 < m)%nat -> 2 * eta < gap -> 0 < delta -> exists N, forall n, (N <= n)%nat ->
  forall (Om : Type) (E : (Om -> R) -> R) X Y F H0 H alt level meth,
  is_expectation E -> full_cdf F -> meth = PValueMethod \/ meth = CriticalValueMethod -> alt <> LEFT -> 0 <= level <= 1 ->
  independent_draws E n X H -> laws_apart gap TWO_TAILED H F -> (forall i, (i < m)%nat -> independent_draws E n (Y i) H0) -> laws_within eta H0 F ->
  1 - delta <= Pr E (fun w => run_rejects meth {| st_alternative := alt; st_execute := kuiper_stat F |} level (simulated_samples m n Y w) (draws n X w)).
Proof.
  intros m gap eta delta Hm Hg Hd. set (eps := (gap - 2 * eta) / 3). assert (He : 0 < eps) by (unfold eps; lra).
  destruct (bound_small m eps delta Hm He Hd) as (N1 & HN1 & B1).
  exists N1. intros n Hn Om E X Y F H0 H alt level meth HE HF Hmeth Halt Hl HX Hap HY Hwi. assert (Hn0 : (0 < n)%nat) by lia.
  pose proof (C121_kuiper_power_holds Om E n m X Y F H0 H alt eta gap eps level meth HE Hn0 Hm HF Hmeth Halt Hl HX Hap HY Hwi He ltac:(unfold eps; lra)) as B.
  rewrite (Pr_negb E HE) in B. specialize (B1 n ltac:(lia)). lra.
Qed.
