(** Property C125: consistency of the test with the Watson statistic. *)
From Verif Require Import Base ProbSpec ProbProofs DecModel DecSpec DecProofs DecMoreProofs EdfModel EdfSpec EdfProofs EdfClaims SizeSpec SizeClaims ConvSpec ConvClaims PowerSpec PowerClaims Power2Claims.
From Coq Require Import Permutation Sorted Lra Lia.

(** the deviation of the i-th value from the middle of its step *)
Definition dev (u : list R) (i : nat) : R := (2 * INR (S i) - 1) / (2 * len u) - nth i u 0.
Lemma sum_const_shift (f : nat -> R) c l : Rsum (map (fun i => (f i - c) ^ 2) l) = Rsum (map (fun i => f i ^ 2) l) - 2 * c * Rsum (map f l) + INR (length l) * c ^ 2.
Proof. induction l as [|a l IH]; [simpl; ring|]. cbn [map Rsum length]. rewrite IH, S_INR. ring. Qed.
Lemma sum_middles n : (0 < n)%nat -> Rsum (map (fun i => (2 * INR (S i) - 1) / (2 * INR n)) (seq 0 n)) = INR n / 2.
Proof.
  intros Hn. assert (P : 0 < INR n) by (apply INR_pos; exact Hn).
  assert (G : forall k, Rsum (map (fun i => (2 * INR (S i) - 1) / (2 * INR n)) (seq 0 k)) = INR k ^ 2 / (2 * INR n)).
  { induction k as [|k IH]; [simpl; field; lra|]. rewrite seq_S, map_app, Rsum_app, IH. cbn [map Rsum]. rewrite Nat.add_0_l, !(S_INR k). field. lra. }
  rewrite G. field. lra.
Qed.
Lemma sum_dev u : u <> [] -> Rsum (map (dev u) (seq 0 (length u))) = len u * (/ 2 - mean u).
Proof.
  intros Ne. pose proof (len_pos u Ne) as P.
  assert (G : forall l, Rsum (map (dev u) l) = Rsum (map (fun i => (2 * INR (S i) - 1) / (2 * len u)) l) - Rsum (map (fun i => nth i u 0) l)).
  { induction l as [|a l IH]; [simpl; ring|]. cbn [map Rsum]. rewrite IH. unfold dev. ring. }
  rewrite G. unfold len at 1. rewrite sum_middles by (destruct u; [contradiction|simpl; lia]). rewrite map_nth_seq. unfold mean. fold (len u). field. lra.
Qed.
(** the Watson statistic is the sum of the squared deviations from their mean *)
Lemma watson_sum u : u <> [] -> let c := / 2 - mean u in watson_of u = Ok (1 / (12 * len u) + Rsum (map (fun i => (dev u i - c) ^ 2) (seq 0 (length u)))).
Proof.
  intros Ne c. unfold watson_of. rewrite (cvm_sum u Ne). cbn [bind]. f_equal. rewrite sum_const_shift, (sum_dev u Ne), seq_length. fold (len u). fold c.
  replace 0.5 with (/ 2) by lra. change (fun i => ((2 * INR (S i) - 1) / (2 * len u) - nth i u 0) ^ 2) with (fun i => dev u i ^ 2). replace (mean u - / 2) with (- c) by (unfold c; ring). ring.
Qed.
(** going round the circle a deviation grows by at most 1/n at every step *)
Definition round (u : list R) (j : nat) : R := dev u (j mod length u).
Lemma round_step u j : u <> [] -> in01 u -> sortedR u -> round u (S j) <= round u j + / len u.
Proof.
  intros Ne Hu Hs. pose proof (len_pos u Ne) as P. assert (L : (0 < length u)%nat) by (destruct u; [contradiction|simpl; lia]). unfold round.
  pose proof (Nat.mod_upper_bound j (length u) ltac:(lia)) as B. set (i := (j mod length u)%nat) in *.
  assert (E : (S j mod length u = (S i) mod length u)%nat) by (unfold i; rewrite <- (Nat.add_1_r j), <- (Nat.add_1_r (j mod length u)), Nat.add_mod_idemp_l by lia; reflexivity).
  rewrite E. assert (I : / len u = 2 / (2 * len u)) by (field; lra).
  destruct (Nat.eq_dec (S i) (length u)) as [Q|Q].
  - rewrite Q, Nat.mod_same by lia. unfold dev. assert (U0 : 0 <= nth 0 u 0) by (apply Hu, nth_In, L). assert (U1 : nth i u 0 <= 1) by (apply Hu, nth_In; lia).
    rewrite Q. fold (len u). simpl (INR 1). replace ((2 * 1 - 1) / (2 * len u)) with (/ (2 * len u)) by (field; lra). replace ((2 * len u - 1) / (2 * len u)) with (1 - / (2 * len u)) by (field; lra).
    replace (/ len u) with (2 * / (2 * len u)) by (field; lra). lra.
  - rewrite Nat.mod_small by lia. unfold dev. pose proof (sorted_nth u i (S i) Hs ltac:(lia)) as M. rewrite (S_INR (S i)).
    replace ((2 * (INR (S i) + 1) - 1) / (2 * len u)) with ((2 * INR (S i) - 1) / (2 * len u) + / len u) by (field; lra). lra.
Qed.
Lemma round_steps u j k : u <> [] -> in01 u -> sortedR u -> round u (j + k) <= round u j + INR k / len u.
Proof.
  intros Ne Hu Hs. pose proof (len_pos u Ne) as P. induction k as [|k IH]; [rewrite Nat.add_0_r; simpl; unfold Rdiv; lra|].
  rewrite Nat.add_succ_r. pose proof (round_step u (j + k) Ne Hu Hs). rewrite S_INR. unfold Rdiv in *. lra.
Qed.
Lemma map_seq_from {A} (f : nat -> A) s k : map f (seq s k) = map (fun i => f (s + i)%nat) (seq 0 k).
Proof. induction k as [|k IH]; [reflexivity|]. rewrite !seq_S, !map_app, IH. reflexivity. Qed.
Lemma sum_round (g : nat -> R) n : (0 < n)%nat -> Rsum (map (fun j => g (j mod n)%nat) (seq 0 (n + n))) = 2 * Rsum (map g (seq 0 n)).
Proof.
  intros Hn. rewrite seq_app, map_app, Rsum_app. simpl (0 + n)%nat.
  assert (A : map (fun j => g (j mod n)%nat) (seq 0 n) = map g (seq 0 n)) by (apply map_ext_in; intros i Hi; apply in_seq in Hi; now rewrite Nat.mod_small by lia).
  assert (B : map (fun j => g (j mod n)%nat) (seq n n) = map g (seq 0 n)).
  { rewrite map_seq_from. apply map_ext_in. intros i Hi. apply in_seq in Hi. f_equal. replace (n + i)%nat with (i + 1 * n)%nat by lia. rewrite Nat.mod_add by lia. apply Nat.mod_small. lia. }
  rewrite A, B. ring.
Qed.

Lemma watson_below u : u <> [] -> in01 u -> sortedR u -> exists w, watson_of u = Ok w /\ len u * (dpv u + dmv u - / len u) ^ 3 / 128 <= w.
Proof.
  intros Ne Hu Hs. eexists. split; [apply (watson_sum u Ne)|]. set (c := / 2 - mean u). pose proof (len_pos u Ne) as P. assert (L : (0 < length u)%nat) by (destruct u; [contradiction|simpl; lia]).
  assert (IP : 0 < / len u) by (now apply Rinv_0_lt_compat). assert (I12 : 0 < 1 / (12 * len u)) by (apply Rdiv_lt_0_compat; lra).
  set (d := (dpv u + dmv u - / len u) / 2). set (g := fun i => (dev u i - c) ^ 2).
  assert (Hg : forall i, 0 <= g i) by (intros; apply pow2_ge_0). assert (S0 : 0 <= Rsum (map g (seq 0 (length u)))) by (apply Rsum_map_nonneg; auto).
  replace (len u * (dpv u + dmv u - / len u) ^ 3 / 128) with (len u * d ^ 3 / 16) by (unfold d; field; lra). fold g.
  destruct (Rle_lt_dec d 0) as [Neg|Pos].
  { assert (d ^ 3 <= 0) by (simpl; pose proof (pow2_ge_0 d); nra). nra. }
  pose proof (dpv_le1 u Ne Hu) as D1. pose proof (dmv_le1 u Ne Hu) as D2. assert (Hd1 : d <= 1) by (unfold d; lra).
  set (k := floor_nat (len u * d / 2)). destruct (floor_nat_spec (len u * d / 2) ltac:(apply Rlt_le; nra)) as [K1 K2]. fold k in K1, K2.
  assert (Kn : (k <= length u)%nat) by (apply INR_le; fold (len u); nra).
  assert (KL : INR k / len u <= d / 2). { apply (Rmult_le_reg_l (len u)); [exact P|]. replace (len u * (INR k / len u)) with (INR k) by (field; lra). lra. }
  assert (SQ : forall y, d / 2 <= Rabs y -> d ^ 2 / 4 <= y ^ 2).
  { intros y Hy. rewrite <- (pow2_abs y). replace (d ^ 2 / 4) with ((d / 2) ^ 2) by field. apply pow_incr. lra. }
  assert (SEG : exists a, (a + S k <= length u + length u)%nat /\ forall j, (a <= j < a + S k)%nat -> d ^ 2 / 4 <= g (j mod length u)%nat).
  { destruct (dpv_att u Ne) as (i1 & Hi1 & E1). destruct (dmv_att u Ne) as (i2 & Hi2 & E2).
    assert (T : 2 * d = dev u i1 - dev u i2). { unfold d, dev. rewrite E1, E2, !S_INR. field. lra. }
    assert (FR : forall x y, (x <= y)%nat -> INR y <= INR x + INR k -> (INR y - INR x) / len u <= d / 2).
    { intros x y _ Hxy. apply Rle_trans with (INR k / len u); [|exact KL]. apply Rmult_le_compat_r; lra. }
    destruct (Rle_lt_dec d (dev u i1 - c)) as [C|C].
    - exists (i1 + length u - k)%nat. split; [lia|]. intros j Hj. apply SQ.
      pose proof (round_steps u j (i1 + length u - j) Ne Hu Hs) as B. replace (j + (i1 + length u - j))%nat with (i1 + 1 * length u)%nat in B by lia.
      unfold round in B at 1. rewrite Nat.mod_add, Nat.mod_small in B by lia. unfold round in B.
      assert (Q : INR (i1 + length u - j) / len u <= d / 2) by (apply Rle_trans with (INR k / len u); [apply Rmult_le_compat_r; [lra|apply le_INR; lia]|exact KL]).
      rewrite Rabs_pos_eq; lra.
    - exists i2. split; [lia|]. intros j Hj. apply SQ. pose proof (round_steps u i2 (j - i2) Ne Hu Hs) as B. replace (i2 + (j - i2))%nat with j in B by lia.
      unfold round in B at 2. rewrite (Nat.mod_small i2) in B by lia. unfold round in B.
      assert (Q : INR (j - i2) / len u <= d / 2) by (apply Rle_trans with (INR k / len u); [apply Rmult_le_compat_r; [lra|apply le_INR; lia]|exact KL]).
      rewrite Rabs_left1; lra. }
  destruct SEG as (a & Ha & Hseg). pose proof (sum_segment (fun j => g (j mod length u)%nat) (length u + length u) a (S k) (d ^ 2 / 4) (fun j => Hg _) Ha Hseg) as B.
  rewrite (sum_round g _ L), (S_INR k) in B. assert (Q2 : 0 <= d ^ 2 / 4) by (pose proof (pow2_ge_0 d); lra).
  assert ((len u * d / 2) * (d ^ 2 / 4) <= (INR k + 1) * (d ^ 2 / 4)) by (apply Rmult_le_compat_r; lra).
  replace (len u * d ^ 3 / 16) with ((len u * d / 2) * (d ^ 2 / 4) / 2) by field. lra.
Qed.
(** n (V - 1/n)^3 / 128 <= U^2 <= W^2 for every sample of n values: V the Kuiper, U^2 the Watson, W^2 the Cramer-von Mises statistic *)
Lemma C125_watson_and_kuiper_holds : forall F l, continuous_cdf F -> l <> [] -> exists v w u, kuiper_stat F l = Ok v /\ cvm_stat F l = Ok w /\ watson_stat F l = Ok u /\
  len l * (v - / len l) ^ 3 / 128 <= u <= w.
Proof.
  intros F l HF Ne. destruct (cdf_vals_facts F l HF Ne) as (N & U & S & L). unfold kuiper_stat, cvm_stat, watson_stat.
  destruct (cvm_above _ N U) as (w & E1 & _). destruct (watson_below _ N U S) as (x & E2 & B). rewrite (kuiper_eval _ N), E1, E2.
  exists (dpv (cdf_vals F l) + dmv (cdf_vals F l)), w, x. rewrite L in B. repeat split; auto.
  unfold watson_of in E2. rewrite E1 in E2. cbn [bind] in E2. injection E2 as <-. pose proof (len_pos _ N) as P. pose proof (pow2_ge_0 (mean (cdf_vals F l) - 0.5)). nra.
Qed.
(** samples near the hypothesised law have smaller Watson statistics than samples far from it *)
Lemma watson_separates F n eta gap eps s o : (0 < n)%nat -> full_cdf F -> / INR n <= gap - eps -> (eta + eps) ^ 2 + / INR n <= (gap - eps - / INR n) ^ 3 / 128 ->
  length s = n -> length o = n -> outcome (ks_stat F TWO_TAILED s) < eta + eps -> gap - eps < outcome (ks_stat F TWO_TAILED o) ->
  exists us uo, watson_stat F s = Ok us /\ watson_stat F o = Ok uo /\ us < uo.
Proof.
  intros Hn HF Hg Hs Ls Lo Hks Hko. assert (P : 0 < INR n) by (apply INR_pos; exact Hn).
  assert (Ns : s <> []) by (intros ->; simpl in Ls; lia). assert (No : o <> []) by (intros ->; simpl in Lo; lia).
  destruct (C121_cvm_and_ks_holds F s (proj1 HF) Ns) as (ds & ws & Eds & Ews & _ & Us). destruct (C125_watson_and_kuiper_holds F s (proj1 HF) Ns) as (_ & ws' & us & _ & Ews' & Eus & _ & Uu).
  rewrite Ews in Ews'. injection Ews' as <-.
  destruct (C125_watson_and_kuiper_holds F o (proj1 HF) No) as (v & w & u & Ev & _ & Eu & Lu & _). destruct (C121_kuiper_and_ks_holds F o (proj1 HF) No) as (d & v' & Ed & Ev' & Ld & _).
  rewrite Ev in Ev'. injection Ev' as <-.
  rewrite Eds in Hks. rewrite Ed in Hko. simpl in Hks, Hko. exists us, u. split; [exact Eus|]. split; [exact Eu|].
  unfold len in Us, Lu. rewrite Ls in Us. rewrite Lo in Lu.
  assert (D0 : 0 <= ds). { destruct (ks_value F TWO_TAILED s (proj1 HF) Ns) as (d' & E' & Hu & _). rewrite Eds in E'. injection E' as <-. apply Rle_trans with (Rabs (edf s 0 - F 0)); [apply Rabs_pos|]. apply Hu. now exists 0. }
  set (N := INR n) in *. set (b := gap - eps - / N) in *. set (a := eta + eps) in *.
  assert (Q : ds ^ 2 <= a ^ 2) by (apply pow_incr; lra). assert (I : N * / N = 1) by (field; lra).
  assert (B3 : b ^ 3 <= (v - / N) ^ 3) by (apply pow_incr; unfold b in *; lra).
  assert (U12 : 1 / (12 * N) < 1).
  { unfold Rdiv. rewrite Rinv_mult. assert (/ N <= 1); [|lra]. rewrite <- Rinv_1. apply Rinv_le_contravar; [lra|]. unfold N. apply (le_INR 1 n). lia. }
  assert (M1 : N * (a ^ 2 + / N) <= N * (b ^ 3 / 128)) by (apply Rmult_le_compat_l; lra).
  assert (M2 : N * b ^ 3 <= N * (v - / N) ^ 3) by (apply Rmult_le_compat_l; lra).
  assert (M3 : N * ds ^ 2 <= N * a ^ 2) by (apply Rmult_le_compat_l; lra). lra.
Qed.
(** the Watson test *)
Lemma C125_watson_power_holds : forall (Om : Type) (E : (Om -> R) -> R) n m X Y F H0 H alt eta gap eps level meth,
  is_expectation E -> (0 < n)%nat -> (0 < m)%nat -> full_cdf F -> meth = PValueMethod \/ meth = CriticalValueMethod -> alt <> LEFT -> 0 <= level <= 1 ->
  independent_draws E n X H -> laws_apart gap TWO_TAILED H F -> (forall i, (i < m)%nat -> independent_draws E n (Y i) H0) -> laws_within eta H0 F ->
  0 < eps -> / INR n <= gap - eps -> (eta + eps) ^ 2 + / INR n <= (gap - eps - / INR n) ^ 3 / 128 ->
  Pr E (fun w => negb (run_rejects meth {| st_alternative := alt; st_execute := watson_stat F |} level (simulated_samples m n Y w) (draws n X w))) <=
  1 / (4 * INR n * eps ^ 2) + INR m * (4 / (INR n * eps ^ 3)).
Proof.
  intros Om E n m X Y F H0 H alt eta gap eps level meth HE Hn Hm HF Hmeth Halt Hl HX Hap HY Hwi He Hg Hs.
  apply (power_of Om E n m X Y F H0 H {| st_alternative := alt; st_execute := watson_stat F |} eta gap eps level meth HE Hn Hm HF Hmeth Halt Hl HX Hap HY Hwi He).
  intros s o Ls Lo Hks Hko. destruct (watson_separates F n eta gap eps s o Hn HF Hg Hs Ls Lo Hks Hko) as (us & uo & Es & Eo & L).
  exists uo. cbn [st_execute]. rewrite Es, Eo. split; [reflexivity|exact L].
Qed.
(** the probability that it rejects a law at distance gap tends to 1 *)
Lemma C125_watson_consistent_holds : forall m gap eta delta, (0 < m)%nat -> 0 < gap <= 1 -> 0 <= eta <= gap ^ 2 / 64 -> 0 < delta -> exists N, forall n, (N <= n)%nat ->
  forall (Om : Type) (E : (Om -> R) -> R) X Y F H0 H alt level meth,
  is_expectation E -> full_cdf F -> meth = PValueMethod \/ meth = CriticalValueMethod -> alt <> LEFT -> 0 <= level <= 1 ->
  independent_draws E n X H -> laws_apart gap TWO_TAILED H F -> (forall i, (i < m)%nat -> independent_draws E n (Y i) H0) -> laws_within eta H0 F ->
  1 - delta <= Pr E (fun w => run_rejects meth {| st_alternative := alt; st_execute := watson_stat F |} level (simulated_samples m n Y w) (draws n X w)).
Proof.
  intros m gap eta delta Hm Hg Heta Hd. set (eps := gap ^ 2 / 64). assert (P2 : 0 < gap ^ 2) by (apply pow_lt; lra). assert (P3 : 0 < gap ^ 3) by (apply pow_lt; lra).
  assert (He : 0 < eps) by (unfold eps; lra). assert (G2 : gap ^ 2 <= gap) by nra. assert (G3 : gap ^ 3 <= gap) by (replace (gap ^ 3) with (gap * gap ^ 2) by ring; nra).
  destruct (bound_small m eps delta Hm He Hd) as (N1 & HN1 & B1).
  destruct (archimed_cor1 (gap ^ 3 / 2048)) as (N2 & HN2 & HN20); [lra|].
  exists (N1 + N2)%nat. intros n Hn Om E X Y F H0 H alt level meth HE HF Hmeth Halt Hl HX Hap HY Hwi.
  assert (Hn0 : (0 < n)%nat) by lia. assert (PN : 0 < INR N2) by (apply INR_pos; lia). assert (P : INR N2 <= INR n) by (apply le_INR; lia).
  assert (IN : / INR n <= gap ^ 3 / 2048) by (apply Rle_trans with (/ INR N2); [apply Rinv_le_contravar; lra|lra]).
  assert (S : (eta + eps) ^ 2 + / INR n <= (gap - eps - / INR n) ^ 3 / 128).
  { assert ((eta + eps) ^ 2 <= gap ^ 3 / 1024).
    { apply Rle_trans with ((gap ^ 2 / 32) ^ 2); [apply pow_incr; unfold eps; lra|]. replace ((gap ^ 2 / 32) ^ 2) with (gap ^ 3 * gap / 1024) by field. nra. }
    assert ((15 / 16 * gap) ^ 3 <= (gap - eps - / INR n) ^ 3) by (apply pow_incr; unfold eps; lra).
    replace ((15 / 16 * gap) ^ 3) with (3375 / 4096 * gap ^ 3) in * by field. lra. }
  assert (EG : / INR n <= gap - eps) by (unfold eps; lra).
  pose proof (C125_watson_power_holds Om E n m X Y F H0 H alt eta gap eps level meth HE Hn0 Hm HF Hmeth Halt Hl HX Hap HY Hwi He EG S) as B.
  rewrite (Pr_negb E HE) in B. specialize (B1 n ltac:(lia)). lra.
Qed.
(** the conditions on the distances can be met *)
Lemma C125_nonvacuous_distances_holds : / INR 1000 <= 1 - 1 / 100 /\ (0 + 1 / 100) ^ 2 + / INR 1000 <= (1 - 1 / 100 - / INR 1000) ^ 3 / 128.
Proof. replace (INR 1000) with 1000 by (rewrite INR_IZR_INZ; reflexivity). lra. Qed.
