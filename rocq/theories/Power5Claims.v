(** Property C125, continued: the Watson statistics of the gamma and of the uniform module. *)
From Verif Require Import Base ProbSpec ProbProofs DecModel DecSpec DecProofs DecMoreProofs EdfModel EdfSpec EdfProofs EdfClaims SizeSpec SizeClaims ConvSpec ConvClaims Conv2Spec Conv2Claims PowerSpec PowerClaims Power2Claims Power3Claims Power4Claims.
From Coq Require Import Lra Lia.

Lemma run_rejects_ext meth st st' level sims obs : meth = PValueMethod \/ meth = CriticalValueMethod -> st_alternative st = st_alternative st' ->
  (forall s, In s sims -> st_execute st s = st_execute st' s) -> st_execute st obs = st_execute st' obs -> run_rejects meth st level sims obs = run_rejects meth st' level sims obs.
Proof.
  intros Hm Ha Hs Ho. unfold run_rejects, gof_test. rewrite Ho.
  replace (map (fun s => outcome (st_execute st s)) sims) with (map (fun s => outcome (st_execute st' s)) sims) by (apply map_ext_in; intros s I; now rewrite (Hs s I)).
  destruct (st_execute st' obs) as [v|]; [|reflexivity]. cbn [bind].
  destruct Hm as [-> | ->]; unfold decide, p_value_decide, critical_value_decide, limit_is; cbn [bind]; rewrite Ha; reflexivity.
Qed.
Lemma draws_length {Om} n (S : nat -> Om -> R) w : length (draws n S w) = n.
Proof. unfold draws. rewrite map_length. apply seq_length. Qed.
Lemma Pr_same {Om} (E : (Om -> R) -> R) (a b : Om -> bool) : (forall w, a w = b w) -> Pr E a = Pr E b.
Proof. intros H. f_equal. apply FunctionalExtensionality.functional_extensionality. exact H. Qed.
Lemma uniform_full a b : a < b -> full_cdf (uniform_cdf a b).
Proof.
  intros H. split; [now apply uniform_cdf_continuous_cdf|]. intros p Hp. exists (a + p * (b - a)). rewrite uniform_cdf_inside by nra. field. lra.
Qed.
(** the gamma statistic is the same function of non-empty samples, so its test takes the same decisions *)
Lemma C125_gamma_same_decisions_holds : forall F meth alt level simulated observed, continuous_cdf F -> meth = PValueMethod \/ meth = CriticalValueMethod ->
  (forall s, In s simulated -> s <> []) -> observed <> [] ->
  run_rejects meth {| st_alternative := alt; st_execute := watson_gamma_stat F |} level simulated observed =
  run_rejects meth {| st_alternative := alt; st_execute := watson_stat F |} level simulated observed.
Proof.
  intros F meth alt level sims obs (Mo & Ra & _) Hm Hs Ho.
  assert (Q : forall s, s <> [] -> watson_gamma_stat F s = watson_stat F s) by (intros s Ns; apply (C48_ranges_holds F s Mo Ra Ns)).
  apply run_rejects_ext; auto. intros s I. apply Q, Hs, I. exact (Q obs Ho).
Qed.
(** the test with the gamma statistic is consistent *)
Lemma C125_gamma_consistent_holds : forall m gap eta delta, (0 < m)%nat -> 0 < gap <= 1 -> 0 <= eta <= gap ^ 2 / 64 -> 0 < delta -> exists N, forall n, (N <= n)%nat ->
  forall (Om : Type) (E : (Om -> R) -> R) X Y F H0 H alt level meth,
  is_expectation E -> full_cdf F -> meth = PValueMethod \/ meth = CriticalValueMethod -> alt <> LEFT -> 0 <= level <= 1 ->
  independent_draws E n X H -> laws_apart gap TWO_TAILED H F -> (forall i, (i < m)%nat -> independent_draws E n (Y i) H0) -> laws_within eta H0 F ->
  1 - delta <= Pr E (fun w => run_rejects meth {| st_alternative := alt; st_execute := watson_gamma_stat F |} level (simulated_samples m n Y w) (draws n X w)).
Proof.
  intros m gap eta delta Hm Hg He Hd. destruct (C125_watson_consistent_holds m gap eta delta Hm Hg He Hd) as (N & HN). exists (Datatypes.S N).
  intros n Hn Om E X Y F H0 H alt level meth HE HF Hmeth Halt Hl HX Hap HY Hwi.
  erewrite Pr_same; [apply (HN n ltac:(lia) Om E X Y F H0 H alt level meth); assumption|].
  intros w. cbn beta. assert (D : forall S : nat -> Om -> R, draws n S w <> []).
  { intros S EE. pose proof (draws_length n S w) as L. rewrite EE in L. simpl in L. lia. }
  apply C125_gamma_same_decisions_holds; [exact (proj1 HF)|exact Hmeth| |apply D].
  intros s I. unfold simulated_samples in I. apply in_map_iff in I. destruct I as (i & <- & _). apply D.
Qed.
(** the uniform statistic U^2/n + 1/4 differs from U^2, but the power bound is the same: all samples of a run have the same size *)
Lemma C125_uniform_power_holds : forall (Om : Type) (E : (Om -> R) -> R) n m X Y a b H0 H alt eta gap eps level meth,
  is_expectation E -> (0 < n)%nat -> (0 < m)%nat -> a < b -> meth = PValueMethod \/ meth = CriticalValueMethod -> alt <> LEFT -> 0 <= level <= 1 ->
  (forall i w, a <= X i w <= b) -> (forall i j w, a <= Y i j w <= b) ->
  independent_draws E n X H -> laws_apart gap TWO_TAILED H (uniform_cdf a b) -> (forall i, (i < m)%nat -> independent_draws E n (Y i) H0) -> laws_within eta H0 (uniform_cdf a b) ->
  0 < eps -> / INR n <= gap - eps -> (eta + eps) ^ 2 + / INR n <= (gap - eps - / INR n) ^ 3 / 128 ->
  Pr E (fun w => negb (run_rejects meth {| st_alternative := alt; st_execute := watson_uniform a b |} level (simulated_samples m n Y w) (draws n X w))) <=
  1 / (4 * INR n * eps ^ 2) + INR m * (4 / (INR n * eps ^ 3)).
Proof.
  intros Om E n m X Y a b H0 H alt eta gap eps level meth HE Hn Hm Hab Hmeth Halt Hl RX RY HX Hap HY Hwi He Hg Hs.
  set (F := uniform_cdf a b) in *. assert (HF : full_cdf F) by (now apply uniform_full). assert (P : 0 < INR n) by (apply INR_pos; exact Hn).
  set (g := fun l => let! u := watson_stat F l in Ok (u / INR (length l) + 1 / 4)).
  assert (G : forall (S : nat -> Om -> R) w, (forall i, a <= S i w <= b) -> watson_uniform a b (draws n S w) = g (draws n S w)).
  { intros S w HS. destruct (C52_uniform_watson_value_holds a b (draws n S w) Hab) as (u & E1 & E2).
    - intros EE. pose proof (draws_length n S w) as L. rewrite EE in L. simpl in L. lia.
    - intros x I. unfold draws in I. apply in_map_iff in I. destruct I as (i & <- & _). apply HS.
    - unfold g, F. rewrite E1. exact E2. }
  erewrite Pr_same.
  - apply (power_of Om E n m X Y F H0 H {| st_alternative := alt; st_execute := g |} eta gap eps level meth HE Hn Hm HF Hmeth Halt Hl HX Hap HY Hwi He).
    intros s o Ls Lo Hks Hko. destruct (watson_separates F n eta gap eps s o Hn HF Hg Hs Ls Lo Hks Hko) as (us & uo & Es & Eo & L).
    cbn [st_execute]. unfold g. rewrite Es, Eo. cbn [bind outcome]. eexists. split; [reflexivity|]. rewrite Ls, Lo. apply Rplus_lt_compat_r. apply Rmult_lt_compat_r; [now apply Rinv_0_lt_compat|exact L].
  - intros w. cbn beta. f_equal. apply run_rejects_ext; [exact Hmeth|reflexivity| |cbn [st_execute]; apply G; intros; apply RX].
    intros s I. unfold simulated_samples in I. apply in_map_iff in I. destruct I as (i & <- & _). cbn [st_execute]. apply G. intros; apply RY.
Qed.
(** the test with the uniform statistic is consistent *)
Lemma C125_uniform_consistent_holds : forall m gap eta delta, (0 < m)%nat -> 0 < gap <= 1 -> 0 <= eta <= gap ^ 2 / 64 -> 0 < delta -> exists N, forall n, (N <= n)%nat ->
  forall (Om : Type) (E : (Om -> R) -> R) X Y a b H0 H alt level meth,
  is_expectation E -> a < b -> meth = PValueMethod \/ meth = CriticalValueMethod -> alt <> LEFT -> 0 <= level <= 1 ->
  (forall i w, a <= X i w <= b) -> (forall i j w, a <= Y i j w <= b) ->
  independent_draws E n X H -> laws_apart gap TWO_TAILED H (uniform_cdf a b) -> (forall i, (i < m)%nat -> independent_draws E n (Y i) H0) -> laws_within eta H0 (uniform_cdf a b) ->
  1 - delta <= Pr E (fun w => run_rejects meth {| st_alternative := alt; st_execute := watson_uniform a b |} level (simulated_samples m n Y w) (draws n X w)).
Proof.
  intros m gap eta delta Hm Hg Heta Hd. set (eps := gap ^ 2 / 64). assert (P2 : 0 < gap ^ 2) by (apply pow_lt; lra). assert (P3 : 0 < gap ^ 3) by (apply pow_lt; lra).
  assert (He : 0 < eps) by (unfold eps; lra). assert (G2 : gap ^ 2 <= gap) by nra. assert (G3 : gap ^ 3 <= gap) by (replace (gap ^ 3) with (gap * gap ^ 2) by ring; nra).
  destruct (bound_small m eps delta Hm He Hd) as (N1 & HN1 & B1).
  destruct (archimed_cor1 (gap ^ 3 / 2048)) as (N2 & HN2 & HN20); [lra|].
  exists (N1 + N2)%nat. intros n Hn Om E X Y a b H0 H alt level meth HE Hab Hmeth Halt Hl RX RY HX Hap HY Hwi.
  assert (Hn0 : (0 < n)%nat) by lia. assert (PN : 0 < INR N2) by (apply INR_pos; lia). assert (P : INR N2 <= INR n) by (apply le_INR; lia).
  assert (IN : / INR n <= gap ^ 3 / 2048) by (apply Rle_trans with (/ INR N2); [apply Rinv_le_contravar; lra|lra]).
  assert (S : (eta + eps) ^ 2 + / INR n <= (gap - eps - / INR n) ^ 3 / 128).
  { assert ((eta + eps) ^ 2 <= gap ^ 3 / 1024).
    { apply Rle_trans with ((gap ^ 2 / 32) ^ 2); [apply pow_incr; unfold eps; lra|]. replace ((gap ^ 2 / 32) ^ 2) with (gap ^ 3 * gap / 1024) by field. nra. }
    assert ((15 / 16 * gap) ^ 3 <= (gap - eps - / INR n) ^ 3) by (apply pow_incr; unfold eps; lra).
    replace ((15 / 16 * gap) ^ 3) with (3375 / 4096 * gap ^ 3) in * by field. lra. }
  assert (EG : / INR n <= gap - eps) by (unfold eps; lra).
  pose proof (C125_uniform_power_holds Om E n m X Y a b H0 H alt eta gap eps level meth HE Hn0 Hm Hab Hmeth Halt Hl RX RY HX Hap HY Hwi He EG S) as B.
  rewrite (Pr_negb E HE) in B. specialize (B1 n ltac:(lia)). lra.
Qed.
(** grid points, kept inside [0,1] for every index *)
Definition kept (K k : nat) : R := Rmin 1 (grid_value K k).
Lemma kept_law K x : (0 < K)%nat -> law_cdf (grid K) (kept K) x = law_cdf (grid K) (grid_value K) x.
Proof.
  intros HK. assert (P : 0 < INR K) by (apply INR_pos; exact HK). unfold law_cdf, Pr, finite_expectation, grid. rewrite !map_map. cbn [fst snd]. f_equal. apply map_ext_in. intros k Hk. apply in_seq in Hk.
  replace (kept K k) with (grid_value K k); [reflexivity|]. unfold kept. rewrite Rmin_right; [reflexivity|]. unfold grid_value.
  apply (Rmult_le_reg_r (INR K)); [exact P|]. replace (INR (k + 1) / INR K * INR K) with (INR (k + 1)) by (field; lra). rewrite Rmult_1_l. apply le_INR. lia.
Qed.
Definition zero_law (x : R) : R := ind (Rleb 0 x).
(** the hypotheses can be met for all n, m and K: constant draws at the end of the interval, simulated samples within 1/K of the uniform law *)
Lemma C125_nonvacuous_every_n_holds : forall n m K, (0 < K)%nat -> exists (E : (list nat -> R) -> R) X Y H0 H,
  is_expectation E /\ (forall i w, 0 <= X i w <= 1) /\ (forall i j w, 0 <= Y i j w <= 1) /\ independent_draws E n X H /\ laws_apart 1 TWO_TAILED H (uniform_cdf 0 1) /\
  (forall i, (i < m)%nat -> independent_draws E n (Y i) H0) /\ laws_within (/ INR K) H0 (uniform_cdf 0 1).
Proof.
  intros n m K HK. assert (P : 0 < INR K) by (apply INR_pos; exact HK).
  exists (repeated (grid K) n), (fun _ _ => 0), (fun _ j w => kept K (nth j w 0%nat)), (law_cdf (grid K) (kept K)), zero_law.
  destruct (C118_nonvacuous_repeated_holds nat (grid K) (kept K) 0%nat n (grid_weights K HK)) as [HE HI].
  split; [exact HE|]. split; [intros; lra|]. split.
  { intros _ j w. unfold kept. split; [|apply Rmin_l]. apply Rmin_glb; [lra|]. unfold grid_value. apply Rmult_le_pos; [apply pos_INR|left; now apply Rinv_0_lt_compat]. }
  split; [constructor|].
  - intros i x _. unfold Pr, zero_law. apply (E_const _ HE).
  - intros i j x y _ _ _. unfold Pr, zero_law. rewrite (E_const _ HE (ind (Rleb 0 x && Rleb 0 y))). destruct (Rleb 0 x), (Rleb 0 y); simpl; ring.
  - split; [|split; [intros i _; exact HI|]].
    + exists 0. rewrite uniform_cdf_inside by lra. unfold zero_law. rewrite (proj2 (Rleb_true 0 0)) by lra. simpl. replace (1 - (0 - 0) / (1 - 0)) with 1 by field. rewrite Rabs_R1. lra.
    + intros x. rewrite (kept_law K x HK). now apply grid_near.
Qed.
