(** Lemmas about the Zhang, Stein and Neyman statistics of the uniform distribution. *)
From Coq Require Import String ZArith.
From Coquelicot Require Import Coquelicot.
From Verif Require Import Base DecModel EdfModel EdfSpec GraphModel RegistryModel NormalLaw ExpModel NormModel NormSpec BetaSpec UniformModel UniformSpec
  Analysis EdfProofs EdfRotProofs EdfPowerProofs ExpProofs ExpRangeProofs NormProofs NormAffProofs NormSymProofs NormReflProofs NormRangeProofs NormFiniteProofs EdfClaims StudentProofs BetaProofs LegendreProofs UniformProofs.
From Coq Require Import Lra Lia.
Local Open Scope R_scope.

(** ** number of bins *)
Lemma int_part_unique (x : R) (z : Z) : IZR z <= x < IZR z + 1 -> Int_part x = z.
Proof.
  intros H. pose proof (base_Int_part x) as [A B]. assert (IZR (Int_part x) < IZR (z + 1)) by (rewrite plus_IZR; lra). assert (IZR z < IZR (Int_part x + 1)) by (rewrite plus_IZR; lra).
  apply lt_IZR in H0, H1. lia.
Qed.
Lemma ceil_unique (x : R) (z : Z) : IZR z - 1 < x <= IZR z -> ceil x = z.
Proof. intros H. unfold ceil. rewrite (int_part_unique (- x) (- z)); [lia|]. rewrite opp_IZR. lra. Qed.
Lemma ln2_pos : 0 < ln 2. Proof. rewrite <- ln_1. apply ln_increasing; lra. Qed.
Lemma sturges_value n : (1 <= n)%nat -> ceil (ln (INR n) / ln 2 + 1) = Z.of_nat (Nat.log2_up n + 1).
Proof.
  intros Hn. pose proof ln2_pos as L. assert (P : forall k, ln (INR (2 ^ k)) = INR k * ln 2) by (intros k; rewrite pow_INR, ln_pow by (cbn; lra); reflexivity).
  apply ceil_unique. rewrite <- INR_IZR_INZ, plus_INR. cbn [INR].
  assert (H0 : 0 < INR n) by (apply lt_0_INR; lia).
  assert (U : ln (INR n) <= INR (Nat.log2_up n) * ln 2).
  { rewrite <- P. destruct (Nat.eq_dec n 1) as [->|N]; [cbn; lra|]. pose proof (Nat.log2_up_spec n ltac:(lia)) as [_ S].
    destruct (Nat.eq_dec n (2 ^ Nat.log2_up n)) as [E|E]; [now rewrite <- E; right|]. left. apply ln_increasing; trivial. apply lt_INR. lia. }
  assert (D : INR (Nat.log2_up n) * ln 2 - ln 2 < ln (INR n)).
  { destruct (Nat.eq_dec n 1) as [->|N]; [cbn; rewrite ln_1; lra|]. pose proof (Nat.log2_up_spec n ltac:(lia)) as [S _].
    assert (Hp : (0 < Nat.log2_up n)%nat) by (apply Nat.log2_up_pos; lia).
    replace (INR (Nat.log2_up n) * ln 2 - ln 2) with (INR (Nat.pred (Nat.log2_up n)) * ln 2) by (rewrite <- (Nat.succ_pred (Nat.log2_up n)) at 2 by lia; rewrite S_INR; ring).
    rewrite <- P. apply ln_increasing; [apply lt_0_INR; apply Nat.neq_0_lt_0, Nat.pow_nonzero; lia|]. apply lt_INR. exact S. }
  assert (U' : ln (INR n) / ln 2 <= INR (Nat.log2_up n)) by (apply Rle_div_l; lra).
  assert (D' : INR (Nat.log2_up n) - 1 < ln (INR n) / ln 2) by (apply Rlt_div_r; lra). lra.
Qed.
(** ** Zhang A *)
Lemma ln_le_minus1 x : 0 < x -> ln x <= x - 1.
Proof. intros H. pose proof (exp_ineq1_le (ln x)) as E. rewrite exp_ln in E by trivial. lra. Qed.
Lemma ln_lt_minus1 x : 0 < x -> x <> 1 -> ln x < x - 1.
Proof. intros H N. pose proof (exp_ineq1 (ln x)) as E. rewrite exp_ln in E by trivial. assert (ln x <> 0); [|specialize (E H0); lra]. intros Z. apply N. rewrite <- (exp_ln x H), Z. apply exp_0. Qed.
Lemma gibbs_strict c x : 0 < c < 1 -> 0 < x < 1 -> x <> c -> c * ln x + (1 - c) * ln (1 - x) < c * ln c + (1 - c) * ln (1 - c).
Proof.
  intros Hc Hx N. assert (A : ln x - ln c < x / c - 1).
  { rewrite <- ln_div by lra. apply ln_lt_minus1; [apply Rdiv_lt_0_compat; lra|]. intros E. apply N. apply (Rmult_eq_reg_r (/ c)); [|apply Rinv_neq_0_compat; lra]. change (x / c = c / c). rewrite E. field. lra. }
  assert (B : ln (1 - x) - ln (1 - c) <= (1 - x) / (1 - c) - 1) by (rewrite <- ln_div by lra; apply ln_le_minus1, Rdiv_lt_0_compat; lra).
  assert (C : c * (ln x - ln c) < c * (x / c - 1)) by (apply Rmult_lt_compat_l; lra). replace (c * (x / c - 1)) with (x - c) in C by (field; lra).
  assert (D : (1 - c) * (ln (1 - x) - ln (1 - c)) <= (1 - c) * ((1 - x) / (1 - c) - 1)) by (apply Rmult_le_compat_l; lra). replace ((1 - c) * ((1 - x) / (1 - c) - 1)) with (c - x) in D by (field; lra).
  lra.
Qed.
Definition za_term (n : R) (i : nat) (x : R) : R := ln x / (n - INR (S i) + 0.5) + ln (1 - x) / (INR (S i) - 0.5).
Lemma zhang_a_terms u : zhang_a u = - Rsum (imap (za_term (len u)) u).
Proof. unfold zhang_a, za_term. rewrite Rsum_imap_plus. ring. Qed.
Lemma za_term_gibbs (n : R) i x : let c := midrank n i in 0 < n -> 0 < c < 1 -> za_term n i x = (c * ln x + (1 - c) * ln (1 - x)) / (n * c * (1 - c)).
Proof.
  intros c Hn Hc. assert (E1 : n - INR (S i) + 0.5 = n * (1 - c)) by (unfold c, midrank; field_simplify; lra). assert (E2 : INR (S i) - 0.5 = n * c) by (unfold c, midrank; field_simplify; lra).
  unfold za_term. rewrite E1, E2. field. lra.
Qed.
Lemma za_term_le n i x : let c := midrank n i in 0 < n -> 0 < c < 1 -> 0 < x < 1 -> za_term n i x <= za_term n i c /\ (za_term n i x = za_term n i c -> x = c).
Proof.
  intros c Hn Hc Hx. destruct (Req_dec x c) as [->|N]; [split; [lra|trivial]|].
  assert (L : za_term n i x < za_term n i c); [|split; [lra|intros E; lra]].
  rewrite !za_term_gibbs by trivial. fold c. apply Rmult_lt_compat_r; [apply Rinv_0_lt_compat, Rmult_lt_0_compat; [nra|lra]|]. now apply gibbs_strict.
Qed.
Lemma Rsum_imap_le_eq (f g : nat -> R -> R) (l : list R) : (forall i x, nth_error l i = Some x -> f i x <= g i x) ->
  Rsum (imap f l) <= Rsum (imap g l) /\ (Rsum (imap f l) = Rsum (imap g l) -> forall i x, nth_error l i = Some x -> f i x = g i x).
Proof.
  unfold imap. assert (K : forall k, (forall i x, nth_error l i = Some x -> f (k + i)%nat x <= g (k + i)%nat x) ->
    Rsum (imap_from k f l) <= Rsum (imap_from k g l) /\ (Rsum (imap_from k f l) = Rsum (imap_from k g l) -> forall i x, nth_error l i = Some x -> f (k + i)%nat x = g (k + i)%nat x)).
  { induction l as [|y l IH]; intros k H; [cbn; split; [lra|intros _ [|i] x E; discriminate]|].
    cbn [imap_from Rsum fold_right]. pose proof (H 0%nat y eq_refl) as H0. rewrite Nat.add_0_r in H0.
    destruct (IH (S k)) as [I1 I2]; [intros i x E; specialize (H (S i) x E); now rewrite Nat.add_succ_r in H|]. 
    change (fold_right Rplus 0 (imap_from (S k) f l)) with (Rsum (imap_from (S k) f l)). change (fold_right Rplus 0 (imap_from (S k) g l)) with (Rsum (imap_from (S k) g l)).
    split; [lra|]. intros E [|i] x Hx; [cbn in Hx; injection Hx as <-; rewrite Nat.add_0_r; lra|]. rewrite Nat.add_succ_r. apply I2; [lra|exact Hx]. }
  intros H. destruct (K 0%nat H) as [A B]. now split.
Qed.
Definition ideal_unit (n : nat) : list R := map (midrank (INR n)) (seq 0 n).
Lemma ideal_unit_length n : length (ideal_unit n) = n. Proof. unfold ideal_unit. now rewrite map_length, seq_length. Qed.
Lemma ideal_unit_sorted n : sortedR (ideal_unit n).
Proof.
  apply sorted_seq. intros i j H. unfold midrank. assert (0 < INR n) by (apply lt_0_INR; lia). assert (INR (S i) <= INR (S j)) by (apply le_INR; lia).
  apply Rmult_le_compat_r; [left; apply Rinv_0_lt_compat; lra|lra].
Qed.
Lemma nth_error_ideal n i : (i < n)%nat -> nth_error (ideal_unit n) i = Some (midrank (INR n) i).
Proof. intros H. unfold ideal_unit. rewrite nth_error_map, nth_error_nth' with (d := 0%nat) by now rewrite seq_length. now rewrite seq_nth. Qed.
Lemma list_nth_error_eq (l l' : list R) : length l = length l' -> (forall i x, nth_error l i = Some x -> nth_error l' i = Some x) -> l = l'.
Proof.
  revert l'. induction l as [|x l IH]; intros [|y l'] L H; try discriminate; trivial. pose proof (H 0%nat x eq_refl) as E. cbn in E. injection E as ->. f_equal. apply IH; [simpl in L; lia|].
  intros i z Hz. exact (H (S i) z Hz).
Qed.
Lemma zhang_a_ideal_value n : (0 < n)%nat -> zhang_a (ideal_unit n) = - Rsum (map (fun i => za_term (INR n) i (midrank (INR n) i)) (seq 0 n)).
Proof.
  intros Hn. rewrite zhang_a_terms. unfold len. rewrite ideal_unit_length. f_equal.
  pose proof (Rsum_imap_idx (fun i => za_term (INR n) i (midrank (INR n) i)) (ideal_unit n)) as E. rewrite ideal_unit_length in E. rewrite <- E. f_equal.
  unfold ideal_unit. rewrite !imap_map. unfold imap. generalize (midrank (INR n)). intros m. clear E.
  assert (K : forall k s, imap_from k (fun i x => za_term (INR n) i (m x)) (seq k s) = imap_from k (fun i _ => za_term (INR n) i (m i)) (seq k s)); [|apply K].
  intros k s. revert k. induction s as [|s IH]; intros k; trivial. cbn [seq imap_from]. now rewrite IH.
Qed.
Lemma zhang_a_min u : sortedR u -> u <> [] -> (forall x, In x u -> 0 < x < 1) ->
  zhang_a (ideal_unit (length u)) <= zhang_a u /\ (zhang_a u = zhang_a (ideal_unit (length u)) -> u = ideal_unit (length u)).
Proof.
  intros Hs Hn Hx. assert (L : (0 < length u)%nat) by (destruct u; [easy|simpl; lia]). pose proof (len_pos u Hn) as Hl.
  rewrite zhang_a_ideal_value by trivial. rewrite <- (Rsum_imap_idx (fun i => za_term (INR (length u)) i (midrank (INR (length u)) i)) u). fold (len u).
  rewrite zhang_a_terms.
  assert (K : forall i x, nth_error u i = Some x -> za_term (len u) i x <= za_term (len u) i (midrank (len u) i) /\ (za_term (len u) i x = za_term (len u) i (midrank (len u) i) -> x = midrank (len u) i)).
  { intros i x E. apply za_term_le; trivial. apply midrank_range. apply nth_error_Some. congruence. apply Hx, (nth_error_In _ _ E). }
  destruct (Rsum_imap_le_eq (za_term (len u)) (fun i _ => za_term (len u) i (midrank (len u) i)) u) as [A B]; [intros i x E; now apply K|].
  split; [lra|]. intros E. apply list_nth_error_eq; [now rewrite ideal_unit_length|]. intros i x Ei. assert (F : x = midrank (len u) i) by (apply K; trivial; apply B; [lra|trivial]).
  rewrite nth_error_ideal by (apply nth_error_Some; congruence). now rewrite F.
Qed.
Lemma ideal_stretched a b n : ideal_sample a b n = stretched a b (ideal_unit n).
Proof. unfold ideal_sample, stretched, ideal_unit. rewrite map_map. reflexivity. Qed.
Lemma ideal_inside n : forall x, In x (ideal_unit n) -> 0 < x < 1.
Proof.
  intros x Hx. apply in_map_iff in Hx as (i & <- & Hi). apply in_seq in Hi. assert (E : INR n = len (repeat 0 n)) by (unfold len; now rewrite repeat_length). rewrite E.
  apply midrank_range. rewrite repeat_length. lia.
Qed.
(** ** Neyman *)
Lemma neyman_nonneg k z : 0 <= neyman_of k z.
Proof. unfold neyman_of. apply Rsum_nonneg. intros x Hx. apply in_map_iff in Hx as (j & <- & _). apply pow2_ge_0. Qed.
Lemma neyman_zero k z : z <> [] -> (neyman_of k z = 0 <-> forall j, (1 <= j <= k)%nat -> mean (map (neyman_phi j) z) = 0).
Proof.
  intros Hz. pose proof (len_pos z Hz) as L. pose proof (sqrt_lt_R0 _ L) as S0. unfold neyman_of. split.
  - intros E j Hj. assert (I : In ((Rsum (map (neyman_phi j) z) / sqrt (len z)) ^ 2) (map (fun j => (Rsum (map (neyman_phi j) z) / sqrt (len z)) ^ 2) (seq 1 k))) by (apply in_map_iff; exists j; split; trivial; apply in_seq; lia).
    assert (N : forall x, In x (map (fun j => (Rsum (map (neyman_phi j) z) / sqrt (len z)) ^ 2) (seq 1 k)) -> 0 <= x) by (intros x Hx; apply in_map_iff in Hx as (i & <- & _); apply pow2_ge_0).
    assert (Q : (Rsum (map (neyman_phi j) z) / sqrt (len z)) ^ 2 = 0).
    { revert E I N. generalize (map (fun j => (Rsum (map (neyman_phi j) z) / sqrt (len z)) ^ 2) (seq 1 k)). generalize ((Rsum (map (neyman_phi j) z) / sqrt (len z)) ^ 2). clear. intros q l. induction l as [|y l IH]; intros E I N; [easy|].
      cbn [Rsum fold_right] in E. change (fold_right Rplus 0 l) with (Rsum l) in E. pose proof (N y (or_introl eq_refl)). assert (0 <= Rsum l) by (apply Rsum_nonneg; intros x Hx; apply N; now right).
      destruct I as [<-|I]; [lra|]. apply IH; trivial; [lra|]. intros x Hx. apply N. now right. }
    assert (Z : Rsum (map (neyman_phi j) z) / sqrt (len z) = 0) by (apply Rsqr_0_uniq; unfold Rsqr; rewrite <- Q; ring). unfold mean. rewrite len_map.
    assert (Rsum (map (neyman_phi j) z) = 0); [|rewrite H; field; lra]. apply (f_equal (fun t => t * sqrt (len z))) in Z. field_simplify in Z; lra.
  - intros H. rewrite (Rsum_map_ext _ (fun _ => 0)); [rewrite Rsum_map_const; ring|]. intros j Hj. apply in_seq in Hj. specialize (H j ltac:(lia)). unfold mean in H. rewrite len_map in H.
    assert (Z : Rsum (map (neyman_phi j) z) = 0) by (apply (f_equal (fun t => t * len z)) in H; field_simplify in H; lra). rewrite Z. field. lra.
Qed.
(** ** Stein *)
Lemma stein_h_min x y : stein_h x y = (x ^ 2 + y ^ 2) / 2 - Rmin x y.
Proof. unfold stein_h, Rmax, Rmin. repeat destruct (Rle_dec _ _); lra. Qed.
Lemma stein_h_range x y : 0 <= x <= 1 -> 0 <= y <= 1 -> - (1 / 4) <= stein_h x y <= 1 / 2.
Proof. intros Hx Hy. 
  assert (K : forall s t, 0 <= s <= 1 -> 0 <= t <= 1 -> s <= t -> - (1 / 4) <= (s ^ 2 + t ^ 2) / 2 - s <= 1 / 2).
  { intros s t Hs Ht L. pose proof (pow2_ge_0 (s - 1 / 2)). assert (s ^ 2 <= t ^ 2) by (apply pow_incr; lra). assert (t ^ 2 <= 1 ^ 2) by (apply pow_incr; lra).
    assert (s ^ 2 <= s) by nra. split; nra. }
  rewrite stein_h_min. unfold Rmin. destruct (Rle_dec _ _); [now apply K|]. rewrite (Rplus_comm (x ^ 2)). apply K; trivial. lra.
Qed.
Lemma stein_range z : (2 <= length z)%nat -> within 0 1 z -> - (1 / 4) <= stein_of z <= 1 / 2.
Proof.
  intros Hn W. unfold stein_of. rewrite (proj2 (Nat.ltb_lt 1 (length z))) by lia. assert (L : 2 <= len z) by (unfold len; apply (le_INR 2); lia).
  assert (D : 0 < len z * (len z - 1)) by nra.
  assert (A : sum_pairs (fun _ _ => - (1 / 4)) z <= sum_pairs stein_h z) by (apply sum_pairs_le; intros x y Hx Hy; apply stein_h_range; auto).
  assert (B : sum_pairs stein_h z <= sum_pairs (fun _ _ => 1 / 2) z) by (apply sum_pairs_le; intros x y Hx Hy; apply stein_h_range; auto).
  rewrite sum_pairs_const in A, B. set (s := sum_pairs stein_h z) in *. split; [apply Rle_div_r; lra|apply Rle_div_l; lra].
Qed.
Lemma stein_const c n : (2 <= n)%nat -> stein_of (repeat c n) = c ^ 2 - c.
Proof.
  intros Hn. unfold stein_of, len. rewrite repeat_length, (proj2 (Nat.ltb_lt 1 n)) by lia.
  assert (E : sum_pairs stein_h (repeat c n) = INR n * (INR n - 1) / 2 * (c ^ 2 - c)).
  { assert (K : forall l, (forall x, In x l -> x = c) -> sum_pairs stein_h l = sum_pairs (fun _ _ => c ^ 2 - c) l).
    { intros l H. apply Rle_antisym; apply sum_pairs_le; intros x y Hx Hy; rewrite (H x Hx), (H y Hy), stein_h_min, Rmin_left by lra; lra. }
    rewrite K by (intros x Hx; now apply repeat_spec in Hx). rewrite sum_pairs_const. unfold len. now rewrite repeat_length. }
  rewrite E. assert (2 <= INR n) by (apply (le_INR 2); lia). field. nra.
Qed.
(** the mean of the kernel under the uniform distribution *)
Lemma stein_inner x : 0 <= x <= 1 -> is_RInt (stein_h x) 0 1 (x ^ 2 - x + 1 / 6).
Proof.
  intros Hx. replace (x ^ 2 - x + 1 / 6) with (plus ((x ^ 2 / 2 * x + x ^ 3 / 6 - x ^ 2 / 2) - 0) ((x ^ 2 / 2 + 1 / 6 - x) - (x ^ 2 / 2 * x + x ^ 3 / 6 - x * x))) by (unfold plus; simpl; field).
  apply (is_RInt_Chasles (stein_h x) 0 x 1).
  - apply (is_RInt_ext (fun y => (x ^ 2 + y ^ 2) / 2 - y)).
    + rewrite Rmin_left, Rmax_right by lra. intros y Hy. rewrite stein_h_min, Rmin_right by lra. reflexivity.
    + pose (F := fun y => x ^ 2 / 2 * y + y ^ 3 / 6 - y ^ 2 / 2). replace (x ^ 2 / 2 * x + x ^ 3 / 6 - x ^ 2 / 2 - 0) with (minus (F x) (F 0)) by (unfold minus, plus, opp, F; simpl; field).
      apply (is_RInt_derive F); intros y _; [unfold F; auto_derive; trivial; field|]. apply (ex_derive_continuous (fun y => (x ^ 2 + y ^ 2) / 2 - y)). auto_derive. exact I.
  - apply (is_RInt_ext (fun y => (x ^ 2 + y ^ 2) / 2 - x)).
    + rewrite Rmin_left, Rmax_right by lra. intros y Hy. rewrite stein_h_min, Rmin_left by lra. reflexivity.
    + pose (F := fun y => x ^ 2 / 2 * y + y ^ 3 / 6 - x * y). replace (x ^ 2 / 2 + 1 / 6 - x - (x ^ 2 / 2 * x + x ^ 3 / 6 - x * x)) with (minus (F 1) (F x)) by (unfold minus, plus, opp, F; simpl; field).
      apply (is_RInt_derive F); intros y _; [unfold F; auto_derive; trivial; field|]. apply (ex_derive_continuous (fun y => (x ^ 2 + y ^ 2) / 2 - x)). auto_derive. exact I.
Qed.
Lemma stein_outer : is_RInt (fun x => RInt (stein_h x) 0 1) 0 1 0.
Proof.
  apply (is_RInt_ext (fun x => x ^ 2 - x + 1 / 6)).
  - rewrite Rmin_left, Rmax_right by lra. intros x Hx. symmetry. apply is_RInt_unique, stein_inner. lra.
  - pose (F := fun x => x ^ 3 / 3 - x ^ 2 / 2 + x / 6). replace 0 with (minus (F 1) (F 0)) at 2 by (unfold minus, plus, opp, F; simpl; field).
    apply (is_RInt_derive F); intros y _; [unfold F; auto_derive; trivial; field|]. apply (ex_derive_continuous (fun x => x ^ 2 - x + 1 / 6)). auto_derive. exact I.
Qed.
