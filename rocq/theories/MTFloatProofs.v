(** Proofs about the corrections in binary64. *)
From Verif Require Import Base MTModel MTSpec MTProofs MTMoreProofs MTFloat MTFloatModel ProbSpec MTErrorSpec MTFloatSpec.
From Flocq Require Import Core Relative.
From Coq Require Import Lra Lia.

Local Existing Instance b64_valid.
Lemma fl_mono x y : x <= y -> fl x <= fl y.
Proof. intros H. unfold fl. apply round_le; auto with typeclass_instances. Qed.
Lemma fl_id x : is_b64 x -> fl x = x.
Proof. intros H. unfold fl. apply round_generic; auto with typeclass_instances. Qed.
Lemma fl_b64 x : is_b64 (fl x).
Proof. apply generic_format_round; auto with typeclass_instances. Qed.
Lemma fl_0 : fl 0 = 0.
Proof. apply fl_id, b64_zero. Qed.
Lemma fl_nonneg x : 0 <= x -> 0 <= fl x.
Proof. intros H. apply fl_ge; [apply b64_zero|exact H]. Qed.
Lemma fl_error x : bpow radix2 (-1022) <= Rabs x -> Rabs (fl x - x) <= ulp_half * Rabs x.
Proof.
  intros H. unfold fl, ulp_half.
  replace (bpow radix2 (-53)) with (/ 2 * bpow radix2 (-53 + 1)) by (simpl; lra).
  apply (relative_error_N_FLT radix2 (-1074) 53 eq_refl). exact H.
Qed.
Lemma fl_within x : bpow radix2 (-1022) <= x -> within ulp_half x (fl x).
Proof.
  intros H. assert (P : 0 < bpow radix2 (-1022)) by apply bpow_gt_0.
  pose proof (fl_error x) as E. rewrite Rabs_pos_eq in E by lra. specialize (E H).
  apply Rabs_le_inv in E. unfold within. lra.
Qed.
Lemma b64_int k : (Z.of_nat k < 2 ^ 53)%Z -> is_b64 (INR k).
Proof.
  intros H. unfold is_b64, b64. apply generic_format_FLT. exists (Float radix2 (Z.of_nat k) 0).
  - unfold F2R. simpl. rewrite INR_IZR_INZ. ring.
  - simpl Fnum. rewrite Z.abs_eq by lia. exact H.
  - simpl. lia.
Qed.
Lemma of_int_exact k : (Z.of_nat k < 2 ^ 53)%Z -> of_int k = INR k.
Proof. intros H. apply fl_id, b64_int, H. Qed.
Lemma of_int_mono i j : (i <= j)%nat -> of_int i <= of_int j.
Proof. intros H. apply fl_mono, le_INR, H. Qed.
Lemma of_int_ge1 k : (1 <= k)%nat -> 1 <= of_int k.
Proof. intros H. apply fl_ge; [apply b64_one|apply INR_ge1, H]. Qed.
(** products with integers do not underflow *)
Lemma b64_small_multiple p k : is_b64 p -> 0 <= p * INR k -> p * INR k < bpow radix2 (-1021) -> is_b64 (p * INR k).
Proof.
  intros Hp H0 H. unfold is_b64, b64. apply generic_format_FLT_FIX; [reflexivity| |].
  - rewrite Rabs_pos_eq by exact H0. simpl. left. exact H.
  - apply generic_format_FIX_FLT in Hp. apply FIX_format_generic in Hp. destruct Hp as [[m e] -> He]. simpl in He. subst e.
    apply generic_format_FIX. exists (Float radix2 (m * Z.of_nat k) (-1074)); auto.
    unfold F2R. simpl Fnum. simpl Fexp. rewrite mult_IZR, INR_IZR_INZ. ring.
Qed.
Lemma ulp_half_pos : 0 < ulp_half.
Proof. apply bpow_gt_0. Qed.
Lemma ulp_half_small : ulp_half < / 1000000.
Proof. unfold ulp_half. simpl. lra. Qed.
Lemma within_refl x d : 0 <= d -> 0 <= x -> within d x x.
Proof. intros H H'. unfold within. nra. Qed.
Lemma fl_multiple p k : is_b64 p -> 0 <= p -> within ulp_half (p * INR k) (fl (p * INR k)).
Proof.
  intros Hp H0. pose proof (pos_INR k) as Hk. assert (H : 0 <= p * INR k) by nra.
  destruct (Rle_or_lt (bpow radix2 (-1022)) (p * INR k)) as [B|B]; [apply fl_within, B|].
  rewrite fl_id.
  - apply within_refl; auto. apply Rlt_le, ulp_half_pos.
  - apply b64_small_multiple; auto. eapply Rlt_trans; [exact B|]. apply bpow_lt. lia.
Qed.

(** *** the loops *)
Definition holm_fterm (p : list R) (i : nat) : R := Rmin 1 (fl (nth i (rsort p) 0 * of_int (length p - i))).
Definition by_fterm (c : R) (p : list R) (i : nat) : R :=
  Rmin 1 (fl (fl (fl (nth i (rsort p) 0 * of_int (length p)) * c) / of_int (i + 1))).
Lemma holm_float_char p :
  exists a, holm_adjust_float p = Ok a /\ length a = length p /\
  forall k, (k < length p)%nat -> get a (nth k (sorted_indices p) 0%nat) = sm (holm_fterm p) k (length p - k).
Proof.
  destruct p as [|x p0] eqn:Ep.
  { exists []. repeat split. simpl; lia. }
  rewrite <- Ep. assert (Hn : (0 < length p)%nat) by (rewrite Ep; simpl; lia).
  set (acc := assign_loop (length p) (sorted_indices p)
        (fun i idx => Rmin 1 (fl (get p idx * of_int (length p - i))))).
  assert (Hacc : forall k, (k < length p)%nat -> get acc (nth k (sorted_indices p) 0%nat) = holm_fterm p k).
  { intros k Hk. unfold acc. rewrite assign_loop_get by exact Hk. rewrite sorted_indices_nth by exact Hk. reflexivity. }
  destruct (holm_loop_get (sorted_indices p) (holm_fterm p) (length p)
            (sorted_indices_NoDup p) (sorted_indices_length p) (sorted_indices_lt p)
            (length p - 1) acc ltac:(lia) (assign_loop_length _ _ _)) as [Hg Hl].
  - intros j Hj. replace j with (length p - 1)%nat by lia.
    rewrite sm_one; [apply Hacc; lia|apply Rmin_l|exact Hn].
  - intros j Hj. apply Hacc; lia.
  - exists (fold_left (holm_step (sorted_indices p)) (downrange (length p)) acc).
    split; [|split; [exact Hl|exact Hg]].
    unfold holm_adjust_float. rewrite Ep. rewrite <- Ep. reflexivity.
Qed.
Lemma by_float_char factor p :
  exists a, by_adjust_float factor p = Ok a /\ length a = length p /\
  forall k, (k < length p)%nat ->
    get a (nth k (sorted_indices p) 0%nat) = sm (by_fterm (factor (length p)) p) k (length p - k).
Proof.
  destruct p as [|x p0] eqn:Ep.
  { exists []. repeat split. simpl; lia. }
  rewrite <- Ep. assert (Hn : (0 < length p)%nat) by (rewrite Ep; simpl; lia).
  set (t := by_fterm (factor (length p)) p).
  set (acc := assign_loop (length p) (sorted_indices p)
        (fun i idx => Rmin 1 (fl (fl (fl (get p idx * of_int (length p)) * factor (length p)) / of_int (i + 1))))).
  assert (Hacc : forall k, (k < length p)%nat -> get acc (nth k (sorted_indices p) 0%nat) = t k).
  { intros k Hk. unfold acc. rewrite assign_loop_get by exact Hk. rewrite sorted_indices_nth by exact Hk. reflexivity. }
  set (cm := get acc (nth (length p - 1) (sorted_indices p) 0%nat)).
  assert (Hcm : cm = sm t (length p - 1) (length p - (length p - 1))).
  { unfold cm. rewrite sm_one; [apply Hacc; lia|apply Rmin_l|exact Hn]. }
  destruct (by_loop_get (sorted_indices p) t (length p)
            (sorted_indices_NoDup p) (sorted_indices_length p) (sorted_indices_lt p)
            (length p - 1) acc cm ltac:(lia) (assign_loop_length _ _ _) Hcm) as [Hg Hl].
  - intros j Hj. replace j with (length p - 1)%nat by lia.
    rewrite sm_one; [apply Hacc; lia|apply Rmin_l|exact Hn].
  - intros j Hj. apply Hacc; lia.
  - exists (fst (fold_left (by_step (sorted_indices p)) (downrange (length p)) (acc, cm))).
    split; [|split; [exact Hl|exact Hg]].
    unfold by_adjust_float. rewrite Ep. rewrite <- Ep. reflexivity.
Qed.

(** suffix minima: bounds, order, errors *)
Lemma sm_ge t k cnt b : b <= 1 -> (forall j, (k <= j < k + cnt)%nat -> b <= t j) -> b <= sm t k cnt.
Proof.
  intros H1 H. destruct (sm_attained t k cnt) as [->|(j & Hj & ->)]; auto.
Qed.
Lemma sm_up t n k l : (k <= l)%nat -> (l < n)%nat -> sm t k (n - k) <= sm t l (n - l).
Proof.
  intros H Hl. apply sm_ge; [apply sm_le1|]. intros j Hj. apply sm_le. lia.
Qed.
Lemma sm_tie t n k l : (k <= l)%nat -> (l < n)%nat -> (forall j, (k <= j < l)%nat -> t l <= t j) ->
  sm t k (n - k) = sm t l (n - l).
Proof.
  intros H Hl Ht. apply Rle_antisym; [apply sm_up; auto|]. apply sm_ge; [apply sm_le1|]. intros j Hj.
  destruct (le_lt_dec l j).
  - apply sm_le. lia.
  - eapply Rle_trans; [apply (sm_le t l (n - l) l); lia|]. apply Ht. lia.
Qed.
Lemma order_of_sm p a t : length a = length p ->
  (forall k, (k < length p)%nat -> get a (nth k (sorted_indices p) 0%nat) = sm t k (length p - k)) ->
  (forall k l, (k <= l)%nat -> (l < length p)%nat -> nth k (rsort p) 0 = nth l (rsort p) 0 -> t l <= t k) ->
  order_kept p a.
Proof.
  intros La Hg Ht i j Hi Hj Hij.
  destruct (sorted_indices_rank p i Hi) as [k [Hk Ek]]. destruct (sorted_indices_rank p j Hj) as [l [Hl El]].
  pose proof (sorted_indices_nth p k Hk) as Pk. pose proof (sorted_indices_nth p l Hl) as Pl.
  pose proof (Hg k Hk) as Gk. pose proof (Hg l Hl) as Gl. unfold get in *. rewrite Ek in Pk, Gk. rewrite El in Pl, Gl.
  rewrite Gk, Gl. destruct (le_lt_dec k l) as [H|H]; [apply sm_up; auto|].
  right. symmetry. apply sm_tie; try lia. intros m Hm. apply Ht; try lia.
  assert (S1 : nth l (rsort p) 0 <= nth m (rsort p) 0) by (apply sorted_nth_le; [apply rsort_sorted|rewrite rsort_length; lia]).
  assert (S2 : nth m (rsort p) 0 <= nth k (rsort p) 0) by (apply sorted_nth_le; [apply rsort_sorted|rewrite rsort_length; lia]).
  rewrite Pk, Pl in Hij. lra.
Qed.
Lemma pointwise_of_sm p a t (Q : R -> R -> Prop) : length a = length p ->
  (forall k, (k < length p)%nat -> get a (nth k (sorted_indices p) 0%nat) = sm t k (length p - k)) ->
  (forall k, (k < length p)%nat -> Q (nth k (rsort p) 0) (sm t k (length p - k))) -> pointwise Q p a.
Proof. apply char_pointwise. Qed.

Section Methods.
Variable p : list R.
Hypothesis Hp : float_pvalues p.
Lemma sorted_float k : (k < length p)%nat -> is_b64 (nth k (rsort p) 0) /\ 0 <= nth k (rsort p) 0 <= 1.
Proof. intros H. apply Hp. apply rsort_in, nth_In. rewrite rsort_length. exact H. Qed.
Lemma sorted_le k l : (k <= l)%nat -> (l < length p)%nat -> nth k (rsort p) 0 <= nth l (rsort p) 0.
Proof. intros H Hl. apply sorted_nth_le; [apply rsort_sorted|rewrite rsort_length; lia]. Qed.

Lemma holm_float_good a : holm_adjust_float p = Ok a -> pointwise (fun x v => x <= v <= 1) p a /\ order_kept p a.
Proof.
  intros E. destruct (holm_float_char p) as (a' & E' & La & Hg). rewrite E in E'. injection E' as <-.
  split.
  - apply (pointwise_of_sm p a (holm_fterm p)); auto. intros k Hk. split; [|apply sm_le1].
    destruct (sorted_float k Hk) as [F B]. apply sm_ge; [lra|]. intros j Hj.
    assert (Hj' : (j < length p)%nat) by lia. destruct (sorted_float j Hj') as [Fj Bj].
    unfold holm_fterm. apply Rmin_glb; [lra|]. apply fl_ge; auto.
    assert (1 <= of_int (length p - j)) by (apply of_int_ge1; lia).
    assert (nth k (rsort p) 0 <= nth j (rsort p) 0) by (apply sorted_le; lia).
    eapply Rle_trans; [eassumption|]. rewrite <- (Rmult_1_r (nth j (rsort p) 0)) at 1. apply Rmult_le_compat_l; lra.
  - apply (order_of_sm p a (holm_fterm p)); auto. intros k l H Hl Ekl. unfold holm_fterm. rewrite Ekl.
    apply Rle_min_compat_l, fl_mono. destruct (sorted_float l Hl) as [_ B].
    apply Rmult_le_compat_l; [lra|]. apply of_int_mono. lia.
Qed.
Lemma by_product n x c : is_b64 x -> 0 <= x -> (Z.of_nat n < 2 ^ 53)%Z -> (n = 1%nat /\ 1 <= c) \/ ((2 <= n)%nat /\ 3 / 2 <= c) ->
  x * INR n <= fl (fl (x * INR n) * c).
Proof.
  intros Hx H0 Hn Hc. pose proof (pos_INR n) as In. assert (Hxn : 0 <= x * INR n) by nra.
  assert (C1 : 1 <= c) by (destruct Hc as [[_ H]|[_ H]]; lra).
  destruct (Rle_or_lt (bpow radix2 (-1022)) (x * INR n)) as [B|B].
  - destruct Hc as [[-> Hc]|[Hn2 Hc]].
    + simpl in *. rewrite Rmult_1_r in *. rewrite (fl_id x Hx). apply fl_ge; auto. nra.
    + pose proof (fl_multiple x n Hx H0) as [W _]. pose proof ulp_half_small. pose proof ulp_half_pos.
      set (y := x * INR n) in *.
      assert (L0 : 999 / 1000 * y <= fl y) by (eapply Rle_trans; [|exact W]; apply Rmult_le_compat_r; lra).
      assert (L : 7 / 5 * y <= fl y * c) by (apply Rle_trans with (fl y * (3 / 2)); [lra|apply Rmult_le_compat_l; lra]).
      assert (P : 0 < bpow radix2 (-1022)) by apply bpow_gt_0.
      pose proof (fl_within (fl y * c)) as [W2 _]; [lra|].
      eapply Rle_trans; [|exact W2]. apply Rle_trans with (999 / 1000 * (fl y * c)); [lra|]. apply Rmult_le_compat_r; lra.
  - rewrite (fl_id (x * INR n)).
    + apply fl_ge; [|nra]. apply b64_small_multiple; auto. eapply Rlt_trans; [exact B|]. apply bpow_lt. lia.
    + apply b64_small_multiple; auto. eapply Rlt_trans; [exact B|]. apply bpow_lt. lia.
Qed.
Lemma by_float_good factor a : factor_ok factor -> (Z.of_nat (length p) < 2 ^ 53)%Z ->
  by_adjust_float factor p = Ok a -> pointwise (fun x v => x <= v <= 1) p a /\ order_kept p a.
Proof.
  intros [F1 F2] Hn E. destruct (by_float_char factor p) as (a' & E' & La & Hg). rewrite E in E'. injection E' as <-.
  set (c := factor (length p)) in *.
  assert (Hc : forall k, (k < length p)%nat -> (length p = 1%nat /\ 1 <= c) \/ ((2 <= length p)%nat /\ 3 / 2 <= c)).
  { intros k Hk. destruct (Nat.eq_dec (length p) 1) as [E1|N1]; [left|right].
    - split; auto. unfold c. rewrite E1. exact F1.
    - split; [lia|]. apply F2. lia. }
  split.
  - apply (pointwise_of_sm p a (by_fterm c p)); auto. intros k Hk. split; [|apply sm_le1].
    destruct (sorted_float k Hk) as [F B]. apply sm_ge; [lra|]. intros j Hj.
    assert (Hj' : (j < length p)%nat) by lia. destruct (sorted_float j Hj') as [Fj Bj].
    unfold by_fterm. apply Rmin_glb; [lra|]. apply fl_ge; auto.
    rewrite (of_int_exact (length p)) by exact Hn. rewrite (of_int_exact (j + 1)) by lia.
    assert (R1 : 1 <= INR (j + 1)) by (apply INR_ge1; lia).
    assert (R2 : INR (j + 1) <= INR (length p)) by (apply le_INR; lia).
    pose proof (by_product (length p) _ c Fj (proj1 Bj) Hn (Hc k Hk)) as L.
    apply Rmult_le_reg_r with (INR (j + 1)); [lra|]. unfold Rdiv. rewrite Rmult_assoc, Rinv_l, Rmult_1_r by lra.
    assert (nth k (rsort p) 0 <= nth j (rsort p) 0) by (apply sorted_le; lia).
    eapply Rle_trans; [|exact L]. apply Rmult_le_compat; lra.
  - apply (order_of_sm p a (by_fterm c p)); auto. intros k l H Hl Ekl. unfold by_fterm. rewrite Ekl.
    apply Rle_min_compat_l, fl_mono. destruct (sorted_float l Hl) as [_ B].
    assert (C1 : 1 <= c) by (destruct (Hc l Hl) as [[_ X]|[_ X]]; lra).
    assert (0 <= of_int (length p)) by (pose proof (of_int_ge1 (length p)); lia || (apply fl_nonneg, pos_INR)).
    assert (N : 0 <= fl (fl (nth l (rsort p) 0 * of_int (length p)) * c)).
    { apply fl_nonneg. apply Rmult_le_pos; [|lra]. apply fl_nonneg. nra. }
    unfold Rdiv. apply Rmult_le_compat_l; [exact N|]. assert (1 <= of_int (k + 1)) by (apply of_int_ge1; lia).
    apply Rinv_le_contravar; [lra|]. apply of_int_mono. lia.
Qed.
End Methods.

(** *** errors *)
Lemma within_min d a b : 0 <= d <= 1 -> 0 <= a -> within d a b -> within d (Rmin 1 a) (Rmin 1 b).
Proof.
  intros Hd Ha [L U]. unfold within. split.
  - apply Rmin_glb.
    + pose proof (Rmin_l 1 a). assert (0 <= Rmin 1 a) by (apply Rmin_glb; lra). nra.
    + eapply Rle_trans; [|exact L]. apply Rmult_le_compat_l; [lra|apply Rmin_r].
  - unfold Rmin at 2. destruct (Rle_dec 1 a).
    + eapply Rle_trans; [apply Rmin_l|]. lra.
    + eapply Rle_trans; [apply Rmin_r|]. exact U.
Qed.
Lemma sm_within d t f k cnt : 0 <= d <= 1 -> (forall j, (k <= j < k + cnt)%nat -> within d (t j) (f j)) ->
  within d (sm t k cnt) (sm f k cnt).
Proof.
  intros Hd H. split.
  - destruct (sm_attained f k cnt) as [->|(j & Hj & ->)].
    + pose proof (sm_le1 t k cnt). nra.
    + destruct (H j Hj) as [L _]. eapply Rle_trans; [|exact L]. apply Rmult_le_compat_l; [lra|]. apply sm_le, Hj.
  - destruct (sm_attained t k cnt) as [->|(j & Hj & ->)].
    + pose proof (sm_le1 f k cnt). lra.
    + destruct (H j Hj) as [_ U]. eapply Rle_trans; [|exact U]. apply sm_le, Hj.
Qed.
Lemma ulp_half_le1 : 0 <= ulp_half <= 1.
Proof. pose proof ulp_half_pos. pose proof ulp_half_small. lra. Qed.
Lemma within_trans d e x y z : 0 <= d <= 1 -> 0 <= e <= 1 -> 0 <= x -> within d x y -> within e y z ->
  (1 - e) * (1 - d) * x <= z <= (1 + e) * (1 + d) * x.
Proof.
  intros Hd He Hx [A B] [C D]. split.
  - eapply Rle_trans; [|exact C]. rewrite Rmult_assoc. apply Rmult_le_compat_l; lra.
  - eapply Rle_trans; [exact D|]. rewrite Rmult_assoc. apply Rmult_le_compat_l; lra.
Qed.
Lemma by_value_within x n r c h d : is_b64 x -> x = 0 \/ bpow radix2 (-1022) <= x -> (1 <= r <= n)%nat ->
  (Z.of_nat n < 2 ^ 53)%Z -> 0 <= d <= 1 / 2 -> 0 <= h -> within d h c -> (n = 1%nat /\ 1 <= c) \/ ((2 <= n)%nat /\ 3 / 2 <= c) ->
  within (d + 7 * ulp_half) (x * INR n * h / INR r) (fl (fl (fl (x * INR n) * c) / INR r)).
Proof.
  intros Fx Hx Hr Hn Hd Hh Hc Hc2. pose proof ulp_half_pos as Up. pose proof ulp_half_small as Us.
  assert (R1 : 1 <= INR r) by (apply INR_ge1; lia). assert (R2 : INR r <= INR n) by (apply le_INR; lia).
  destruct Hx as [->|Hx].
  { rewrite !Rmult_0_l, fl_0, Rmult_0_l, fl_0. unfold Rdiv. rewrite !Rmult_0_l, fl_0. unfold within. lra. }
  assert (P : 0 < bpow radix2 (-1022)) by apply bpow_gt_0.
  assert (Hx0 : 0 <= x) by lra.
  assert (C1 : 1 <= c) by (destruct Hc2 as [[_ H]|[_ H]]; lra).
  set (y := x * INR n) in *. assert (Hy : x <= y) by (unfold y; rewrite <- (Rmult_1_r x) at 1; apply Rmult_le_compat_l; lra).
  pose proof (fl_multiple x n Fx Hx0) as W1. fold y in W1.
  assert (Y1 : x <= fl y) by (apply fl_ge; auto).
  assert (Y2 : x <= fl y * c) by (rewrite <- (Rmult_1_r x); apply Rmult_le_compat; lra).
  pose proof (fl_within (fl y * c) ltac:(lra)) as W2.
  pose proof (by_product n x c Fx Hx0 Hn Hc2) as L. fold y in L.
  assert (Y3 : bpow radix2 (-1022) <= fl (fl y * c) / INR r).
  { apply Rle_trans with x; [exact Hx|]. apply Rmult_le_reg_r with (INR r); [lra|].
    unfold Rdiv. rewrite Rmult_assoc, Rinv_l, Rmult_1_r by lra. eapply Rle_trans; [|exact L].
    unfold y. apply Rmult_le_compat_l; lra. }
  pose proof (fl_within _ Y3) as W3.
  set (u := ulp_half) in *. set (z := fl (fl y * c)) in *. set (w := fl (z / INR r)) in *.
  assert (I : 0 < / INR r) by (apply Rinv_0_lt_compat; lra).
  destruct Hc as [Hc3 Hc4].
  assert (Hy0 : 0 < y) by lra.
  assert (A1 : (1 - u) * y * ((1 - d) * h) <= fl y * c).
  { apply Rmult_le_compat; try apply Rmult_le_pos; try lra. apply W1. }
  assert (A2 : fl y * c <= (1 + u) * y * ((1 + d) * h)).
  { apply Rmult_le_compat; try lra. apply W1. }
  assert (B1 : (1 - u) * ((1 - u) * y * ((1 - d) * h)) <= z).
  { eapply Rle_trans; [|apply W2]. apply Rmult_le_compat_l; lra. }
  assert (B2 : z <= (1 + u) * ((1 + u) * y * ((1 + d) * h))).
  { eapply Rle_trans; [apply W2|]. apply Rmult_le_compat_l; lra. }
  assert (C1' : (1 - u) * (((1 - u) * ((1 - u) * y * ((1 - d) * h))) / INR r) <= w).
  { eapply Rle_trans; [|apply W3]. apply Rmult_le_compat_l; [lra|]. unfold Rdiv. apply Rmult_le_compat_r; lra. }
  assert (C2' : w <= (1 + u) * (((1 + u) * ((1 + u) * y * ((1 + d) * h))) / INR r)).
  { eapply Rle_trans; [apply W3|]. apply Rmult_le_compat_l; [lra|]. unfold Rdiv. apply Rmult_le_compat_r; lra. }
  set (q := y * h / INR r).
  assert (Q : 0 <= q) by (unfold q, Rdiv; repeat apply Rmult_le_pos; lra).
  replace ((1 - u) * (((1 - u) * ((1 - u) * y * ((1 - d) * h))) / INR r)) with ((1 - u) ^ 3 * (1 - d) * q) in C1' by (unfold q; field; lra).
  replace ((1 + u) * (((1 + u) * ((1 + u) * y * ((1 + d) * h))) / INR r)) with ((1 + u) ^ 3 * (1 + d) * q) in C2' by (unfold q; field; lra).
  split.
  - eapply Rle_trans; [|exact C1']. apply Rmult_le_compat_r; [exact Q|].
    assert (V : 1 - 3 * u <= (1 - u) ^ 3) by (simpl; nra). nra.
  - eapply Rle_trans; [exact C2'|]. apply Rmult_le_compat_r; [exact Q|].
    assert (V : (1 + u) ^ 3 <= 1 + 4 * u) by (simpl; nra). nra.
Qed.
