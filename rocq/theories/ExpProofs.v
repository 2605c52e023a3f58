(** Scale and permutation behaviour of the exponentiality statistics. *)
From Coq Require Import String.
From Verif Require Import Base DecModel EdfModel EdfProofs GraphModel GraphInvProofs ExpModel.
From Coq Require Import Lra Lia.

(** ** scaling a sample *)
Definition sc (c : R) (l : list R) : list R := map (Rmult c) l.
Lemma sc_length c l : length (sc c l) = length l.
Proof. apply map_length. Qed.
Lemma sc_len c l : len (sc c l) = len l.
Proof. unfold len. now rewrite sc_length. Qed.
Lemma sc_sum c l : Rsum (sc c l) = c * Rsum l.
Proof. unfold sc. rewrite (Rsum_map_scal c (fun x => x)). now rewrite map_id. Qed.
Lemma sc_mean c l : mean (sc c l) = c * mean l.
Proof. unfold mean. rewrite sc_sum, sc_len. unfold Rdiv. ring. Qed.
Lemma sc_rsort c l : 0 < c -> rsort (sc c l) = sc c (rsort l).
Proof. intros H. unfold sc. apply rsort_map_mono. intros x y Hxy. now apply Rmult_le_compat_l; [lra|]. Qed.
Lemma sc_nonempty c l : nonempty (sc c l) = nonempty l.
Proof. unfold nonempty. now rewrite sc_length. Qed.
Lemma Reqb_scale c x : c <> 0 -> Reqb (c * x) 0 = Reqb x 0.
Proof.
  intros H. destruct (Reqb_spec (c * x) 0), (Reqb_spec x 0); auto; exfalso.
  - apply Rmult_integral in H0. tauto.
  - subst. lra.
Qed.
Lemma Rltb_scale c x y : 0 < c -> Rltb (c * x) (c * y) = Rltb x y.
Proof. intros H. destruct (Rltb_spec (c * x) (c * y)), (Rltb_spec x y); auto; exfalso; nra. Qed.
Lemma Rleb_scale c x y : 0 < c -> Rleb (c * x) (c * y) = Rleb x y.
Proof. intros H. destruct (Rleb_spec (c * x) (c * y)), (Rleb_spec x y); auto; exfalso; nra. Qed.
Lemma div_scale c x m : c <> 0 -> c * x / (c * m) = x / m.
Proof.
  intros H. unfold Rdiv. rewrite Rinv_mult. replace (c * x * (/ c * / m)) with (c * / c * (x * / m)) by ring.
  rewrite Rinv_r by exact H. ring.
Qed.
Lemma fin_if_ext b1 b2 v1 v2 : b1 = b2 -> (b1 = true -> v1 = v2) -> fin_if b1 v1 = fin_if b2 v2.
Proof. intros <- H. unfold fin_if. destruct b1; auto. rewrite H; auto. Qed.

Lemma map_sc {A} (f : R -> A) c l : map f (sc c l) = map (fun x => f (c * x)) l.
Proof. unfold sc. apply map_map. Qed.
Lemma imap_sc {A} (f : nat -> R -> A) c l : imap f (sc c l) = imap (fun i x => f i (c * x)) l.
Proof. unfold sc. apply imap_map. Qed.
Lemma forallb_sc (f : R -> bool) c l : forallb f (sc c l) = forallb (fun x => f (c * x)) l.
Proof. unfold sc. induction l; simpl; [reflexivity|now rewrite IHl]. Qed.
Lemma forallb_ext_all {A} (f g : A -> bool) l : (forall x, f x = g x) -> forallb f l = forallb g l.
Proof. intros H. induction l; simpl; [reflexivity|now rewrite H, IHl]. Qed.
Lemma map_ratio c l : 0 < c -> map (fun x => x / mean (sc c l)) (sc c l) = map (fun x => x / mean l) l.
Proof. intros H. rewrite sc_mean, map_sc. apply map_ext. intros x. apply div_scale. lra. Qed.
Lemma sum_others_map g h l : sum_others g (map h l) = sum_others (fun x r => g (h x) (map h r)) l.
Proof. revert g; induction l as [|x l IH]; intros g; simpl; [reflexivity|]. now rewrite IH. Qed.
Lemma sum_others_ext g1 g2 l : (forall x r, g1 x r = g2 x r) -> sum_others g1 l = sum_others g2 l.
Proof. revert g1 g2; induction l as [|x l IH]; intros g1 g2 H; simpl; [reflexivity|]. rewrite H. f_equal. apply IH. auto. Qed.
Lemma sum_pairs_map f h l : sum_pairs f (map h l) = sum_pairs (fun x y => f (h x) (h y)) l.
Proof. induction l as [|x l IH]; simpl; [reflexivity|]. now rewrite map_map, IH. Qed.
Lemma sum_pairs_ext f g l : (forall x y, f x y = g x y) -> sum_pairs f l = sum_pairs g l.
Proof. intros H. induction l as [|x l IH]; simpl; [reflexivity|]. rewrite IH. f_equal. apply Rsum_map_ext. auto. Qed.
Lemma sum_triples_map f h l : sum_triples f (map h l) = sum_triples (fun x y z => f (h x) (h y) (h z)) l.
Proof. induction l as [|x l IH]; simpl; [reflexivity|]. now rewrite sum_pairs_map, IH. Qed.
Lemma sum_triples_ext f g l : (forall x y z, f x y z = g x y z) -> sum_triples f l = sum_triples g l.
Proof. intros H. induction l as [|x l IH]; simpl; [reflexivity|]. rewrite IH. f_equal. apply sum_pairs_ext. auto. Qed.
Lemma norm_spacings_sc c prev l : norm_spacings (c * prev) (sc c l) = sc c (norm_spacings prev l).
Proof.
  revert prev; induction l as [|x l IH]; intros prev; [reflexivity|].
  unfold sc in *. cbn [map norm_spacings]. rewrite IH. f_equal. cbn [length]. rewrite map_length. ring.
Qed.
Lemma diff_sc c l : diff (sc c l) = sc c (diff l).
Proof.
  induction l as [|x l IH]; [reflexivity|]. destruct l as [|y l]; [reflexivity|].
  unfold sc in *. cbn [map diff] in *. rewrite IH. f_equal. ring.
Qed.
Lemma sc_firstn c k l : firstn k (sc c l) = sc c (firstn k l).
Proof. unfold sc. apply firstn_map. Qed.
Lemma sc_skipn c k l : skipn k (sc c l) = sc c (skipn k l).
Proof. unfold sc. apply skipn_map. Qed.
Lemma Rmin_sc c x y : 0 < c -> Rmin (c * x) (c * y) = c * Rmin x y.
Proof. intros H. rewrite !Rmin_comm with (x := c * x). unfold Rmin. destruct (Rle_dec (c * y) (c * x)), (Rle_dec x y); nra. Qed.
Lemma Rmax_sc c x y : 0 < c -> Rmax (c * x) (c * y) = c * Rmax x y.
Proof. intros H. unfold Rmax. destruct (Rle_dec (c * x) (c * y)), (Rle_dec x y); nra. Qed.
Lemma Rmaxl_sc c l : 0 < c -> Rmaxl 0 (sc c l) = c * Rmaxl 0 l.
Proof.
  intros H. induction l as [|x [|y l] IH]; [simpl; ring|reflexivity|].
  unfold sc in *. cbn [map] in *. rewrite !Rmaxl_cons, IH, Rmax_sc by exact H. reflexivity.
Qed.
Lemma Rminl_sc c l : 0 < c -> Rminl 0 (sc c l) = c * Rminl 0 l.
Proof.
  intros H. induction l as [|x [|y l] IH]; [simpl; ring|reflexivity|].
  unfold sc in *. cbn [map] in *. rewrite !Rminl_cons, IH, Rmin_sc by exact H. reflexivity.
Qed.
Lemma np_var_sc c l : np_var (sc c l) = c ^ 2 * np_var l.
Proof.
  unfold np_var. rewrite sc_mean, map_sc.
  replace (map (fun x => (c * x - c * mean l) ^ 2) l) with (sc (c ^ 2) (map (fun x => (x - mean l) ^ 2) l)).
  - apply sc_mean.
  - unfold sc. rewrite map_map. apply map_ext. intros x. ring.
Qed.

(** ** scale invariance, statistic by statistic *)
Section Scale.
Variable c : R.
Hypothesis Hc : 0 < c.
Let Hc0 : c <> 0. Proof. lra. Qed.
Lemma ep_sc l : ep (sc c l) = ep l.
Proof.
  unfold ep. rewrite sc_nonempty, sc_mean, Reqb_scale, sc_len, map_sc by exact Hc0.
  do 4 f_equal. apply map_ext. intros x. now rewrite div_scale.
Qed.
Lemma ahs_sc l : ahs (sc c l) = ahs l.
Proof.
  unfold ahs. destruct l as [|x0 l0]; [reflexivity|]. remember (x0 :: l0) as l eqn:E.
  replace (sc c l) with (c * x0 :: sc c l0) by now subst. replace (c * x0 :: sc c l0) with (sc c l) by now subst.
  rewrite sc_len. do 3 f_equal. f_equal.
  - rewrite map_sc. apply Rsum_map_ext. intros k _. rewrite map_sc. apply Rsum_map_ext. intros i _.
    rewrite map_sc. apply Rsum_map_ext. intros j _. f_equal.
    replace (c * i - c * j) with (c * (i - j)) by ring. rewrite Rabs_mult, (Rabs_pos_eq c) by lra. now apply Rltb_scale.
  - rewrite map_sc. apply Rsum_map_ext. intros k _. rewrite map_sc. apply Rsum_map_ext. intros i _.
    rewrite map_sc. apply Rsum_map_ext. intros j _. f_equal.
    rewrite Rmin_sc by exact Hc. replace (2 * (c * Rmin i j)) with (c * (2 * Rmin i j)) by ring. now apply Rltb_scale.
Qed.
Lemma np_pow_sc x p : 0 <= x -> np_pow (c * x) p = Rpower c p * np_pow x p.
Proof.
  intros H. unfold np_pow. rewrite Reqb_scale by exact Hc0. destruct (Reqb_spec x 0) as [E|E]; [ring|].
  rewrite Rpower_mult_distr; auto. lra.
Qed.
Lemma np_pow_nonneg x p : 0 <= np_pow x p.
Proof. unfold np_pow. destruct (Reqb x 0); [lra|left; apply exp_pos]. Qed.
Lemma mean_nonneg l : (forall x, In x l -> 0 <= x) -> 0 <= mean l.
Proof.
  intros H. unfold mean. destruct l as [|x l]; [simpl; unfold len; simpl; lra|].
  unfold Rdiv; apply Rmult_le_pos; [now apply Rsum_nonneg|left; apply Rinv_0_lt_compat; unfold len; apply INR_pos; simpl; lia].
Qed.
Lemma all_nonneg_sc l : all_nonneg (sc c l) = all_nonneg l.
Proof. unfold all_nonneg. rewrite forallb_sc. apply forallb_ext_all. intros x. rewrite <- (Rleb_scale c 0 x Hc). f_equal. ring. Qed.
Lemma all_pos_sc l : all_pos (sc c l) = all_pos l.
Proof. unfold all_pos. rewrite forallb_sc. apply forallb_ext_all. intros x. rewrite <- (Rltb_scale c 0 x Hc). f_equal. ring. Qed.
Lemma atk_sc Gamma p l : 0 < p -> atk Gamma p (sc c l) = atk Gamma p l.
Proof.
  intros Hp. unfold atk. apply fin_if_ext.
  - now rewrite sc_nonempty, all_nonneg_sc, sc_mean, Reqb_scale.
  - intros B. apply andb_true_iff in B. destruct B as [B _]. apply andb_true_iff in B. destruct B as [_ B].
    rewrite all_nonneg_sc in B. unfold all_nonneg in B. rewrite forallb_forall in B.
    rewrite sc_len, sc_mean, map_sc.
    replace (map (fun x => np_pow (c * x) p) l) with (sc (Rpower c p) (map (fun x => np_pow x p) l)).
    + rewrite sc_mean. set (m := mean (map (fun x => np_pow x p) l)).
      assert (Hm : 0 <= m) by (apply mean_nonneg; intros x Hx; apply in_map_iff in Hx; destruct Hx as (y & <- & _); apply np_pow_nonneg).
      assert (E : np_pow (Rpower c p * m) (1 / p) = c * np_pow m (1 / p)).
      { unfold np_pow. pose proof (exp_pos (p * ln c)) as He. fold (Rpower c p) in He.
        rewrite Reqb_scale by lra. destruct (Reqb_spec m 0) as [Em|Em]; [ring|].
        rewrite <- Rpower_mult_distr by lra. rewrite Rpower_mult.
        replace (p * (1 / p)) with 1 by (field; lra). now rewrite Rpower_1. }
      rewrite E, div_scale by exact Hc0. reflexivity.
    + unfold sc. rewrite map_map. apply map_ext_in. intros x Hx. symmetry. apply np_pow_sc. apply Rleb_true, B, Hx.
Qed.
Lemma co_sc l : co (sc c l) = co l.
Proof. unfold co. now rewrite map_ratio, sc_nonempty, sc_mean, Reqb_scale, sc_len. Qed.
Lemma dsp_sc b l : dsp b (sc c l) = dsp b l.
Proof.
  unfold dsp. rewrite sc_length, sc_len. destruct (length l <=? 1)%nat; [reflexivity|].
  do 3 f_equal. unfold sc. rewrite sum_others_map. apply sum_others_ext. intros x r.
  rewrite map_map. apply Rsum_map_ext. intros y _. f_equal.
  replace (b * (c * y)) with (c * (b * y)) by ring. now apply Rltb_scale.
Qed.
Lemma eps_sc l : eps_sorted (sc c l) = eps_sorted l.
Proof.
  unfold eps_sorted. destruct l as [|x0 l0]; [reflexivity|]. remember (x0 :: l0) as l eqn:E.
  destruct (sc c l) as [|y yl] eqn:Es; [subst; discriminate|]. rewrite <- Es. clear Es y yl.
  rewrite sc_len. replace 0 with (c * 0) at 1 2 3 by ring. rewrite !norm_spacings_sc.
  apply fin_if_ext; [apply all_pos_sc|].
  rewrite all_pos_sc. intros B. unfold all_pos in B. rewrite forallb_forall in B.
  assert (Hd : forall x, In x (norm_spacings 0 l) -> 0 < x) by (intros x Hx; now apply Rltb_true, B).
  assert (Hn : norm_spacings 0 l <> []) by (subst; discriminate).
  assert (Hl : length (norm_spacings 0 l) = length l).
  { clear. generalize 0. induction l as [|x l IH]; intros r; simpl; [reflexivity|now rewrite IH]. }
  assert (Hlen : 0 < len l) by (subst; unfold len; apply INR_pos; simpl; lia).
  set (d := norm_spacings 0 l) in *.
  assert (Hs : 0 < Rsum d).
  { destruct d as [|a d']; [congruence|]. cbn [Rsum]. pose proof (Hd a (or_introl eq_refl)).
    assert (0 <= Rsum d') by (apply Rsum_nonneg; intros z Hz; left; apply Hd; now right). lra. }
  f_equal. f_equal.
  rewrite sc_sum, map_sc.
  rewrite (Rsum_map_ext (fun x => ln (c * x)) (fun x => ln c + ln x)) by (intros x Hx; apply ln_mult; auto).
  rewrite Rsum_map_plus, Rsum_map_const, Hl. fold (len l).
  replace (c * Rsum d / len l) with (c * (Rsum d / len l)) by (field; lra).
  rewrite ln_mult; [|exact Hc|apply Rdiv_lt_0_compat; lra]. field. lra.
Qed.
Lemma fz_sc l : fz_sorted (sc c l) = fz_sorted l.
Proof.
  unfold fz_sorted. rewrite sc_nonempty, sc_mean, Reqb_scale, sc_len, imap_sc by exact Hc0.
  do 3 f_equal. apply imap_ext. intros i x _ _. do 3 f_equal.
  replace (- (c * x) / (c * mean l)) with (- (c * x / (c * mean l))) by (unfold Rdiv; ring).
  rewrite div_scale by exact Hc0. replace (- x / mean l) with (- (x / mean l)) by (unfold Rdiv; ring). reflexivity.
Qed.
Lemma gini_sc l : gini (sc c l) = gini l.
Proof.
  unfold gini. rewrite sc_length, sc_len, sc_rsort, sc_sum, diff_sc, Reqb_scale by lra.
  f_equal. rewrite imap_sc.
  replace (imap (fun i x => c * x * (INR (S i) * (len l - INR (S i)))) (diff (rsort l)))
    with (sc c (imap (fun i x => x * (INR (S i) * (len l - INR (S i)))) (diff (rsort l)))).
  - rewrite sc_sum. replace ((len l - 1) * (c * Rsum (rsort l))) with (c * ((len l - 1) * Rsum (rsort l))) by ring.
    now apply div_scale.
  - unfold sc. rewrite map_imap. apply imap_ext. intros i x _ _. ring.
Qed.
Lemma rsort_zero_sc l : rsort (0 :: sc c l) = sc c (rsort (0 :: l)).
Proof. rewrite <- sc_rsort by exact Hc. unfold sc. cbn [map]. now rewrite Rmult_0_r. Qed.
Lemma gd_sc r l : gd r (sc c l) = gd r l.
Proof.
  unfold gd. rewrite sc_length, rsort_zero_sc. destruct (rsort (0 :: l)) as [|x0 x]; [reflexivity|].
  unfold sc at 1. cbn [map]. fold (sc c x). rewrite norm_spacings_sc.
  set (r' := match r with Some r0 => r0 | None => _ end). destruct (_ || _); [reflexivity|].
  rewrite sc_firstn, sc_skipn, !sc_sum. set (A := Rsum (firstn _ _)). set (B := Rsum (skipn _ _)).
  replace (c * B / (INR (length l) - INR r')) with (c * (B / (INR (length l) - INR r'))) by (unfold Rdiv; ring).
  rewrite Reqb_scale by exact Hc0. f_equal.
  replace (c * A / INR r') with (c * (A / INR r')) by (unfold Rdiv; ring). now apply div_scale.
Qed.
Lemma hm_sc r l : hm r (sc c l) = hm r l.
Proof.
  unfold hm. rewrite sc_length, rsort_zero_sc. destruct (rsort (0 :: l)) as [|x0 x]; [reflexivity|].
  unfold sc at 1. cbn [map]. fold (sc c x). rewrite norm_spacings_sc.
  set (r' := match r with Some r0 => r0 | None => _ end).
  rewrite !sc_skipn, !sc_firstn, !sc_sum.
  set (A := Rsum (firstn r' _)). set (B := Rsum (skipn _ _)). set (D := Rsum (firstn _ (skipn _ _))).
  replace (c * D / (INR (length l) - 2 * INR r')) with (c * (D / (INR (length l) - 2 * INR r'))) by (unfold Rdiv; ring).
  rewrite Reqb_scale by exact Hc0. f_equal.
  replace ((c * A + c * B) / (2 * INR r')) with (c * ((A + B) / (2 * INR r'))) by (unfold Rdiv; ring). now apply div_scale.
Qed.
Lemma hp_sc l : hp (sc c l) = hp l.
Proof.
  unfold hp. rewrite sc_length, sc_len. destruct (length l <=? 2)%nat; [reflexivity|].
  do 3 f_equal. unfold sc. rewrite sum_others_map. apply sum_others_ext. intros x r.
  rewrite sum_pairs_map. apply sum_pairs_ext. intros y z. f_equal.
  replace (c * y + c * z) with (c * (y + z)) by ring. now apply Rltb_scale.
Qed.
Lemma km_sc l : km_sorted (sc c l) = km_sorted l.
Proof.
  unfold km_sorted. destruct l as [|x0 l0]; [reflexivity|]. remember (x0 :: l0) as l eqn:E.
  destruct (sc c l) as [|y yl] eqn:Es; [subst; discriminate|]. rewrite <- Es. clear Es y yl.
  rewrite sc_len, sc_mean, Reqb_scale, forallb_sc, imap_sc by exact Hc0. f_equal.
  - f_equal. apply forallb_ext_all. intros x. now rewrite div_scale.
  - f_equal. apply imap_ext. intros i x _ _. now rewrite div_scale.
Qed.
Lemma kc_sc l : kc_sorted (sc c l) = kc_sorted l.
Proof.
  unfold kc_sorted. cbv zeta. rewrite sc_sum, sc_len, Reqb_scale, imap_sc by exact Hc0. f_equal.
  set (J := fun (i : nat) => 2 * (1 - (INR i + 1) / (len l + 1)) * (1 - ln (1 - (INR i + 1) / (len l + 1))) - 1).
  rewrite (imap_ext _ (fun i x => c * (J i * x)) l) by (intros i x _ _; unfold J; ring).
  replace (imap (fun i x => c * (J i * x)) l) with (sc c (imap (fun i x => J i * x) l)) by (unfold sc; apply map_imap).
  rewrite sc_sum. fold J. set (S := Rsum (imap _ l)).
  replace (sqrt (108 * len l / 17) * (c * S)) with (c * (sqrt (108 * len l / 17) * S)) by ring.
  now apply div_scale.
Qed.
Lemma lz_sc p l : lz_sorted p (sc c l) = lz_sorted p l.
Proof.
  unfold lz_sorted. destruct l as [|x0 l0]; [reflexivity|]. remember (x0 :: l0) as l eqn:E.
  destruct (sc c l) as [|y yl] eqn:Es; [subst; discriminate|]. rewrite <- Es. clear Es y yl.
  rewrite sc_len, sc_sum, Reqb_scale, sc_firstn, sc_sum, div_scale by exact Hc0. reflexivity.
Qed.
Lemma mn_sc g l : mn g (sc c l) = mn g l.
Proof. unfold mn. now rewrite map_ratio, sc_nonempty, sc_mean, Reqb_scale. Qed.
Lemma pt_sc l : pt (sc c l) = pt l.
Proof.
  unfold pt. rewrite sc_nonempty, sc_mean, Reqb_scale, sc_len, map_sc by exact Hc0. f_equal.
  replace (map (fun x => Rabs (c * x - c * mean l)) l) with (sc c (map (fun x => Rabs (x - mean l)) l)).
  - rewrite sc_sum. replace (2 * len l * (c * mean l)) with (c * (2 * len l * mean l)) by ring. now apply div_scale.
  - unfold sc. rewrite map_map. apply map_ext. intros x. rewrite <- (Rabs_pos_eq c) at 1 by lra. rewrite <- Rabs_mult. f_equal. ring.
Qed.
Lemma sw_sc l : sw_sorted (sc c l) = sw_sorted l.
Proof.
  unfold sw_sorted. destruct l as [|x0 l0]; [reflexivity|]. remember (x0 :: l0) as l eqn:E.
  destruct (sc c l) as [|y yl] eqn:Es; [subst; discriminate|].
  assert (y = c * x0) by (subst l; unfold sc in Es; cbn [map] in Es; congruence). rewrite <- Es. clear Es yl. subst y.
  rewrite sc_len, sc_mean, map_sc.
  replace (map (fun x => (c * x - c * mean l) ^ 2) l) with (sc (c ^ 2) (map (fun x => (x - mean l) ^ 2) l)).
  - rewrite sc_sum. set (S := Rsum _). replace ((len l - 1) * (c ^ 2 * S)) with (c ^ 2 * ((len l - 1) * S)) by ring.
    assert (c ^ 2 <> 0) by (apply pow_nonzero; exact Hc0).
    rewrite Reqb_scale by auto. f_equal.
    replace (len l * (c * mean l - c * x0) ^ 2) with (c ^ 2 * (len l * (mean l - x0) ^ 2)) by ring. now apply div_scale.
  - unfold sc. rewrite map_map. apply map_ext. intros x. ring.
Qed.
Lemma rs_sc l : rs (sc c l) = rs l.
Proof.
  unfold rs. rewrite sc_length. destruct (length l) as [|[|[|n]]]; auto.
  do 4 f_equal; rewrite map_sc; apply Rsum_map_ext; intros m _; f_equal; unfold sc.
  - rewrite sum_triples_map. apply sum_triples_ext. intros x y z. unfold rs_h. f_equal.
    rewrite !Rmin_sc, !Rmax_sc by exact Hc.
    replace (c * x + c * y + c * z - 2 * (c * Rmin x (Rmin y z)) - c * Rmax x (Rmax y z))
      with (c * (x + y + z - 2 * Rmin x (Rmin y z) - Rmax x (Rmax y z))) by ring. now apply Rltb_scale.
  - rewrite sum_pairs_map. apply sum_pairs_ext. intros x y. unfold rs_g. f_equal.
    rewrite Rmin_sc by exact Hc. now apply Rltb_scale.
Qed.
Lemma we_sc l : we (sc c l) = we l.
Proof.
  unfold we. rewrite sc_nonempty, sc_mean, Reqb_scale, sc_len, np_var_sc by exact Hc0. f_equal.
  replace ((len l - 1) * (c ^ 2 * np_var l)) with (c ^ 2 * ((len l - 1) * np_var l)) by ring.
  replace (len l ^ 2 * (c * mean l) ^ 2) with (c ^ 2 * (len l ^ 2 * mean l ^ 2)) by ring.
  apply div_scale. apply pow_nonzero. exact Hc0.
Qed.
Lemma ww_sc l : ww (sc c l) = ww l.
Proof.
  unfold ww. destruct l as [|x0 l0]; [reflexivity|]. remember (x0 :: l0) as l eqn:E.
  destruct (sc c l) as [|y yl] eqn:Es; [subst; discriminate|]. rewrite <- Es. clear Es y yl.
  now rewrite Rminl_sc, Rmaxl_sc, Reqb_scale, div_scale.
Qed.
End Scale.

(** ** permutation invariance *)
Lemma Permutation_len (l l' : list R) : Permutation l l' -> len l = len l'.
Proof. intros P. unfold len. now rewrite (Permutation_length P). Qed.
Lemma mean_perm' l l' : Permutation l l' -> mean l = mean l'.
Proof. intros P. unfold mean. now rewrite (Rsum_perm _ _ P), (Permutation_len _ _ P). Qed.
Lemma forallb_perm {A} (f : A -> bool) l l' : Permutation l l' -> forallb f l = forallb f l'.
Proof.
  induction 1; simpl; auto; [now rewrite IHPermutation| |congruence].
  destruct (f x), (f y); reflexivity.
Qed.
Lemma nonempty_perm l l' : Permutation l l' -> nonempty l = nonempty l'.
Proof. intros P. unfold nonempty. now rewrite (Permutation_length P). Qed.
Lemma np_var_perm' l l' : Permutation l l' -> np_var l = np_var l'.
Proof. intros P. unfold np_var. rewrite (mean_perm' _ _ P). now apply mean_perm', Permutation_map. Qed.
Lemma sum_others_perm g l l' : Permutation l l' -> (forall x r r', Permutation r r' -> g x r = g x r') ->
  sum_others g l = sum_others g l'.
Proof.
  intros P. revert g. induction P as [|x l l' P IH|x y l|l l' l'' P IH P' IH']; intros g Hg; simpl.
  - reflexivity.
  - f_equal; [now apply Hg|]. apply IH. intros y r r' Pr. apply Hg. now constructor.
  - rewrite <- !Rplus_assoc. f_equal; [ring|]. apply sum_others_ext. intros z r. apply Hg. constructor.
  - rewrite IH by auto. now apply IH'.
Qed.
Lemma sum_pairs_perm f l l' : Permutation l l' -> (forall x y, f x y = f y x) -> sum_pairs f l = sum_pairs f l'.
Proof.
  intros P Hf. induction P; simpl; auto; try congruence.
  - rewrite IHP. f_equal. now apply Rsum_map_perm.
  - rewrite (Hf x y). ring.
Qed.
Lemma sum_pairs_plus f g l : sum_pairs (fun x y => f x y + g x y) l = sum_pairs f l + sum_pairs g l.
Proof. induction l as [|x l IH]; simpl; [ring|]. rewrite IH, Rsum_map_plus. ring. Qed.
Lemma sum_triples_perm f l l' : Permutation l l' ->
  (forall x y z, f x y z = f y x z) -> (forall x y z, f x y z = f x z y) -> sum_triples f l = sum_triples f l'.
Proof.
  intros P H1 H2. induction P; simpl; auto; try congruence.
  - rewrite IHP. f_equal. apply sum_pairs_perm; auto.
  - assert (E : Rsum (map (f y x) l) = Rsum (map (f x y) l)) by (apply Rsum_map_ext; intros; apply H1).
    rewrite E. ring.
Qed.
Section Perm.
Variables l l' : list R.
Hypothesis P : Permutation l l'.
Let Hlen : len l = len l'. Proof. apply Permutation_len, P. Qed.
Let Hlength : length l = length l'. Proof. apply Permutation_length, P. Qed.
Let Hmean : mean l = mean l'. Proof. apply mean_perm', P. Qed.
Let Hsort : rsort l = rsort l'. Proof. apply rsort_perm_eq, P. Qed.
Let Hne : nonempty l = nonempty l'. Proof. apply nonempty_perm, P. Qed.
Lemma ep_perm : ep l = ep l'.
Proof. unfold ep. rewrite Hne, Hmean, Hlen. now rewrite (Rsum_map_perm _ _ _ P). Qed.
Lemma ks_exp_perm lam alt : ks_exp lam alt l = ks_exp lam alt l'.
Proof. unfold ks_exp. now rewrite Hsort. Qed.
Lemma ahs_perm : ahs l = ahs l'.
Proof.
  assert (E : forall f : R -> R -> R -> R,
    Rsum (map (fun k => Rsum (map (fun i => Rsum (map (fun j => f k i j) l)) l)) l)
    = Rsum (map (fun k => Rsum (map (fun i => Rsum (map (fun j => f k i j) l')) l')) l')).
  { intros f. rewrite (Rsum_map_perm _ _ _ P). apply Rsum_map_ext. intros k _.
    rewrite (Rsum_map_perm _ _ _ P). apply Rsum_map_ext. intros i _. apply (Rsum_map_perm _ _ _ P). }
  unfold ahs. rewrite (E (fun k i j => ind (Rltb (Rabs (i - j)) k))), (E (fun k i j => ind (Rltb (2 * Rmin i j) k))), Hlen.
  destruct l as [|a la], l' as [|b lb]; auto; discriminate Hlength.
Qed.
Lemma atk_perm G p : atk G p l = atk G p l'.
Proof.
  unfold atk, all_nonneg. rewrite Hne, Hmean, Hlen, (forallb_perm _ _ _ P).
  rewrite (mean_perm' _ _ (Permutation_map (fun x => np_pow x p) P)). reflexivity.
Qed.
Let Pratio : Permutation (map (fun x => x / mean l) l) (map (fun x => x / mean l') l').
Proof. rewrite Hmean. now apply Permutation_map. Qed.
Lemma co_perm : co l = co l'.
Proof.
  unfold co, all_pos. rewrite (forallb_perm _ _ _ Pratio), (Rsum_map_perm _ _ _ Pratio).
  now rewrite Hne, Hlen, Hmean.
Qed.
Lemma cvm_exp_perm lam : cvm_exp lam l = cvm_exp lam l'.
Proof. unfold cvm_exp. now rewrite Hsort. Qed.
Lemma dsp_perm b : dsp b l = dsp b l'.
Proof.
  unfold dsp. rewrite Hlength, Hlen. destruct (length l' <=? 1)%nat; [reflexivity|].
  do 3 f_equal. apply sum_others_perm; [exact P|]. intros x r r' Pr. now apply Rsum_map_perm.
Qed.
Lemma gini_perm : gini l = gini l'.
Proof. unfold gini. now rewrite Hlen, Hlength, Hsort. Qed.
Lemma gd_perm r : gd r l = gd r l'.
Proof. unfold gd. now rewrite Hlength, (rsort_perm_eq (0 :: l) (0 :: l')) by now constructor. Qed.
Lemma hm_perm r : hm r l = hm r l'.
Proof. unfold hm. now rewrite Hlength, (rsort_perm_eq (0 :: l) (0 :: l')) by now constructor. Qed.
Lemma hg1_perm : hg1 l = hg1 l'.
Proof.
  unfold hg1. rewrite Hsort, Hlen, Hlength. destruct l as [|a la], l' as [|b lb]; auto; discriminate Hlength.
Qed.
Lemma hp_perm : hp l = hp l'.
Proof.
  unfold hp. rewrite Hlength, Hlen. destruct (length l' <=? 2)%nat; [reflexivity|]. do 3 f_equal.
  apply sum_others_perm; [exact P|]. intros x r r' Pr. apply sum_pairs_perm; [exact Pr|].
  intros y z. now rewrite Rplus_comm.
Qed.
Lemma mn_perm g : mn g l = mn g l'.
Proof.
  unfold mn, all_pos. rewrite (forallb_perm _ _ _ Pratio), (mean_perm' _ _ (Permutation_map ln Pratio)).
  now rewrite Hne, Hmean.
Qed.
Lemma pt_perm : pt l = pt l'.
Proof. unfold pt. rewrite Hne, Hmean, Hlen. now rewrite (Rsum_map_perm _ _ _ P). Qed.
Lemma rs_perm : rs l = rs l'.
Proof.
  unfold rs. rewrite Hlength. destruct (length l') as [|[|[|n]]]; auto.
  do 4 f_equal; rewrite (Rsum_map_perm _ _ _ P); apply Rsum_map_ext; intros m _; f_equal.
  - apply sum_triples_perm; [exact P| |]; intros x y z; unfold rs_h; do 2 f_equal.
    + rewrite !Rmin_assoc, !Rmax_assoc, (Rmin_comm x y), (Rmax_comm x y). ring.
    + rewrite (Rmin_comm y z), (Rmax_comm y z). ring.
  - apply sum_pairs_perm; [exact P|]. intros x y. unfold rs_g. now rewrite Rmin_comm.
Qed.
Lemma we_perm : we l = we l'.
Proof. unfold we. now rewrite Hne, Hmean, Hlen, (np_var_perm' _ _ P). Qed.
Lemma ww_perm : ww l = ww l'.
Proof.
  unfold ww. rewrite (Rminl_perm _ _ _ P), (Rmaxl_perm _ _ _ P).
  destruct l as [|a la], l' as [|b lb]; auto; discriminate Hlength.
Qed.
End Perm.
