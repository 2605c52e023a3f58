From Coq Require Import Lia Lra.
From Verif Require Import Base DecModel EdfModel EdfSpec EdfProofs Analysis.
From Coquelicot Require Import Coquelicot.

(** ** Watson and Kuiper in terms of the deviations *)
Lemma devs_sum u : u <> [] -> Rsum (devs u) = Rsum u - len u / 2.
Proof.
  intros H. pose proof (len_pos u H). unfold devs.
  rewrite (Rsum_imap_ext _ (fun i x => x - / (2 * len u) * (2 * INR (S i) - 1))) by (intros; field; lra).
  rewrite Rsum_imap_minus, Rsum_imap_val, map_id, Rsum_imap_scal, Rsum_imap_idx, sum_odd.
  change (INR (length u)) with (len u). field. lra.
Qed.
Lemma devs_len u : len (devs u) = len u.
Proof. unfold len. rewrite devs_length. reflexivity. Qed.
Lemma watson_devs u : u <> [] ->
  watson_val u = 1 / (12 * len (devs u)) + Rsum (map (fun d => (d - mean (devs u)) ^ 2) (devs u)).
Proof.
  intros H. pose proof (len_pos u H). unfold watson_val. rewrite devs_len. f_equal.
  unfold devs at 2. rewrite map_imap. apply Rsum_imap_ext. intros i x _ _.
  assert (E : mean (devs u) = mean u - 1 / 2).
  { unfold mean. rewrite devs_len, devs_sum by exact H. field. lra. }
  rewrite E. reflexivity.
Qed.
Lemma kuiper_devs u : u <> [] ->
  dpv u + dmv u = / len (devs u) + Rmaxl 0 (map (fun d => - d) (devs u)) + Rmaxl 0 (map (fun d => d) (devs u)).
Proof.
  intros H. pose proof (len_pos u H). rewrite devs_len. unfold dpv, dmv.
  rewrite d_plus_devs, d_minus_devs by exact H.
  assert (Hd : devs u <> []) by (rewrite devs_nil; exact H).
  rewrite (Rmaxl_map_shift (fun d => d)) by exact Hd.
  replace (map (fun d => 1 / (2 * len u) - d) (devs u)) with (map (fun d => - d + 1 / (2 * len u)) (devs u))
    by (apply map_ext; intros; ring).
  rewrite (Rmaxl_map_shift (fun d => - d)) by exact Hd. field. lra.
Qed.
Definition shift (c : R) (l : list R) := map (fun d => d + c) l.
Lemma Rsum_shift c l : Rsum (shift c l) = Rsum l + len l * c.
Proof. unfold shift. rewrite Rsum_map_plus, Rsum_map_const, map_id. reflexivity. Qed.
Lemma watson_devs_inv u v c : u <> [] -> v <> [] -> Permutation (devs v) (shift c (devs u)) -> watson_val v = watson_val u.
Proof.
  intros Hu Hv HP. pose proof (len_pos u Hu).
  assert (HL : len (devs v) = len (devs u)).
  { unfold len. rewrite (Permutation_length HP). unfold shift. rewrite map_length. reflexivity. }
  rewrite !watson_devs by assumption. rewrite HL. f_equal.
  assert (E : mean (devs v) = mean (devs u) + c).
  { unfold mean. rewrite HL, (Rsum_perm _ _ HP), Rsum_shift. rewrite devs_len. field. lra. }
  rewrite (Rsum_map_perm _ _ _ HP). unfold shift. rewrite map_map. f_equal. apply map_ext. intros d. rewrite E. ring.
Qed.
Lemma kuiper_devs_inv u v c : u <> [] -> v <> [] -> Permutation (devs v) (shift c (devs u)) ->
  dpv v + dmv v = dpv u + dmv u.
Proof.
  intros Hu Hv HP.
  assert (HL : len (devs v) = len (devs u)).
  { unfold len. rewrite (Permutation_length HP). unfold shift. rewrite map_length. reflexivity. }
  assert (Hd : devs u <> []) by (rewrite devs_nil; exact Hu).
  rewrite !kuiper_devs by assumption. rewrite HL.
  rewrite (Rmaxl_perm _ _ _ (Permutation_map (fun d => - d) HP)), (Rmaxl_perm _ _ _ (Permutation_map (fun d => d) HP)).
  unfold shift. rewrite !map_map.
  rewrite (Rmaxl_map_shift (fun d => d)) by exact Hd.
  replace (map (fun d => - (d + c)) (devs u)) with (map (fun d => - d + - c) (devs u)) by (apply map_ext; intros; ring).
  rewrite (Rmaxl_map_shift (fun d => - d)) by exact Hd. ring.
Qed.

(** ** rotation *)
Lemma split_sorted t s : sortedR s -> exists l1 l2, s = l1 ++ l2 /\
  (forall x, In x l1 -> x + t < 1) /\ (forall x, In x l2 -> 1 <= x + t).
Proof.
  induction 1 as [|x s Hs IH Hf].
  - exists [], []. simpl; tauto.
  - rewrite Forall_forall in Hf. destruct (Rlt_le_dec (x + t) 1) as [L|L].
    + destruct IH as (l1 & l2 & -> & H1 & H2). exists (x :: l1), l2. split; [reflexivity|]. split; auto.
      intros y [<-|Hy]; auto.
    + exists [], (x :: s). split; [reflexivity|]. split; [simpl; tauto|].
      intros y [<-|Hy]; auto. specialize (Hf y Hy). lra.
Qed.
Lemma sorted_app l1 l2 : sortedR l1 -> sortedR l2 -> (forall x y, In x l1 -> In y l2 -> x <= y) -> sortedR (l1 ++ l2).
Proof.
  intros H1 H2 H. induction H1 as [|x l1 Hs IH Hf]; simpl; auto.
  constructor.
  - apply IH. intros; apply H; simpl; auto.
  - rewrite Forall_forall in *. intros y Hy. apply in_app_or in Hy. destruct Hy; auto. apply H; simpl; auto.
Qed.
Lemma rsort_unique l s : Permutation l s -> sortedR s -> rsort l = s.
Proof.
  intros HP Hs. apply sorted_perm_unique; auto using rsort_sorted.
  eapply Permutation_trans; [|exact HP]. apply rsort_perm.
Qed.
Lemma rotate_sorted t v : 0 <= t < 1 -> (forall x, In x v -> 0 <= x < 1) ->
  exists l1 l2, rsort v = l1 ++ l2 /\
    rsort (map (rotate t) v) = map (fun x => x + t - 1) l2 ++ map (fun x => x + t) l1.
Proof.
  intros Ht Hv. destruct (split_sorted t (rsort v) (rsort_sorted v)) as (l1 & l2 & E & H1 & H2).
  exists l1, l2. split; auto.
  pose proof (rsort_sorted v) as Hs. rewrite E in Hs. destruct (sorted_app_inv _ _ Hs) as (S1 & S2 & _).
  assert (Hin : forall x, In x (l1 ++ l2) -> 0 <= x < 1).
  { intros x Hx. apply Hv. rewrite <- rsort_in, E. exact Hx. }
  apply rsort_unique.
  - eapply Permutation_trans; [apply Permutation_map; symmetry; apply rsort_perm|].
    rewrite E, map_app. eapply Permutation_trans; [apply Permutation_app_comm|].
    apply Permutation_app.
    + erewrite map_ext_in; [reflexivity|]. intros x Hx. unfold rotate. rewrite (proj2 (Rltb_false _ _)); [reflexivity|].
      apply H2; auto.
    + erewrite map_ext_in; [reflexivity|]. intros x Hx. unfold rotate. rewrite (proj2 (Rltb_true _ _)); [reflexivity|].
      apply H1; auto.
  - apply sorted_app.
    + apply sorted_map_mono; auto. intros; lra.
    + apply sorted_map_mono; auto. intros; lra.
    + intros x y Hx Hy. apply in_map_iff in Hx, Hy. destruct Hx as (x' & <- & Hx), Hy as (y' & <- & Hy).
      specialize (Hin x' ltac:(apply in_or_app; auto)) as A. specialize (Hin y' ltac:(apply in_or_app; auto)) as B. lra.
Qed.
Lemma imap_from_add {A B} m k (f : nat -> A -> B) l : imap_from (k + m) f l = imap_from k (fun i => f (i + m)%nat) l.
Proof. revert k; induction l as [|x l IH]; intros k; simpl; [reflexivity|]. rewrite <- (IH (S k)). reflexivity. Qed.
Lemma devs_rotate t l1 l2 : l1 ++ l2 <> [] ->
  Permutation (devs (map (fun x => x + t - 1) l2 ++ map (fun x => x + t) l1))
              (shift (t - 1 + len l1 / len (l1 ++ l2)) (devs (l1 ++ l2))).
Proof.
  intros H. pose proof (len_pos _ H) as HL.
  assert (EL : len (map (fun x => x + t - 1) l2 ++ map (fun x => x + t) l1) = len (l1 ++ l2)).
  { unfold len. rewrite !app_length, !map_length. f_equal. lia. }
  assert (Esum : len (l1 ++ l2) = len l1 + len l2) by (unfold len; rewrite app_length, plus_INR; reflexivity).
  unfold devs, shift. rewrite EL. set (n := len (l1 ++ l2)) in *.
  unfold imap. rewrite !imap_from_app, map_app.
  eapply Permutation_trans; [apply Permutation_app_comm|].
  rewrite !imap_from_map, !map_imap_from, !imap_from_add, !map_length.
  match goal with |- Permutation (?a ++ ?b) (?c ++ ?d) => assert (E1 : a = c); [|assert (E2 : b = d); [|rewrite E1, E2; reflexivity]] end.
  - apply imap_from_ext. intros i x _ _. rewrite !S_INR, plus_INR. change (INR (length l2)) with (len l2).
    replace (len l2) with (n - len l1) by lra. field. lra.
  - apply imap_from_ext. intros i x _ _. rewrite !S_INR, plus_INR. change (INR (length l1)) with (len l1).
    field. lra.
Qed.
Lemma map_ne {A B} (f : A -> B) l : l <> [] -> map f l <> [].
Proof. destruct l; simpl; congruence. Qed.
Lemma rsort_ne l : l <> [] -> rsort l <> [].
Proof. rewrite rsort_nil_iff. auto. Qed.
Lemma rotation_devs t v : v <> [] -> 0 <= t < 1 -> (forall x, In x v -> 0 <= x < 1) ->
  exists c, Permutation (devs (rsort (map (rotate t) v))) (shift c (devs (rsort v))).
Proof.
  intros Hne Ht Hv. destruct (rotate_sorted t v Ht Hv) as (l1 & l2 & E1 & E2).
  eexists. rewrite E1, E2. apply devs_rotate. rewrite <- E1. apply rsort_ne, Hne.
Qed.

(** ** Anderson-Darling *)
Lemma Rsum_imap_rev {A} (g : nat -> A -> R) (l : list A) :
  Rsum (imap g (rev l)) = Rsum (imap (fun i x => g (length l - 1 - i)%nat x) l).
Proof.
  induction l as [|x l IH]; [reflexivity|]. simpl rev. rewrite imap_snoc, Rsum_app, IH. cbn [Rsum].
  rewrite imap_cons, rev_length. cbn [Rsum length]. rewrite Rplus_comm.
  replace (S (length l) - 1 - 0)%nat with (length l) by lia.
  f_equal; [ring|]. apply Rsum_imap_ext. intros i y Hi _. f_equal. lia.
Qed.
Lemma Rsum_imap_combine (c : nat -> R) (a b : list R) : length a = length b ->
  Rsum (imap (fun i p => c i * (fst p + snd p)) (combine a b))
  = Rsum (imap (fun i x => c i * x) a) + Rsum (imap (fun i x => c i * x) b).
Proof.
  unfold imap. generalize 0%nat. revert b; induction a as [|x a IH]; intros [|y b] k H; simpl in *; try discriminate; [lra|].
  rewrite IH by congruence. ring.
Qed.
(** A^2 written with the mid-ranks c_i = (2i-1)/(2n) *)
Definition midrank (n : R) (i : nat) : R := (2 * INR (S i) - 1) / (2 * n).
Lemma ad_closed u : u <> [] ->
  ad_do_execute (map ln u) (map (fun x => ln (1 - x)) u)
  = - len u - 2 * Rsum (imap (fun i x => midrank (len u) i * ln x + (1 - midrank (len u) i) * ln (1 - x)) u).
Proof.
  intros H. pose proof (len_pos u H). unfold ad_do_execute. rewrite len_map.
  rewrite (Rsum_imap_combine (fun i => (2 * INR (S i) - 1) / len u)) by (rewrite rev_length, !map_length; reflexivity).
  rewrite Rsum_imap_rev, !imap_map, map_length.
  rewrite Rsum_imap_plus, Rmult_plus_distr_l. unfold Rminus at 1. unfold Rminus at 4.
  rewrite <- !Rsum_imap_scal. f_equal. f_equal. f_equal.
  - apply Rsum_imap_ext. intros i x Hi _. unfold midrank. field. lra.
  - apply Rsum_imap_ext. intros i x Hi _. unfold midrank.
    replace (S (length u - 1 - i)) with (length u - i)%nat by lia.
    rewrite minus_INR by lia. change (INR (length u)) with (len u). rewrite S_INR. field. lra.
Qed.

Definition entropy2 (c : R) : R := - c * ln c - (1 - c) * ln (1 - c).
Lemma gibbs c x : 0 < c < 1 -> 0 < x < 1 -> c * ln x + (1 - c) * ln (1 - x) <= - entropy2 c.
Proof.
  intros Hc Hx. unfold entropy2.
  assert (A : ln (x / c) <= x / c - 1) by (apply ln_le_sub1, Rdiv_lt_0_compat; lra).
  assert (B : ln ((1 - x) / (1 - c)) <= (1 - x) / (1 - c) - 1) by (apply ln_le_sub1, Rdiv_lt_0_compat; lra).
  rewrite ln_quot in A by lra. rewrite ln_quot in B by lra.
  assert (A' : c * (ln x - ln c) <= x - c).
  { replace (x - c) with (c * (x / c - 1)) by (field; lra). apply Rmult_le_compat_l; lra. }
  assert (B' : (1 - c) * (ln (1 - x) - ln (1 - c)) <= c - x).
  { replace (c - x) with ((1 - c) * ((1 - x) / (1 - c) - 1)) by (field; lra). apply Rmult_le_compat_l; lra. }
  lra.
Qed.
Lemma midrank_range (u : list R) i : (i < length u)%nat -> 0 < midrank (len u) i < 1.
Proof.
  intros H. assert (0 < len u) by (apply lt_0_INR; lia). unfold midrank.
  assert (INR (S i) <= len u) by (apply le_INR; lia). pose proof (pos_INR i). rewrite S_INR in *. split.
  - apply Rdiv_lt_0_compat; lra.
  - apply (Rmult_lt_reg_r (2 * len u)); [lra|]. unfold Rdiv. rewrite Rmult_assoc, Rinv_l by lra. lra.
Qed.
Definition ad_min (n : nat) : R := - INR n + 2 * Rsum (map (fun i => entropy2 (midrank (INR n) i)) (seq 0 n)).
Lemma ad_lower u : u <> [] -> (forall x, In x u -> 0 < x < 1) ->
  ad_min (length u) <= ad_do_execute (map ln u) (map (fun x => ln (1 - x)) u).
Proof.
  intros H Hu. rewrite ad_closed by exact H. unfold ad_min. change (INR (length u)) with (len u).
  rewrite <- (Rsum_imap_idx (fun i => entropy2 (midrank (len u) i)) u).
  assert (G : 0 <= Rsum (imap (fun i x => - entropy2 (midrank (len u) i)
     - (midrank (len u) i * ln x + (1 - midrank (len u) i) * ln (1 - x))) u)).
  { apply Rsum_nonneg. intros y Hy. apply imap_in in Hy. destruct Hy as (i & x & E & ->).
    destruct (nth_error_nth0 _ _ _ 0 E) as [E1 E2].
    pose proof (gibbs (midrank (len u) i) x (midrank_range u i E2) (Hu x (nth_error_In _ _ E))). lra. }
  rewrite Rsum_imap_minus in G.
  rewrite (Rsum_imap_ext (fun i _ => - entropy2 (midrank (len u) i)) (fun i _ => -1 * entropy2 (midrank (len u) i))) in G
    by (intros; ring).
  rewrite (Rsum_imap_scal (-1) (fun i (_ : R) => entropy2 (midrank (len u) i))) in G. lra.
Qed.

(** the midpoint rule overestimates the integral of the concave function -x ln x *)
Definition hfun (x : R) : R := - x * ln x.
Definition Pfun (x : R) : R := - (x ^ 2 / 2) * ln x + x ^ 2 / 4.
Lemma hfun_concave c t : 0 < c -> - c < t < c -> hfun (c + t) + hfun (c - t) <= 2 * hfun c.
Proof.
  intros Hc Ht. unfold hfun.
  assert (G : forall x, 0 < x -> x - c <= x * (ln x - ln c)).
  { intros x Hx. assert (A : ln (c / x) <= c / x - 1) by (apply ln_le_sub1, Rdiv_lt_0_compat; lra).
    rewrite ln_quot in A by lra.
    assert (x * (ln c - ln x) <= x * (c / x - 1)) by (apply Rmult_le_compat_l; lra).
    replace (x * (c / x - 1)) with (c - x) in H by (field; lra). lra. }
  pose proof (G (c + t) ltac:(lra)). pose proof (G (c - t) ltac:(lra)). lra.
Qed.
Lemma midpoint_rule c d : 0 < d < c -> Pfun (c + d) - Pfun (c - d) <= 2 * d * hfun c.
Proof.
  intros H.
  assert (G : (fun t => 2 * t * hfun c - (Pfun (c + t) - Pfun (c - t))) 0
              <= (fun t => 2 * t * hfun c - (Pfun (c + t) - Pfun (c - t))) d).
  { apply (derive_nonneg_le (fun t => 2 * t * hfun c - (Pfun (c + t) - Pfun (c - t))) (fun t => 2 * hfun c - (hfun (c + t) + hfun (c - t)))); [lra| |].
    - intros t Ht. unfold Pfun, hfun. auto_derive; [repeat split; lra|].
      change (c + - t) with (c - t). field. split; lra.

    - intros t Ht. pose proof (hfun_concave c t). lra. }
  cbv beta in G. rewrite Rplus_0_r, Rminus_0_r in G. lra.
Qed.
Lemma midpoint_rule0 d : 0 < d -> Pfun (2 * d) <= 2 * d * hfun d.
Proof.
  intros H. unfold Pfun, hfun. rewrite ln_mult by lra.
  assert (/ 2 <= ln 2).
  { pose proof (ln_midpoint 2 ltac:(lra)). lra. }
  nra.
Qed.
Lemma midpoint_sum n k : (0 < n)%nat -> (k <= n)%nat ->
  Pfun (INR k / INR n) <= / INR n * Rsum (map (fun i => hfun (midrank (INR n) i)) (seq 0 k)).
Proof.
  intros Hn. assert (HN : 0 < INR n) by (apply lt_0_INR; lia). induction k as [|k IH]; intros Hk.
  - simpl. unfold Pfun, Rdiv. rewrite Rmult_0_l. simpl. lra.
  - specialize (IH ltac:(lia)). rewrite seq_S, map_app, Rsum_app. cbn [map Rsum]. rewrite Nat.add_0_l.
    assert (S : Pfun (INR (S k) / INR n) - Pfun (INR k / INR n) <= / INR n * hfun (midrank (INR n) k)).
    { set (d := / (2 * INR n)). assert (Hd : 0 < d) by (apply Rinv_0_lt_compat; lra).
      destruct k as [|k].
      - simpl INR. unfold Rdiv at 2. rewrite Rmult_0_l. unfold Pfun at 2. simpl (0 ^ 2).
        replace (1 / INR n) with (2 * d) by (unfold d; field; lra).
        replace (midrank (INR n) 0) with d by (unfold midrank, d; simpl INR; field; lra).
        replace (/ INR n) with (2 * d) by (unfold d; field; lra).
        pose proof (midpoint_rule0 d Hd). lra.
      - set (c := midrank (INR n) (S k)).
        replace (INR (S (S k)) / INR n) with (c + d) by (unfold c, d, midrank; field; lra).
        replace (INR (S k) / INR n) with (c - d) by (unfold c, d, midrank; rewrite (S_INR (S k)); field; lra).
        replace (/ INR n) with (2 * d) by (unfold d; field; lra).
        apply midpoint_rule. split; [exact Hd|].
        assert (0 < INR (S k) / INR n) by (apply Rdiv_lt_0_compat; [apply lt_0_INR; lia|lra]).
        replace (INR (S k) / INR n) with (c - d) in H by (unfold c, d, midrank; rewrite (S_INR (S k)); field; lra). lra. }
    rewrite Rplus_0_r, Rmult_plus_distr_l. lra.
Qed.
Lemma ad_min_nonneg n : (0 < n)%nat -> 0 <= ad_min n.
Proof.
  intros Hn. assert (HN : 0 < INR n) by (apply lt_0_INR; lia).
  pose proof (midpoint_sum n n Hn (le_n n)) as M.
  replace (INR n / INR n) with 1 in M by (field; lra).
  assert (EP : Pfun 1 = / 4) by (unfold Pfun; rewrite ln_1; lra). rewrite EP in M.
  set (S1 := Rsum (map (fun i => hfun (midrank (INR n) i)) (seq 0 n))) in *.
  assert (E : Rsum (map (fun i => entropy2 (midrank (INR n) i)) (seq 0 n)) = 2 * S1).
  { unfold entropy2.
    rewrite (Rsum_map_ext _ (fun i => hfun (midrank (INR n) i) + hfun (midrank (INR n) (n - 1 - i)))).
    - rewrite Rsum_map_plus. fold S1.
      assert (Rsum (map (fun i => hfun (midrank (INR n) (n - 1 - i))) (seq 0 n)) = S1); [|lra].
      pose proof (Rsum_imap_rev (fun i (_ : nat) => hfun (midrank (INR n) i)) (seq 0 n)) as Rv.
      rewrite !Rsum_imap_idx in Rv. rewrite rev_length, seq_length in Rv. unfold S1. rewrite Rv. reflexivity.
    - intros i Hi. apply in_seq in Hi. unfold hfun.
      assert (E : midrank (INR n) (n - 1 - i) = 1 - midrank (INR n) i).
      { unfold midrank. replace (S (n - 1 - i)) with (n - i)%nat by lia. rewrite minus_INR by lia.
        rewrite S_INR. field. lra. }
      rewrite E. ring. }
  unfold ad_min. rewrite E.
  assert (INR n * / 4 <= S1).
  { apply (Rmult_le_reg_l (/ INR n)); [apply Rinv_0_lt_compat; lra|].
    rewrite <- Rmult_assoc, Rinv_l by lra. lra. }
  lra.
Qed.
(** the bound is attained at u_i = c_i *)
Lemma ad_min_attained n : (0 < n)%nat ->
  let u := map (midrank (INR n)) (seq 0 n) in
  ad_do_execute (map ln u) (map (fun x => ln (1 - x)) u) = ad_min n.
Proof.
  intros Hn u. assert (Hne : u <> []) by (unfold u; destruct n; [lia|discriminate]).
  assert (EL : len u = INR n) by (unfold len, u; rewrite map_length, seq_length; reflexivity).
  rewrite ad_closed by exact Hne. rewrite EL. unfold ad_min, u. rewrite imap_map.
  rewrite (imap_seq _ _ 0%nat), seq_length.
  rewrite (Rsum_map_ext _ (fun i => -1 * entropy2 (midrank (INR n) i))).
  - rewrite Rsum_map_scal. ring.
  - intros i Hi. apply in_seq in Hi. rewrite seq_nth by lia. rewrite ?Nat.add_0_l. unfold entropy2. ring.
Qed.
