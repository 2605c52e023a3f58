From Coq Require Import Lia Lra.
From Verif Require Import Base DecModel EdfModel EdfSpec.

(** ** lists *)
Lemma imap_snoc {A B} (f : nat -> A -> B) l x : imap f (l ++ [x]) = imap f l ++ [f (length l) x].
Proof. unfold imap. rewrite imap_from_app. reflexivity. Qed.
Lemma sorted_snoc l x : sortedR (l ++ [x]) <-> sortedR l /\ forall y, In y l -> y <= x.
Proof.
  split.
  - intros H. destruct (sorted_app_inv _ _ H) as (A & _ & C). split; auto.
    intros y Hy. apply C; simpl; auto.
  - intros [H1 H2]. induction H1 as [|z l Hs IH Hf]; simpl; [repeat constructor|].
    constructor; [apply IH; intros; apply H2; simpl; auto|].
    rewrite Forall_forall in *. intros y Hy. apply in_app_or in Hy. destruct Hy as [Hy|[<-|[]]]; auto.
    apply H2; simpl; auto.
Qed.
Lemma len_snoc {A} (l : list A) x : len (l ++ [x]) = len l + 1.
Proof. unfold len. rewrite app_length. simpl. rewrite plus_INR. reflexivity. Qed.
Lemma len_pos {A} (l : list A) : l <> [] -> 0 < len l.
Proof. destruct l; [congruence|]. intros _. unfold len. apply lt_0_INR. simpl; lia. Qed.
Lemma len_map {A B} (f : A -> B) l : len (map f l) = len l.
Proof. unfold len. rewrite map_length. reflexivity. Qed.
Lemma len_rsort l : len (rsort l) = len l.
Proof. unfold len. rewrite rsort_length. reflexivity. Qed.
Lemma rsort_nil_iff l : rsort l = [] <-> l = [].
Proof.
  split; intros H; [|subst; reflexivity]. apply length_zero_iff_nil. rewrite <- rsort_length, H. reflexivity.
Qed.
Lemma imap_perm_const {A B} (f : A -> B) l : imap (fun _ x => f x) l = map f l.
Proof. unfold imap. generalize 0%nat. induction l as [|x l IH]; intros k; simpl; auto. rewrite IH; auto. Qed.

(** ** positions in a sorted list *)
Lemma count_ge_pos s i x : sortedR s -> (i < length s)%nat -> nth i s 0 <= x ->
  (S i <= length (filter (fun y => Rleb y x) s))%nat.
Proof.
  intros H; revert i; induction H as [|y s Hs IH Hf]; intros i Hi Hx; simpl in *; [lia|].
  rewrite Forall_forall in Hf. destruct (Rleb_spec y x) as [Hy|Hy].
  - simpl. destruct i as [|i]; [lia|]. specialize (IH i ltac:(lia) Hx). lia.
  - exfalso. destruct i as [|i]; [lra|].
    assert (Hn : In (nth i s 0) s) by (apply nth_In; lia). specialize (Hf _ Hn). lra.
Qed.
Lemma count_le_pos s i x : sortedR s -> (i < length s)%nat -> x < nth i s 0 ->
  (length (filter (fun y => Rleb y x) s) <= i)%nat.
Proof.
  intros H; revert i; induction H as [|y s Hs IH Hf]; intros i Hi Hx; simpl in *; [lia|].
  rewrite Forall_forall in Hf. destruct i as [|i].
  - destruct (Rleb_spec y x); [lra|].
    assert (E : filter (fun y => Rleb y x) s = []).
    { apply length_zero_iff_nil. apply (count_zero (fun y => Rleb y x)). intros z Hz. apply Rleb_false.
      specialize (Hf z Hz). lra. }
    rewrite E. simpl. lia.
  - specialize (IH i ltac:(lia) Hx). destruct (Rleb y x); simpl; lia.
Qed.

Lemma edf_perm l1 l2 x : Permutation l1 l2 -> edf l1 x = edf l2 x.
Proof.
  intros H. unfold edf. rewrite (Permutation_length H).
  change (length (filter (fun y => Rleb y x) l1)) with (count (fun y => Rleb y x) l1).
  rewrite (count_perm _ _ _ H). reflexivity.
Qed.

(** ** deviations from the midpoints *)
Definition devs (u : list R) : list R := imap (fun i x => x - (2 * INR (S i) - 1) / (2 * len u)) u.
Lemma devs_length u : length (devs u) = length u.
Proof. apply imap_length. Qed.
Lemma devs_nil u : devs u = [] <-> u = [].
Proof. rewrite <- !length_zero_iff_nil, devs_length. tauto. Qed.
Lemma d_plus_devs u : u <> [] -> d_plus u = map (fun d => 1 / (2 * len u) - d) (devs u).
Proof.
  intros H. pose proof (len_pos u H). unfold d_plus, devs. rewrite map_imap. apply imap_ext.
  intros i x _ _. field. lra.
Qed.
Lemma d_minus_devs u : u <> [] -> d_minus u = map (fun d => d + 1 / (2 * len u)) (devs u).
Proof.
  intros H. pose proof (len_pos u H). unfold d_minus, devs. rewrite map_imap. apply imap_ext.
  intros i x _ _. rewrite S_INR. field. lra.
Qed.
Lemma np_max_ok a : a <> [] -> np_max a = Ok (Rmaxl 0 a).
Proof. destruct a; [congruence|reflexivity]. Qed.
Lemma Rmaxl_map_shift {A} (f : A -> R) c l : l <> [] ->
  Rmaxl 0 (map (fun x => f x + c) l) = Rmaxl 0 (map f l) + c.
Proof.
  intros H. apply Rmaxl_unique.
  - assert (Hin : In (Rmaxl 0 (map f l)) (map f l)) by (apply Rmaxl_in; destruct l; simpl; congruence).
    apply in_map_iff in Hin. destruct Hin as (x & E & Hx). rewrite <- E. apply (in_map (fun x => f x + c)), Hx.
  - intros y Hy. apply in_map_iff in Hy. destruct Hy as (x & <- & Hx).
    assert (f x <= Rmaxl 0 (map f l)) by (apply Rmaxl_ge, in_map, Hx). lra.
Qed.
Lemma d_plus_ne u : u <> [] -> d_plus u <> [].
Proof. intros H E. apply H. apply length_zero_iff_nil. rewrite <- (imap_length (fun i x => INR (S i) / len u - x)). unfold d_plus in E. rewrite E. reflexivity. Qed.
Lemma d_minus_ne u : u <> [] -> d_minus u <> [].
Proof. intros H E. apply H. apply length_zero_iff_nil. rewrite <- (imap_length (fun i x => x - INR i / len u)). unfold d_minus in E. rewrite E. reflexivity. Qed.
Definition dpv (u : list R) := Rmaxl 0 (d_plus u).
Definition dmv (u : list R) := Rmaxl 0 (d_minus u).
Lemma ks_eval alt u : u <> [] -> ks_do_execute alt u =
  Ok (match alt with RIGHT => dpv u | LEFT => dmv u | TWO_TAILED => Rmax (dpv u) (dmv u) end).
Proof.
  intros H. unfold ks_do_execute. rewrite !np_max_ok by (apply d_plus_ne || apply d_minus_ne; auto). simpl.
  fold (dpv u) (dmv u). destruct alt; auto. f_equal. unfold Rmax.
  destruct (Rle_dec (dpv u) (dmv u)); destruct (Rltb_spec (dmv u) (dpv u)); lra.
Qed.
Lemma ks_empty alt : ks_do_execute alt [] = Raise ValueError.
Proof. reflexivity. Qed.
Lemma kuiper_eval u : u <> [] -> kuiper_of u = Ok (dpv u + dmv u).
Proof.
  intros H. unfold kuiper_of. rewrite !np_max_ok by (apply d_plus_ne || apply d_minus_ne; auto). reflexivity.
Qed.

Lemma nth_error_nth0 {A} (l : list A) i x d : nth_error l i = Some x -> nth i l d = x /\ (i < length l)%nat.
Proof.
  intros H. split; [eapply nth_error_nth, H|]. apply nth_error_Some. congruence.
Qed.
Lemma dpv_ge u i : (i < length u)%nat -> INR (S i) / len u - nth i u 0 <= dpv u.
Proof.
  intros H. apply Rmaxl_ge. apply imap_in. exists i, (nth i u 0). split; auto. apply nth_error_nth', H.
Qed.
Lemma dmv_ge u i : (i < length u)%nat -> nth i u 0 - INR i / len u <= dmv u.
Proof.
  intros H. apply Rmaxl_ge. apply imap_in. exists i, (nth i u 0). split; auto. apply nth_error_nth', H.
Qed.
Lemma dpv_att u : u <> [] -> exists i, (i < length u)%nat /\ dpv u = INR (S i) / len u - nth i u 0.
Proof.
  intros H. pose proof (Rmaxl_in 0 (d_plus u) (d_plus_ne u H)) as Hi. apply imap_in in Hi.
  destruct Hi as (i & x & E & Hx). destruct (nth_error_nth0 _ _ _ 0 E) as [E1 E2].
  exists i. split; auto. unfold dpv. rewrite Hx, E1. reflexivity.
Qed.
Lemma dmv_att u : u <> [] -> exists i, (i < length u)%nat /\ dmv u = nth i u 0 - INR i / len u.
Proof.
  intros H. pose proof (Rmaxl_in 0 (d_minus u) (d_minus_ne u H)) as Hi. apply imap_in in Hi.
  destruct Hi as (i & x & E & Hx). destruct (nth_error_nth0 _ _ _ 0 E) as [E1 E2].
  exists i. split; auto. unfold dmv. rewrite Hx, E1. reflexivity.
Qed.
Definition in01 (u : list R) : Prop := forall x, In x u -> 0 <= x <= 1.
Lemma dpv_nonneg u : u <> [] -> in01 u -> 0 <= dpv u.
Proof.
  intros H Hu. assert (Hl : (0 < length u)%nat) by (destruct u; [congruence|simpl; lia]).
  pose proof (dpv_ge u (length u - 1) ltac:(lia)).
  assert (E : INR (S (length u - 1)) / len u = 1).
  { replace (S (length u - 1)) with (length u) by lia. unfold len. field. apply not_0_INR. lia. }
  assert (0 <= nth (length u - 1) u 0 <= 1) by (apply Hu, nth_In; lia). lra.
Qed.
Lemma dmv_nonneg u : u <> [] -> in01 u -> 0 <= dmv u.
Proof.
  intros H Hu. assert (Hl : (0 < length u)%nat) by (destruct u; [congruence|simpl; lia]).
  pose proof (dmv_ge u 0 Hl) as G. simpl INR in G.
  assert (0 <= nth 0 u 0 <= 1) by (apply Hu, nth_In; lia).
  unfold Rdiv in G. rewrite Rmult_0_l in G. lra.
Qed.

(** ** suprema *)
Section Sup.
Variable F : R -> R.
Hypothesis HF : continuous_cdf F.
Variable rvs : list R.
Hypothesis Hne : rvs <> [].
Let s := rsort rvs.
Let u := map F s.
Lemma sup_len : length u = length s. Proof. apply map_length. Qed.
Lemma sup_ne : u <> [].
Proof. intros E. apply Hne. apply rsort_nil_iff. apply map_eq_nil in E. exact E. Qed.
Lemma sup_01 : in01 u.
Proof. intros x Hx. apply in_map_iff in Hx. destruct Hx as (y & <- & _). apply HF. Qed.
Lemma sup_nth i : (i < length s)%nat -> nth i u 0 = F (nth i s 0).
Proof. intros H. unfold u. rewrite (nth_indep _ 0 (F 0)) by (rewrite map_length; lia). apply map_nth. Qed.
Lemma sup_edf x : edf rvs x = INR (length (filter (fun y => Rleb y x) s)) / len u.
Proof.
  rewrite (edf_perm rvs s) by (symmetry; apply rsort_perm). unfold edf, len. rewrite sup_len. reflexivity.
Qed.
Lemma sup_lpos : 0 < len u. Proof. apply len_pos, sup_ne. Qed.

Lemma edf_minus_cdf x : edf rvs x - F x <= dpv u.
Proof.
  rewrite sup_edf. pose proof sup_lpos. destruct HF as (Hm & H01 & _).
  set (k := length (filter (fun y => Rleb y x) s)).
  assert (Hk : (k <= length s)%nat) by (unfold k; apply (count_le_length (fun y => Rleb y x))).
  destruct (Nat.eq_dec k 0) as [E|E].
  - pose proof (dpv_nonneg u sup_ne sup_01). specialize (H01 x). rewrite E. simpl INR. unfold Rdiv. lra.
  - assert (Hle : nth (k - 1) s 0 <= x).
    { destruct (Rle_lt_dec (nth (k - 1) s 0) x); auto. exfalso.
      pose proof (count_le_pos s (k - 1) x (rsort_sorted rvs) ltac:(lia) r) as Hc. fold k in Hc. lia. }
    pose proof (dpv_ge u (k - 1)) as G. rewrite sup_len in G. specialize (G ltac:(lia)).
    rewrite sup_nth in G by lia. replace (S (k - 1)) with k in G by lia. specialize (Hm _ _ Hle). lra.
Qed.
Lemma cdf_minus_edf x : F x - edf rvs x <= dmv u.
Proof.
  rewrite sup_edf. pose proof sup_lpos as HL. destruct HF as (Hm & H01 & _).
  set (k := length (filter (fun y => Rleb y x) s)).
  assert (Hk : (k <= length s)%nat) by (unfold k; apply (count_le_length (fun y => Rleb y x))).
  destruct (Nat.eq_dec k (length s)) as [E|E].
  - pose proof (dmv_nonneg u sup_ne sup_01). specialize (H01 x).
    assert (INR k / len u = 1) by (rewrite E; unfold len in *; rewrite sup_len in *; field; lra). lra.
  - assert (Hle : x <= nth k s 0).
    { destruct (Rle_lt_dec x (nth k s 0)); auto. exfalso.
      pose proof (count_ge_pos s k x (rsort_sorted rvs) ltac:(lia) ltac:(lra)) as Hc. fold k in Hc. lia. }
    pose proof (dmv_ge u k) as G. rewrite sup_len in G. specialize (G ltac:(lia)).
    rewrite sup_nth in G by lia. specialize (Hm _ _ Hle). lra.
Qed.
Lemma dplus_sup : supremum (fun x => edf rvs x - F x) (dpv u).
Proof.
  split.
  - intros v (x & ->). apply edf_minus_cdf.
  - intros M HM. destruct (dpv_att u sup_ne) as (i & Hi & ->). rewrite sup_len in Hi. rewrite sup_nth by lia.
    eapply Rle_trans; [|apply HM; exists (nth i s 0); reflexivity].
    rewrite sup_edf. pose proof sup_lpos.
    apply Rplus_le_compat_r. apply Rmult_le_compat_r; [left; apply Rinv_0_lt_compat; lra|].
    apply le_INR. apply count_ge_pos; [apply rsort_sorted|lia|lra].
Qed.
Lemma left_limit x eps : 0 < eps -> exists y, y < x /\ F x - eps < F y.
Proof.
  intros He. destruct HF as (_ & _ & Hc).
  destruct (Hc x eps He) as (d & Hd & H). exists (x - d / 2). split; [lra|].
  specialize (H (x - d / 2)). simpl in H. unfold R_dist in H.
  assert (A : Rabs (F (x - d / 2) - F x) < eps).
  { apply H. split; [split; [exact I|lra]|]. replace (x - d / 2 - x) with (- (d / 2)) by lra.
    rewrite Rabs_Ropp, Rabs_right; lra. }
  apply Rabs_def2 in A. lra.
Qed.
Lemma dminus_sup : supremum (fun x => F x - edf rvs x) (dmv u).
Proof.
  split.
  - intros v (x & ->). apply cdf_minus_edf.
  - intros M HM. destruct (dmv_att u sup_ne) as (i & Hi & ->). rewrite sup_len in Hi. rewrite sup_nth by lia.
    apply Rnot_lt_le. intros Hlt.
    set (x := nth i s 0) in *. set (eps := F x - INR i / len u - M).
    destruct (left_limit x eps) as (y & Hy & HFy); [unfold eps; lra|].
    assert (HMy : F y - edf rvs y <= M) by (apply HM; exists y; reflexivity).
    rewrite sup_edf in HMy. pose proof sup_lpos.
    assert (INR (length (filter (fun z => Rleb z y) s)) / len u <= INR i / len u).
    { apply Rmult_le_compat_r; [left; apply Rinv_0_lt_compat; lra|]. apply le_INR.
      apply count_le_pos; [apply rsort_sorted|lia|exact Hy]. }
    unfold eps in HFy. lra.
Qed.
Lemma ks_sup : supremum (fun x => Rabs (edf rvs x - F x)) (Rmax (dpv u) (dmv u)).
Proof.
  destruct dplus_sup as [A1 A2]. destruct dminus_sup as [B1 B2]. split.
  - intros v (x & ->). assert (H1 : edf rvs x - F x <= dpv u) by (apply A1; eauto).
    assert (H2 : F x - edf rvs x <= dmv u) by (apply B1; eauto).
    apply Rabs_le. pose proof (Rmax_l (dpv u) (dmv u)). pose proof (Rmax_r (dpv u) (dmv u)). lra.
  - intros M HM. apply Rmax_lub.
    + apply A2. intros v (x & ->). eapply Rle_trans; [apply Rle_abs|]. apply HM. eauto.
    + apply B2. intros v (x & ->). eapply Rle_trans; [apply Rle_abs|]. rewrite Rabs_minus_sym. apply HM. eauto.
Qed.
End Sup.

(** ** ranges *)
Lemma dplus_dminus_i u i : u <> [] -> (i < length u)%nat ->
  (INR (S i) / len u - nth i u 0) + (nth i u 0 - INR i / len u) = / len u.
Proof. intros H Hi. pose proof (len_pos u H). rewrite S_INR. field. lra. Qed.
Lemma kuiper_lower u : u <> [] -> / len u <= dpv u + dmv u.
Proof.
  intros H. assert (Hl : (0 < length u)%nat) by (destruct u; [congruence|simpl; lia]).
  pose proof (dpv_ge u 0 Hl). pose proof (dmv_ge u 0 Hl). pose proof (dplus_dminus_i u 0 H Hl). lra.
Qed.
Lemma ks_lower u : u <> [] -> / (2 * len u) <= Rmax (dpv u) (dmv u).
Proof.
  intros H. pose proof (kuiper_lower u H) as K. pose proof (len_pos u H).
  rewrite Rinv_mult. pose proof (Rmax_l (dpv u) (dmv u)). pose proof (Rmax_r (dpv u) (dmv u)). lra.
Qed.
Lemma frac_le1 (u : list R) i : (i < length u)%nat -> INR (S i) / len u <= 1.
Proof.
  intros H. assert (0 < len u) by (apply lt_0_INR; lia).
  apply (Rmult_le_reg_r (len u)); auto. unfold Rdiv. rewrite Rmult_assoc, Rinv_l, Rmult_1_r, Rmult_1_l by lra.
  apply le_INR. lia.
Qed.
Lemma frac_ge0 (u : list R) i : 0 <= INR i / len u.
Proof.
  destruct u; [unfold len; simpl; unfold Rdiv; rewrite Rinv_0; lra|].
  apply Rmult_le_pos; [apply pos_INR|]. left. apply Rinv_0_lt_compat. apply len_pos. discriminate.
Qed.
Lemma dpv_le1 u : u <> [] -> in01 u -> dpv u <= 1.
Proof.
  intros H Hu. destruct (dpv_att u H) as (i & Hi & ->). pose proof (frac_le1 u i Hi).
  assert (0 <= nth i u 0 <= 1) by (apply Hu, nth_In; lia). lra.
Qed.
Lemma dmv_le1 u : u <> [] -> in01 u -> dmv u <= 1.
Proof.
  intros H Hu. destruct (dmv_att u H) as (i & Hi & ->). pose proof (frac_ge0 u i).
  assert (0 <= nth i u 0 <= 1) by (apply Hu, nth_In; lia). lra.
Qed.
Lemma kuiper_le1 u : u <> [] -> in01 u -> sortedR u -> dpv u + dmv u <= 1.
Proof.
  intros H Hu Hs. destruct (dpv_att u H) as (i & Hi & ->). destruct (dmv_att u H) as (j & Hj & ->).
  assert (0 <= nth i u 0 <= 1) by (apply Hu, nth_In; lia).
  assert (0 <= nth j u 0 <= 1) by (apply Hu, nth_In; lia).
  pose proof (len_pos u H).
  assert (E : INR (S i) / len u - nth i u 0 + (nth j u 0 - INR j / len u)
              = nth j u 0 - nth i u 0 + (INR (S i) - INR j) / len u) by (field; lra).
  rewrite E. destruct (le_lt_dec j i) as [L|L].
  - assert (nth j u 0 <= nth i u 0) by (apply sorted_nth_le; auto; lia).
    assert ((INR (S i) - INR j) / len u <= 1); [|lra].
    pose proof (frac_le1 u i Hi). pose proof (frac_ge0 u j). unfold Rdiv in *. lra.
  - assert ((INR (S i) - INR j) / len u <= 0); [|lra].
    apply (Rmult_le_reg_r (len u)); auto. unfold Rdiv. rewrite Rmult_assoc, Rinv_l, Rmult_0_l, Rmult_1_r by lra.
    assert (INR (S i) <= INR j) by (apply le_INR; lia). lra.
Qed.

(** ** Cramer-von Mises in closed form *)
Lemma sum_odd n : Rsum (map (fun i => 2 * INR (S i) - 1) (seq 0 n)) = INR n ^ 2.
Proof.
  induction n as [|n IH]; [simpl; lra|]. rewrite seq_S, map_app, Rsum_app, IH. simpl plus. cbn [map Rsum].
  rewrite !S_INR. ring.
Qed.
Lemma sum_odd_sq n : Rsum (map (fun i => (2 * INR (S i) - 1) ^ 2) (seq 0 n)) = INR n * (4 * INR n ^ 2 - 1) / 3.
Proof.
  induction n as [|n IH]; [simpl; lra|]. rewrite seq_S, map_app, Rsum_app, IH. simpl plus. cbn [map Rsum].
  rewrite !S_INR. field.
Qed.
(** sum (2i-1) u_(i) *)
Definition wsum (u : list R) : R := Rsum (imap (fun i x => (2 * INR (S i) - 1) * x) u).
Lemma wsum_snoc u x : wsum (u ++ [x]) = wsum u + (2 * len u + 1) * x.
Proof.
  unfold wsum. rewrite imap_snoc, Rsum_app. cbn [Rsum]. unfold len. rewrite S_INR. ring.
Qed.
Lemma Rsum_imap_plus {A} (f g : nat -> A -> R) l :
  Rsum (imap (fun i x => f i x + g i x) l) = Rsum (imap f l) + Rsum (imap g l).
Proof. unfold imap. generalize 0%nat. induction l as [|x l IH]; intros k; simpl; [lra|]. rewrite IH; lra. Qed.
Lemma Rsum_imap_minus {A} (f g : nat -> A -> R) l :
  Rsum (imap (fun i x => f i x - g i x) l) = Rsum (imap f l) - Rsum (imap g l).
Proof. unfold imap. generalize 0%nat. induction l as [|x l IH]; intros k; simpl; [lra|]. rewrite IH; lra. Qed.
Lemma Rsum_imap_scal {A} c (f : nat -> A -> R) l : Rsum (imap (fun i x => c * f i x) l) = c * Rsum (imap f l).
Proof. unfold imap. generalize 0%nat. induction l as [|x l IH]; intros k; simpl; [lra|]. rewrite IH; lra. Qed.
Lemma Rsum_imap_ext {A} (f g : nat -> A -> R) l :
  (forall i x, (i < length l)%nat -> In x l -> f i x = g i x) -> Rsum (imap f l) = Rsum (imap g l).
Proof. intros H. f_equal. apply imap_ext, H. Qed.
Lemma Rsum_imap_idx {A} (f : nat -> R) (l : list A) : Rsum (imap (fun i _ => f i) l) = Rsum (map f (seq 0 (length l))).
Proof. destruct l as [|a l]; [reflexivity|]. rewrite (imap_seq _ _ a). reflexivity. Qed.
Lemma Rsum_imap_val {A} (f : A -> R) (l : list A) : Rsum (imap (fun _ x => f x) l) = Rsum (map f l).
Proof. rewrite imap_perm_const. reflexivity. Qed.

Definition sumsq (u : list R) : R := Rsum (map (fun x => x ^ 2) u).
Lemma cvm_closed u : u <> [] ->
  1 / (12 * len u) + Rsum (imap (fun i x => ((2 * INR (S i) - 1) / (2 * len u) - x) ^ 2) u)
  = len u / 3 + sumsq u - wsum u / len u.
Proof.
  intros H. pose proof (len_pos u H) as HL. unfold sumsq.
  rewrite (Rsum_imap_ext _ (fun i x => / (4 * len u ^ 2) * (2 * INR (S i) - 1) ^ 2
     + (x ^ 2 - / len u * ((2 * INR (S i) - 1) * x)))) by (intros; field; lra).
  rewrite Rsum_imap_plus, Rsum_imap_minus, Rsum_imap_val, !Rsum_imap_scal, Rsum_imap_idx, sum_odd_sq.
  fold (wsum u). change (INR (length u)) with (len u). field. lra.
Qed.
Lemma cvm_eval u : u <> [] -> cvm_do_execute u = Ok (len u / 3 + sumsq u - wsum u / len u).
Proof. intros H. rewrite <- cvm_closed by exact H. destruct u; [congruence|reflexivity]. Qed.

(** Chebyshev-type inequality *)
Lemma wsum_ge u : sortedR u -> len u * Rsum u <= wsum u.
Proof.
  induction u as [|x u IH] using rev_ind; intros H; [unfold len, wsum, imap; simpl; lra|].
  apply sorted_snoc in H. destruct H as [Hs Hx]. specialize (IH Hs).
  rewrite wsum_snoc, len_snoc, Rsum_app. cbn [Rsum].
  assert (Rsum u <= len u * x).
  { replace (len u * x) with (Rsum (map (fun _ => x) u)) by (rewrite Rsum_map_const; reflexivity).
    rewrite <- (map_id u) at 1. apply Rsum_map_le. exact Hx. }
  nra.
Qed.
Lemma sumsq_le u : in01 u -> sumsq u <= Rsum u.
Proof.
  intros H. unfold sumsq. rewrite <- (map_id u) at 2. apply Rsum_map_le. intros x Hx.
  specialize (H x Hx). nra.
Qed.
Lemma cvm_upper u : u <> [] -> in01 u -> sortedR u -> len u / 3 + sumsq u - wsum u / len u <= len u / 3.
Proof.
  intros H H01 Hs. pose proof (len_pos u H). pose proof (wsum_ge u Hs). pose proof (sumsq_le u H01).
  assert (Rsum u <= wsum u / len u).
  { apply (Rmult_le_reg_r (len u)); auto. unfold Rdiv. rewrite Rmult_assoc, Rinv_l by lra. lra. }
  lra.
Qed.
Lemma cvm_lower u : u <> [] -> 1 / (12 * len u) <= len u / 3 + sumsq u - wsum u / len u.
Proof.
  intros H. rewrite <- cvm_closed by exact H.
  assert (0 <= Rsum (imap (fun i x => ((2 * INR (S i) - 1) / (2 * len u) - x) ^ 2) u)); [|lra].
  apply Rsum_nonneg. intros y Hy. apply imap_in in Hy. destruct Hy as (i & x & _ & ->). apply pow2_ge_0.
Qed.

(** ** Watson *)
Lemma wsum_shift u c : Rsum (imap (fun i x => (x - (2 * INR (S i) - 1) / (2 * len u) + c) ^ 2) u)
  = Rsum (imap (fun i x => (x - (2 * INR (S i) - 1) / (2 * len u)) ^ 2) u)
    + 2 * c * (Rsum u - len u / 2) + len u * c ^ 2.
Proof.
  destruct u as [|a u0] eqn:E; [unfold len, imap; simpl; lra|]. rewrite <- E.
  assert (Hne : u <> []) by (subst; discriminate). clear E a u0. pose proof (len_pos u Hne) as HL.
  rewrite (Rsum_imap_ext _ (fun i x => (x - (2 * INR (S i) - 1) / (2 * len u)) ^ 2
     + (2 * c * (x - / (2 * len u) * (2 * INR (S i) - 1)) + c ^ 2))) by (intros; field; lra).
  rewrite Rsum_imap_plus, Rsum_imap_plus. rewrite Rsum_imap_scal, Rsum_imap_minus, Rsum_imap_val, map_id, Rsum_imap_scal.
  rewrite Rsum_imap_idx, sum_odd, Rsum_imap_val, Rsum_map_const. change (INR (length u)) with (len u). field. lra.
Qed.
Definition watson_val (u : list R) : R :=
  1 / (12 * len u) + Rsum (imap (fun i x => (x - (2 * INR (S i) - 1) / (2 * len u) - (mean u - 1 / 2)) ^ 2) u).
Lemma watson_center u : u <> [] ->
  watson_val u = 1 / (12 * len u) + Rsum (imap (fun i x => (x - (2 * INR (S i) - 1) / (2 * len u)) ^ 2) u)
                 - len u * (mean u - 1 / 2) ^ 2.
Proof.
  intros H. pose proof (len_pos u H). unfold watson_val.
  rewrite (Rsum_imap_ext (fun i x => (x - (2 * INR (S i) - 1) / (2 * len u) - (mean u - 1 / 2)) ^ 2)
     (fun i x => (x - (2 * INR (S i) - 1) / (2 * len u) + - (mean u - 1 / 2)) ^ 2)) by (intros; ring).
  assert (E : Rsum u = len u * mean u) by (unfold mean; field; lra).
  rewrite (wsum_shift u (- (mean u - 1 / 2))), E. field; lra.
Qed.
Lemma sq_sym_sum u : Rsum (imap (fun i x => ((2 * INR (S i) - 1) / (2 * len u) - x) ^ 2) u)
  = Rsum (imap (fun i x => (x - (2 * INR (S i) - 1) / (2 * len u)) ^ 2) u).
Proof. apply Rsum_imap_ext. intros. ring. Qed.
Lemma watson_eval u : u <> [] -> watson_of u = Ok (watson_val u).
Proof.
  intros H. unfold watson_of. rewrite watson_center by exact H. rewrite <- sq_sym_sum.
  destruct u as [|a u0] eqn:E; [congruence|]. unfold cvm_do_execute. cbn [bind]. f_equal. lra.
Qed.
Lemma watson_gamma_eval u : u <> [] -> watson_gamma_of u = Ok (watson_val u).
Proof.
  intros H. rewrite watson_center by exact H. pose proof (len_pos u H).
  assert (E : Rsum u = len u * mean u) by (unfold mean; field; lra).
  destruct u as [|a u0] eqn:Eu; [congruence|]. rewrite <- Eu in *. unfold watson_gamma_of. rewrite Eu at 1.
  f_equal. rewrite E. field. lra.
Qed.
Lemma watson_lower u : 1 / (12 * len u) <= watson_val u.
Proof.
  unfold watson_val.
  match goal with |- _ <= _ + Rsum ?l => assert (0 <= Rsum l); [|lra] end.
  apply Rsum_nonneg. intros y Hy. apply imap_in in Hy. destruct Hy as (i & x & _ & ->). apply pow2_ge_0.
Qed.
(** the uniform.py variant *)
Lemma watson_uniform_eval z : z <> [] -> watson_uniform_of z = Ok (watson_val z / len z + 1 / 4).
Proof.
  intros H. pose proof (len_pos z H). rewrite watson_center by exact H.
  assert (E : Rsum z = len z * mean z) by (unfold mean; field; lra).
  destruct z as [|a z0] eqn:Ez; [congruence|]. rewrite <- Ez in *. unfold watson_uniform_of. rewrite Ez at 1.
  f_equal.
  rewrite (Rsum_imap_ext _ (fun i x => (x - (2 * INR (S i) - 1) / (2 * len z) + - mean z) ^ 2)).
  - rewrite wsum_shift, E. field. lra.
  - intros i x _ _. replace 0.5 with (1 / 2) by lra. field. lra.
Qed.
