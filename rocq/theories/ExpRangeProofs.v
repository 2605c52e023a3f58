(** Values of the exponentiality statistics on positive samples. *)
From Coq Require Import String.
From Verif Require Import Base DecModel Analysis EdfModel EdfProofs GraphModel GraphInvProofs ExpModel ExpSpec ExpProofs.
From Coq Require Import Lra Lia.


Lemma Rsum_pos l : l <> [] -> positive l -> 0 < Rsum l.
Proof.
  intros Hn Hp. destruct l as [|a l]; [congruence|]. cbn [Rsum].
  pose proof (Hp a (or_introl eq_refl)).
  assert (0 <= Rsum l) by (apply Rsum_nonneg; intros z Hz; left; apply Hp; now right). lra.
Qed.
Lemma mean_pos l : l <> [] -> positive l -> 0 < mean l.
Proof. intros Hn Hp. unfold mean. apply Rdiv_lt_0_compat; [now apply Rsum_pos|now apply len_pos]. Qed.
Lemma nonempty_true l : l <> [] -> nonempty l = true.
Proof. destruct l; [congruence|reflexivity]. Qed.
Lemma Reqb_pos x : 0 < x -> Reqb x 0 = false.
Proof. intros H. destruct (Reqb_spec x 0); [lra|reflexivity]. Qed.
Lemma positive_rsort l : positive l -> positive (rsort l).
Proof. intros H x Hx. apply H. now apply rsort_in. Qed.
Lemma match_ne {B} (l : list R) (a b : B) : l <> [] -> match l with [] => a | _ :: _ => b end = b.
Proof. destruct l; [congruence|reflexivity]. Qed.
Lemma rsort_ne l : l <> [] -> rsort l <> [].
Proof. intros H E. now apply H, rsort_nil_iff. Qed.
Lemma Rsum_rsort l : Rsum (rsort l) = Rsum l.
Proof. apply Rsum_perm, rsort_perm. Qed.
Lemma mean_rsort l : mean (rsort l) = mean l.
Proof. apply mean_perm', rsort_perm. Qed.
Lemma all_pos_true l : positive l -> all_pos l = true.
Proof. intros H. apply forallb_forall. intros x Hx. now apply Rltb_true, H. Qed.
Lemma all_nonneg_true l : positive l -> all_nonneg l = true.
Proof. intros H. apply forallb_forall. intros x Hx. apply Rleb_true. left. now apply H. Qed.
Lemma positive_ratio l : l <> [] -> positive l -> positive (map (fun x => x / mean l) l).
Proof.
  intros Hn Hp y Hy. apply in_map_iff in Hy. destruct Hy as (x & <- & Hx).
  apply Rdiv_lt_0_compat; [now apply Hp|now apply mean_pos].
Qed.
Lemma Rsum_ratio l : l <> [] -> mean l <> 0 -> Rsum (map (fun x => x / mean l) l) = len l.
Proof.
  intros Hn Hm. unfold Rdiv. rewrite (Rsum_map_scal_r (/ mean l) (fun x => x)), map_id.
  unfold mean in *. pose proof (len_pos _ Hn). field. split; [lra|]. intros E. apply Hm. rewrite E. unfold Rdiv. ring.
Qed.
Lemma mean_ratio l : l <> [] -> mean l <> 0 -> mean (map (fun x => x / mean l) l) = 1.
Proof. intros Hn Hm. unfold mean at 1. rewrite Rsum_ratio, len_map by auto. pose proof (len_pos _ Hn). field. lra. Qed.
Lemma Rsum_const_bounds {A} (f : A -> R) l lo hi : (forall x, In x l -> lo <= f x <= hi) ->
  len l * lo <= Rsum (map f l) <= len l * hi.
Proof.
  intros H. unfold len. rewrite <- !Rsum_map_const. split; apply Rsum_map_le; intros x Hx; apply H, Hx.
Qed.
Lemma ind_bounds b : 0 <= ind b <= 1.
Proof. destruct b; simpl; lra. Qed.
Lemma div_bounds x d lo hi : 0 < d -> lo * d <= x <= hi * d -> lo <= x / d <= hi.
Proof.
  intros Hd [H1 H2]. split; (apply Rmult_le_reg_r with d; [exact Hd|]); replace (x / d * d) with x by (field; lra); lra.
Qed.

(** ** Epps-Pulley *)
Lemma ep_range l : l <> [] -> positive l -> exists v, ep l = Ok (Fin v) /\
  sqrt (48 * len l) * (exp (-1) - 1 / 2) <= v < sqrt (48 * len l) / 2.
Proof.
  intros Hn Hp. eexists. split.
  { unfold ep, fin_if. rewrite nonempty_true, Reqb_pos by (auto; now apply mean_pos). reflexivity. }
  pose proof (len_pos _ Hn) as Hl. pose proof (mean_pos _ Hn Hp) as Hm.
  assert (Hs : 0 < sqrt (48 * len l)) by (apply sqrt_lt_R0; lra).
  set (S := Rsum _).
  replace (sqrt (48 * len l) * S / len l) with (sqrt (48 * len l) * (S / len l)) by (field; lra).
  assert (B1 : exp (-1) - 1 / 2 <= S / len l).
  { apply Rmult_le_reg_r with (len l); [exact Hl|]. replace (S / len l * len l) with S by (field; lra).
    assert (E : Rsum (map (fun x => exp (-1) * (1 - (x / mean l - 1)) - 1 / 2) l) = (exp (-1) - 1 / 2) * len l).
    { rewrite (Rsum_map_ext _ (fun x => (2 * exp (-1) - 1 / 2) + (- exp (-1)) * (x / mean l))) by (intros; ring).
      rewrite Rsum_map_plus, Rsum_map_const, Rsum_map_scal, Rsum_ratio by (auto; lra). fold (len l). ring. }
    rewrite <- E. apply Rsum_map_le. intros x Hx.
    replace (- (x / mean l)) with (-1 + (1 - x / mean l)) by ring. rewrite exp_plus.
    pose proof (exp_ineq1_le (1 - x / mean l)). pose proof (exp_pos (-1)). nra. }
  assert (B2 : S / len l < 1 / 2).
  { apply Rmult_lt_reg_r with (len l); [exact Hl|]. replace (S / len l * len l) with S by (field; lra).
    unfold S. destruct l as [|a l]; [congruence|]. cbn [map Rsum].
    assert (T : forall x, In x (a :: l) -> exp (- (x / mean (a :: l))) < 1).
    { intros x Hx. rewrite <- exp_0. apply exp_increasing. assert (0 < x / mean (a :: l)) by (apply Rdiv_lt_0_compat; auto). lra. }
    pose proof (T a (or_introl eq_refl)).
    assert (Rsum (map (fun x => exp (- (x / mean (a :: l))) - 1 / 2) l) <= len l * (1 / 2)).
    { unfold len. rewrite <- Rsum_map_const. apply Rsum_map_le. intros x Hx. pose proof (T x (or_intror Hx)). lra. }
    unfold len in *. cbn [length] in *. rewrite S_INR in *. lra. }
  split; [apply Rmult_le_compat_l; lra|]. unfold Rdiv at 2. rewrite <- (Rmult_1_l (/ 2)). apply Rmult_lt_compat_l; lra.
Qed.

(** ** sums over pairs *)
Lemma sum_others_le f g l : (forall x r, In x l -> incl r l -> length r = (length l - 1)%nat -> f x r <= g x r) -> sum_others f l <= sum_others g l.
Proof.
  revert f g. induction l as [|x l IH]; intros f g H; simpl; [lra|].
  apply Rplus_le_compat.
  - apply H; [now left|intros z; now right|simpl; lia].
  - apply IH. intros y r Hy Hr Hl. apply H; [now right| |].
    + intros z [->|Hz]; [now left|right; now apply Hr].
    + destruct l; [destruct Hy|simpl in *; lia].
Qed.
Lemma sum_others_const k l : sum_others (fun _ _ => k) l = len l * k.
Proof.
  induction l as [|x l IH]; [unfold len; simpl; ring|]. cbn [sum_others]. rewrite IH.
  unfold len. cbn [length]. rewrite S_INR. ring.
Qed.
Lemma sum_pairs_le f g l : (forall x y, In x l -> In y l -> f x y <= g x y) -> sum_pairs f l <= sum_pairs g l.
Proof.
  induction l as [|x l IH]; intros H; simpl; [lra|]. apply Rplus_le_compat.
  - apply Rsum_map_le. intros y Hy. apply H; [now left|now right].
  - apply IH. intros; apply H; now right.
Qed.
Lemma sum_pairs_const k l : sum_pairs (fun _ _ => k) l = len l * (len l - 1) / 2 * k.
Proof.
  induction l as [|x l IH]; [unfold len; simpl; field|]. cbn [sum_pairs]. rewrite IH, Rsum_map_const.
  unfold len. cbn [length]. rewrite S_INR. field.
Qed.
Lemma sum_triples_le f g l : (forall x y z, f x y z <= g x y z) -> sum_triples f l <= sum_triples g l.
Proof.
  intros H. induction l as [|x l IH]; simpl; [lra|]. apply Rplus_le_compat; [|exact IH].
  apply sum_pairs_le. intros; apply H.
Qed.
Lemma sum_triples_const k l : sum_triples (fun _ _ _ => k) l = len l * (len l - 1) * (len l - 2) / 6 * k.
Proof.
  induction l as [|x l IH]; [unfold len; simpl; field|]. cbn [sum_triples]. rewrite IH, sum_pairs_const.
  unfold len. cbn [length]. rewrite S_INR. field.
Qed.
(** ordered pairs = both orders of the unordered pairs *)
Lemma sum_others_pairs_gen (f : R -> R -> R) (h : R -> R) l :
  sum_others (fun x r => h x + Rsum (map (f x) r)) l
  = Rsum (map h l) + sum_pairs (fun x y => f x y + f y x) l.
Proof.
  revert h. induction l as [|x l IH]; intros h; simpl; [ring|].
  rewrite (sum_others_ext _ (fun y r => (h y + f y x) + Rsum (map (f y) r))) by (intros; simpl; ring).
  rewrite IH. rewrite !Rsum_map_plus. ring.
Qed.
Lemma sum_others_pairs (f : R -> R -> R) l :
  sum_others (fun x r => Rsum (map (f x) r)) l = sum_pairs (fun x y => f x y + f y x) l.
Proof.
  rewrite (sum_others_ext _ (fun x r => 0 + Rsum (map (f x) r))) by (intros; ring).
  rewrite (sum_others_pairs_gen f (fun _ => 0)), Rsum_map_const. ring.
Qed.
Lemma sum_pairs_add l : sum_pairs (fun x y => x + y) l = (len l - 1) * Rsum l.
Proof.
  induction l as [|x l IH]; [unfold len; simpl; ring|]. cbn [sum_pairs Rsum]. rewrite IH.
  rewrite Rsum_map_plus, Rsum_map_const, map_id. unfold len. cbn [length]. rewrite S_INR. ring.
Qed.

(** ** Deshpande: at least one half for 0 <= b < 1 *)
Lemma len_ge2 {A} (l : list A) : (2 <= length l)%nat -> 2 <= len l.
Proof. intros H. unfold len. apply le_INR in H. simpl in H. lra. Qed.
Lemma dsp_any b l : (2 <= length l)%nat -> exists v, dsp b l = Ok (Fin v) /\ 0 <= v <= 1.
Proof.
  intros Hn. eexists. split.
  { unfold dsp. destruct (Nat.leb_spec (length l) 1); [lia|]. reflexivity. }
  pose proof (len_ge2 _ Hn). apply div_bounds; [nra|]. rewrite sum_others_pairs.
  pose proof (sum_pairs_const 0 l). pose proof (sum_pairs_const 2 l).
  assert (sum_pairs (fun _ _ => 0) l <= sum_pairs (fun x y => ind (Rltb (b * y) x) + ind (Rltb (b * x) y)) l
          <= sum_pairs (fun _ _ => 2) l).
  { split; apply sum_pairs_le; intros x y _ _; pose proof (ind_bounds (Rltb (b * y) x)); pose proof (ind_bounds (Rltb (b * x) y)); lra. }
  split; nra.
Qed.
Lemma dsp_half b l : (2 <= length l)%nat -> positive l -> b < 1 -> exists v, dsp b l = Ok (Fin v) /\ 1 / 2 <= v <= 1.
Proof.
  intros Hn Hp Hb. destruct (dsp_any b l Hn) as (v & E & Hv). exists v. split; [exact E|]. split; [|lra].
  unfold dsp in E. destruct (Nat.leb_spec (length l) 1); [lia|]. inversion E as [E']. clear E. rewrite E'. subst v. 
  rewrite sum_others_pairs. pose proof (len_ge2 _ Hn).
  apply Rmult_le_reg_r with (len l * (len l - 1)); [nra|].
  set (S := sum_pairs _ l). replace (S / (len l * (len l - 1)) * (len l * (len l - 1))) with S by (field; nra).
  pose proof (sum_pairs_const 1 l) as C1. assert (sum_pairs (fun _ _ => 1) l <= S).
  { apply sum_pairs_le. intros x y Hx Hy. apply Hp in Hx. apply Hp in Hy.
    destruct (Rltb_spec (b * y) x), (Rltb_spec (b * x) y); simpl; try lra. exfalso. nra. }
  lra.
Qed.
(** ** Hollander-Proshan *)
Lemma hp_range l : (3 <= length l)%nat -> exists v, hp l = Ok (Fin v) /\ 0 <= v <= 1.
Proof.
  intros Hn. eexists. split.
  { unfold hp. destruct (Nat.leb_spec (length l) 2); [lia|]. reflexivity. }
  set (n := len l). assert (Hn' : 3 <= n) by (unfold n, len; apply le_INR in Hn; simpl in Hn; lra).
  set (S := sum_others _ l).
  assert (B : 0 <= S <= n * ((n - 1) * (n - 2) / 2)).
  { split.
    - replace 0 with (sum_others (fun _ _ => 0) l) by (rewrite sum_others_const; ring).
      apply sum_others_le. intros x r _ _ _. rewrite <- (Rmult_0_r (len r * (len r - 1) / 2)), <- sum_pairs_const.
      apply sum_pairs_le. intros. apply ind_bounds.
    - unfold n. rewrite <- sum_others_const. apply sum_others_le. intros x r _ _ Hr.
      apply Rle_trans with (sum_pairs (fun _ _ => 1) r).
      + apply sum_pairs_le. intros. apply ind_bounds.
      + rewrite sum_pairs_const. assert (E : len r = len l - 1) by (unfold len; rewrite Hr, minus_INR by lia; reflexivity).
        rewrite E. right. field. }
  assert (0 < n * (n - 1) * (n - 2)) by (apply Rmult_lt_0_compat; nra).
  replace (2 / (n * (n - 1) * (n - 2)) * S) with (2 * S / (n * (n - 1) * (n - 2))) by (field; lra).
  apply div_bounds; [assumption|]. lra.
Qed.
(** ** Ahsanullah and Rossberg *)
Lemma triple_sum_bounds (f : R -> R -> R -> bool) l :
  0 <= Rsum (map (fun k => Rsum (map (fun i => Rsum (map (fun j => ind (f k i j)) l)) l)) l) <= len l ^ 3.
Proof.
  assert (H1 : forall k i, 0 <= Rsum (map (fun j => ind (f k i j)) l) <= len l).
  { intros k i. pose proof (Rsum_const_bounds (fun j => ind (f k i j)) l 0 1 (fun x _ => ind_bounds _)). lra. }
  assert (H2 : forall k, 0 <= Rsum (map (fun i => Rsum (map (fun j => ind (f k i j)) l)) l) <= len l ^ 2).
  { intros k. pose proof (Rsum_const_bounds (fun i => Rsum (map (fun j => ind (f k i j)) l)) l 0 (len l) (fun x _ => H1 k x)). simpl. lra. }
  pose proof (Rsum_const_bounds (fun k => Rsum (map (fun i => Rsum (map (fun j => ind (f k i j)) l)) l)) l 0 (len l ^ 2) (fun x _ => H2 x)).
  simpl in *. lra.
Qed.
Lemma ahs_range l : l <> [] -> exists v, ahs l = Ok (Fin v) /\ -1 <= v <= 1.
Proof.
  intros Hn. eexists. split; [unfold ahs; destruct l; [congruence|reflexivity]|].
  pose proof (len_pos _ Hn) as Hl. apply div_bounds; [now apply pow_lt|].
  pose proof (triple_sum_bounds (fun k i j => Rltb (Rabs (i - j)) k) l).
  pose proof (triple_sum_bounds (fun k i j => Rltb (2 * Rmin i j) k) l). simpl in *. lra.
Qed.
Lemma fact_ratio3 n : (3 <= n)%nat -> INR (fact n) = INR n * (INR n - 1) * (INR n - 2) * INR (fact (n - 3)).
Proof.
  intros H. destruct n as [|[|[|n]]]; try lia. replace (S (S (S n)) - 3)%nat with n by lia.
  rewrite !fact_simpl, !mult_INR, !S_INR. ring.
Qed.
Lemma fact_ratio2 n : (2 <= n)%nat -> INR (fact n) = INR n * (INR n - 1) * INR (fact (n - 2)).
Proof.
  intros H. destruct n as [|[|n]]; try lia. replace (S (S n) - 2)%nat with n by lia.
  rewrite !fact_simpl, !mult_INR, !S_INR. ring.
Qed.
Lemma rs_range l : (3 <= length l)%nat -> exists v, rs l = Ok (Fin v) /\ -1 <= v <= 1.
Proof.
  intros Hn. eexists. split.
  { unfold rs. destruct (length l) as [|[|[|n]]] eqn:E; try lia. rewrite <- E. reflexivity. }
  assert (Hl : 3 <= len l) by (unfold len; apply le_INR in Hn; simpl in Hn; lra).
  fold (len l). apply div_bounds; [lra|].
  assert (F3 : 0 < INR (fact (length l - 3))) by (apply INR_pos, lt_O_fact).
  assert (F2 : 0 < INR (fact (length l - 2))) by (apply INR_pos, lt_O_fact).
  pose proof (fact_ratio3 _ Hn) as E3. pose proof (fact_ratio2 (length l) ltac:(lia)) as E2. fold (len l) in E3, E2.
  set (n := len l) in *.
  assert (P3 : 0 < n * (n - 1) * (n - 2)) by (apply Rmult_lt_0_compat; nra).
  assert (P2 : 0 < n * (n - 1)) by nra.
  assert (H3 : forall xm, 0 <= 6 * INR (fact (length l - 3)) / INR (fact (length l)) * sum_triples (rs_h xm) l <= 1).
  { intros xm. pose proof (sum_triples_le (fun _ _ _ => 0) (rs_h xm) l (fun _ _ _ => proj1 (ind_bounds _))) as A.
    pose proof (sum_triples_le (rs_h xm) (fun _ _ _ => 1) l (fun _ _ _ => proj2 (ind_bounds _))) as B.
    rewrite sum_triples_const in A, B. fold n in A, B. rewrite E3.
    replace (6 * INR (fact (length l - 3)) / (n * (n - 1) * (n - 2) * INR (fact (length l - 3))) * sum_triples (rs_h xm) l)
      with (6 * sum_triples (rs_h xm) l / (n * (n - 1) * (n - 2))) by (field; repeat split; lra).
    apply div_bounds; [exact P3|]. lra. }
  assert (H2 : forall xm, 0 <= 2 * INR (fact (length l - 2)) / INR (fact (length l)) * sum_pairs (rs_g xm) l <= 1).
  { intros xm. pose proof (sum_pairs_le (fun _ _ => 0) (rs_g xm) l (fun _ _ _ _ => proj1 (ind_bounds _))) as A.
    pose proof (sum_pairs_le (rs_g xm) (fun _ _ => 1) l (fun _ _ _ _ => proj2 (ind_bounds _))) as B.
    rewrite sum_pairs_const in A, B. fold n in A, B. rewrite E2.
    replace (2 * INR (fact (length l - 2)) / (n * (n - 1) * INR (fact (length l - 2))) * sum_pairs (rs_g xm) l)
      with (2 * sum_pairs (rs_g xm) l / (n * (n - 1))) by (field; repeat split; lra).
    apply div_bounds; [exact P2|]. lra. }
  pose proof (Rsum_const_bounds _ l 0 1 (fun x _ => H3 x)). pose proof (Rsum_const_bounds _ l 0 1 (fun x _ => H2 x)).
  fold n in H, H0. lra.
Qed.
(** ** Gini *)
Lemma sorted_cons_inv x l : sortedR (x :: l) -> sortedR l /\ forall y, In y l -> x <= y.
Proof. intros H. inversion H; subst. split; [assumption|]. now rewrite <- Forall_forall. Qed.
Lemma gap_sum k x l : sortedR (x :: l) ->
  Rsum (imap_from k (fun i g => g * (INR (S i) * (INR k + INR (length (x :: l)) - INR (S i)))) (diff (x :: l)))
  = sum_pairs (fun a b => Rabs (a - b)) (x :: l) + INR k * Rsum (map (fun y => y - x) l).
Proof.
  revert k x. induction l as [|y l IH]; intros k x Hs; [simpl; ring|].
  destruct (sorted_cons_inv _ _ Hs) as [Hs' Hx]. specialize (IH (S k) y Hs').
  assert (E : Rsum (imap_from (S k) (fun i g => g * (INR (S i) * (INR k + INR (length (x :: y :: l)) - INR (S i)))) (diff (y :: l)))
              = Rsum (imap_from (S k) (fun i g => g * (INR (S i) * (INR (S k) + INR (length (y :: l)) - INR (S i)))) (diff (y :: l)))).
  { f_equal. apply imap_from_ext. intros i g _ _. f_equal. f_equal. cbn [length]. rewrite !S_INR. ring. }
  change (diff (x :: y :: l)) with ((y - x) :: diff (y :: l)). cbn [imap_from Rsum]. rewrite E, IH.
  change (sum_pairs (fun a b => Rabs (a - b)) (x :: y :: l))
    with (Rsum (map (fun b => Rabs (x - b)) (y :: l)) + sum_pairs (fun a b => Rabs (a - b)) (y :: l)).
  rewrite (Rsum_map_ext (fun b => Rabs (x - b)) (fun b => b - x)).
  2:{ intros b Hb. specialize (Hx b Hb). rewrite Rabs_left1; lra. }
  rewrite !Rsum_map_minus, !Rsum_map_const. cbn [map Rsum length]. rewrite map_id, !S_INR. ring.
Qed.
Definition pair_distances (l : list R) : R := sum_pairs (fun a b => Rabs (a - b)) l.
Lemma pair_distances_perm l l' : Permutation l l' -> pair_distances l = pair_distances l'.
Proof. intros P. apply sum_pairs_perm; [exact P|]. intros x y. apply Rabs_minus_sym. Qed.
Lemma gini_pairs l : (2 <= length l)%nat -> Rsum l <> 0 ->
  gini l = Ok (Fin (pair_distances l / ((len l - 1) * Rsum l))).
Proof.
  intros Hn Hs. unfold gini, fin_if. rewrite Rsum_rsort. destruct (Nat.leb_spec 2 (length l)); [|lia].
  destruct (Reqb_spec (Rsum l) 0); [congruence|]. cbn [negb andb]. do 3 f_equal.
  rewrite <- (pair_distances_perm _ _ (rsort_perm l)). pose proof (rsort_length l) as Hl. pose proof (rsort_sorted l) as Hso.
  unfold len. rewrite <- Hl in *. destruct (rsort l) as [|x t]; [simpl in *; lia|].
  pose proof (gap_sum 0 x t Hso) as G. unfold imap, pair_distances. rewrite <- (Rplus_0_r (sum_pairs _ _)).
  replace 0 with (INR 0 * Rsum (map (fun y => y - x) t)) at 1 by (simpl; ring). rewrite <- G.
  f_equal. apply imap_from_ext. intros i g _ _. f_equal. f_equal. simpl (INR 0). ring.
Qed.
Lemma pair_distances_bounds l : positive l -> 0 <= pair_distances l <= (len l - 1) * Rsum l.
Proof.
  intros Hp. unfold pair_distances. split.
  - rewrite <- (Rmult_0_r (len l * (len l - 1) / 2)), <- sum_pairs_const. apply sum_pairs_le. intros. apply Rabs_pos.
  - rewrite <- sum_pairs_add. apply sum_pairs_le. intros x y Hx Hy. apply Hp in Hx. apply Hp in Hy. apply Rabs_le. lra.
Qed.
Lemma gini_range l : (2 <= length l)%nat -> positive l -> exists v, gini l = Ok (Fin v) /\ 0 <= v <= 1.
Proof.
  intros Hn Hp. assert (l <> []) by (destruct l; [simpl in Hn; lia|discriminate]).
  pose proof (Rsum_pos _ H Hp). rewrite gini_pairs by (auto; lra). eexists. split; [reflexivity|].
  pose proof (len_ge2 _ Hn). apply div_bounds; [nra|]. pose proof (pair_distances_bounds _ Hp). lra.
Qed.
(** ** Pietra *)
Lemma mean_dev_sum l : l <> [] -> Rsum (map (fun x => x - mean l) l) = 0.
Proof.
  intros Hn. rewrite Rsum_map_minus, Rsum_map_const, map_id. fold (len l). unfold mean. pose proof (len_pos _ Hn). field. lra.
Qed.
Lemma exists_ge_mean l : l <> [] -> exists x, In x l /\ mean l <= x.
Proof.
  intros Hn. exists (Rmaxl 0 l). split; [now apply Rmaxl_in|]. pose proof (len_pos _ Hn).
  unfold mean. apply Rmult_le_reg_r with (len l); [assumption|]. replace (Rsum l / len l * len l) with (Rsum l) by (field; lra).
  rewrite Rmult_comm. unfold len. rewrite <- Rsum_map_const, <- (map_id l) at 1. apply Rsum_map_le. intros x Hx. now apply Rmaxl_ge.
Qed.
Lemma pt_range l : l <> [] -> positive l -> exists v, pt l = Ok (Fin v) /\ 0 <= v <= 1 - 1 / len l.
Proof.
  intros Hn Hp. pose proof (len_pos _ Hn) as Hl. pose proof (mean_pos _ Hn Hp) as Hm.
  eexists. split. { unfold pt, fin_if. rewrite nonempty_true, Reqb_pos by auto. reflexivity. }
  assert (0 < 2 * len l * mean l) by nra. apply div_bounds; [assumption|].
  split; [rewrite Rmult_0_l; apply Rsum_map_nonneg; intros; apply Rabs_pos|].
  assert (E : Rsum (map (fun x => Rabs (x - mean l)) l) = 2 * Rsum (map (fun x => Rmax 0 (mean l - x)) l)).
  { rewrite (Rsum_map_ext _ (fun x => 2 * Rmax 0 (mean l - x) + (x - mean l))).
    - rewrite Rsum_map_plus, Rsum_map_scal, mean_dev_sum by exact Hn. ring.
    - intros x _. unfold Rabs, Rmax. destruct (Rcase_abs _), (Rle_dec _ _); lra. }
  rewrite E. destruct (exists_ge_mean l Hn) as (a & Ha & Hge). apply in_split in Ha. destruct Ha as (l1 & l2 & El).
  assert (P : Permutation l (a :: (l1 ++ l2))) by (rewrite El; symmetry; apply Permutation_middle).
  rewrite (Rsum_map_perm _ _ _ P). cbn [map Rsum]. rewrite Rmax_left by lra.
  assert (B : Rsum (map (fun x => Rmax 0 (mean l - x)) (l1 ++ l2)) <= (len l - 1) * mean l).
  { replace (len l - 1) with (INR (length (l1 ++ l2))).
    - rewrite <- Rsum_map_const. apply Rsum_map_le. intros x Hx.
      assert (0 < x) by (apply Hp; rewrite El; apply in_app_iff in Hx; apply in_app_iff; simpl; tauto).
      apply Rmax_lub; lra.
    - unfold len. rewrite (Permutation_length P). cbn [length]. rewrite S_INR. ring. }
  replace ((1 - 1 / len l) * (2 * len l * mean l)) with (2 * ((len l - 1) * mean l)) by (field; lra). lra.
Qed.
(** ** Lorenz curve *)
Lemma lorenz_below_diagonal l k : sortedR l -> (k <= length l)%nat ->
  Rsum (firstn k l) * len l <= INR k * Rsum l.
Proof.
  intros Hs Hk. destruct (Nat.eq_dec k (length l)) as [->|Hne].
  { rewrite firstn_all. unfold len. lra. }
  rewrite <- (firstn_skipn k l) in Hs. apply sorted_app_inv in Hs. destruct Hs as (_ & Hs2 & H12).
  pose proof (firstn_length_le l Hk) as L1. pose proof (skipn_length k l) as L2.
  assert (Es : Rsum l = Rsum (firstn k l) + Rsum (skipn k l)) by (rewrite <- Rsum_app, firstn_skipn; reflexivity).
  destruct (skipn k l) as [|c t] eqn:Esk; [simpl in L2; lia|].
  assert (B1 : Rsum (firstn k l) <= INR k * c).
  { rewrite <- L1 at 2. rewrite <- Rsum_map_const, <- (map_id (firstn k l)) at 1. apply Rsum_map_le. intros x Hx. apply H12; [exact Hx|now left]. }
  destruct (sorted_cons_inv _ _ Hs2) as [_ Hc].
  assert (B2 : (len l - INR k) * c <= Rsum (c :: t)).
  { unfold len. rewrite <- minus_INR by exact Hk. rewrite <- L2, <- Rsum_map_const. rewrite <- (map_id (c :: t)) at 2.
    apply Rsum_map_le. intros x [->|Hx]; [lra|]. now apply Hc. }
  rewrite Es. pose proof (pos_INR k). assert (INR k <= len l) by (unfold len; now apply le_INR). nra.
Qed.
Lemma floor_le x : 0 <= x -> INR (Z.to_nat (Int_part x)) <= x.
Proof.
  intros H. pose proof (base_Int_part x) as [H1 _]. assert (Hz : (0 <= Int_part x)%Z).
  { destruct (base_Int_part x) as [_ H2]. assert (IZR (Int_part x) > -1) by lra. apply lt_IZR in H0. lia. }
  rewrite INR_IZR_INZ, Z2Nat.id by exact Hz. exact H1.
Qed.
Lemma lz_range p l : l <> [] -> positive l -> 0 <= p <= 1 ->
  exists v, lz_sorted p (rsort l) = Ok (Fin v) /\ 0 <= v <= p.
Proof.
  intros Hn Hp Hpp. pose proof (rsort_ne _ Hn) as Hn'. pose proof (positive_rsort _ Hp) as Hp'.
  pose proof (Rsum_pos _ Hn' Hp') as Hs. pose proof (len_pos _ Hn') as Hl. pose proof (rsort_sorted l) as Hso.
  set (s := rsort l) in *. eexists. split.
  { unfold lz_sorted, fin_if. rewrite Reqb_pos, match_ne by assumption. reflexivity. }
  set (k := Z.to_nat _). assert (Hk : INR k <= len s * p) by (apply floor_le; nra).
  assert (Hkn : (k <= length s)%nat) by (apply INR_le; fold (len s); nra).
  apply div_bounds; [exact Hs|]. split.
  - rewrite Rmult_0_l. apply Rsum_nonneg. intros x Hx. left. apply Hp'.
    rewrite <- (firstn_skipn k s). apply in_app_iff. now left.
  - pose proof (lorenz_below_diagonal s k Hso Hkn) as L. apply Rmult_le_reg_r with (len s); [exact Hl|].
    apply Rle_trans with (1 := L). assert (INR k * Rsum s <= len s * p * Rsum s) by (apply Rmult_le_compat_r; lra). lra.
Qed.
(** ** Shapiro-Wilk *)
Lemma sq_sum_le_sum_sq l : (forall x, In x l -> 0 <= x) -> Rsum (map (fun x => x ^ 2) l) <= Rsum l ^ 2.
Proof.
  induction l as [|x l IH]; intros H; cbn [map Rsum]; [simpl; lra|].
  assert (0 <= x) by (apply H; now left). assert (H' : forall y, In y l -> 0 <= y) by (intros; apply H; now right).
  pose proof (IH H'). pose proof (Rsum_nonneg l H'). simpl in *. nra.
Qed.
Lemma cauchy_sum l : Rsum l ^ 2 <= len l * Rsum (map (fun x => x ^ 2) l).
Proof.
  destruct l as [|a l0]; [unfold len; simpl; lra|]. remember (a :: l0) as l.
  assert (Hn : l <> []) by (subst; discriminate). pose proof (len_pos _ Hn).
  assert (Q : 0 <= Rsum (map (fun x => (x - Rsum l / len l) ^ 2) l)) by (apply Rsum_map_nonneg; intros; apply pow2_ge_0).
  rewrite (Rsum_map_ext _ (fun x => (x ^ 2 + (- 2 * (Rsum l / len l)) * x) + (Rsum l / len l) ^ 2)) in Q by (intros; ring).
  rewrite !Rsum_map_plus, Rsum_map_const, Rsum_map_scal, map_id in Q. fold (len l) in Q.
  assert (0 <= len l * (Rsum (map (fun x => x ^ 2) l) + -2 * (Rsum l / len l) * Rsum l + len l * (Rsum l / len l) ^ 2)) by (apply Rmult_le_pos; lra).
  replace (len l * (Rsum (map (fun x => x ^ 2) l) + -2 * (Rsum l / len l) * Rsum l + len l * (Rsum l / len l) ^ 2))
    with (len l * Rsum (map (fun x => x ^ 2) l) - Rsum l ^ 2) in H0 by (field; lra). lra.
Qed.
Lemma sw_range l : (2 <= length l)%nat -> (exists x y, In x l /\ In y l /\ x <> y) ->
  exists v, sw_sorted (rsort l) = Ok (Fin v) /\ 1 / (len l - 1) ^ 2 <= v <= 1.
Proof.
  intros Hlen (p & q & Hp & Hq & Hpq). rewrite <- rsort_in in Hp. rewrite <- rsort_in in Hq.
  rewrite <- (len_rsort l). rewrite <- (rsort_length l) in Hlen. pose proof (rsort_sorted l) as Hs.
  destruct (rsort l) as [|x0 t]; [simpl in Hlen; lia|]. remember (x0 :: t) as s eqn:Es.
  destruct (sorted_cons_inv x0 t) as [_ Hmin]; [now subst|].
  assert (Hd : forall y, In y s -> 0 <= y - x0) by (intros y Hy; subst s; destruct Hy as [->|Hy]; [lra|specialize (Hmin y Hy); lra]).
  set (n := len s). assert (Hn : 2 <= n) by now apply len_ge2.
  set (d := map (fun y => y - x0) t). set (S := Rsum d). set (Q := Rsum (map (fun x => x ^ 2) d)).
  assert (Hnd : len d = n - 1) by (unfold d, n; rewrite len_map; subst s; unfold len; cbn [length]; rewrite S_INR; ring).
  assert (Hdn : forall x, In x d -> 0 <= x) by (intros x Hx; apply in_map_iff in Hx; destruct Hx as (y & <- & Hy); apply Hd; subst s; now right).
  assert (S1 : Rsum (map (fun y => y - x0) s) = S) by (subst s; cbn [map Rsum]; unfold S, d; ring).
  assert (Hmean : n * (mean s - x0) = S).
  { rewrite <- S1, Rsum_map_minus, Rsum_map_const, map_id. fold (len s). fold n. unfold mean. fold n. field. lra. }
  assert (HSS : Rsum (map (fun x => (x - mean s) ^ 2) s) = Q - S ^ 2 / n).
  { rewrite (Rsum_map_ext _ (fun x => ((x - x0) ^ 2 + (- 2 * (mean s - x0)) * (x - x0)) + (mean s - x0) ^ 2)) by (intros; ring).
    rewrite !Rsum_map_plus, Rsum_map_const, Rsum_map_scal, S1. fold (len s). fold n.
    assert (E : Rsum (map (fun x => (x - x0) ^ 2) s) = Q).
    { subst s. cbn [map Rsum]. unfold Q, d. rewrite map_map. ring. }
    rewrite E. replace (mean s - x0) with (S / n) by (rewrite <- Hmean; field; lra). field. lra. }
  assert (HS : 0 < S).
  { destruct (Rle_lt_or_eq_dec 0 S) as [H|H]; [now apply Rsum_nonneg|exact H|exfalso].
    assert (Z : forall y, In y s -> y = x0).
    { intros y Hy. subst s. destruct Hy as [->|Hy]; [reflexivity|].
      assert (y - x0 = 0); [|lra]. apply (Rsum_zero d Hdn (eq_sym H)). apply in_map_iff. eauto. }
    apply Hpq. rewrite (Z p Hp), (Z q Hq). reflexivity. }
  assert (C1 : S ^ 2 <= (n - 1) * Q) by (rewrite <- Hnd; apply cauchy_sum).
  assert (C2 : Q <= S ^ 2) by now apply sq_sum_le_sum_sq.
  assert (Hpos : 0 < S ^ 2) by now apply pow_lt.
  assert (L : S ^ 2 / n <= (n - 1) * (Q - S ^ 2 / n)).
  { apply Rmult_le_reg_r with n; [lra|]. replace (S ^ 2 / n * n) with (S ^ 2) by (field; lra).
    replace ((n - 1) * (Q - S ^ 2 / n) * n) with (n * ((n - 1) * Q) - (n - 1) * S ^ 2) by (field; lra). nra. }
  assert (U : (n - 1) * (Q - S ^ 2 / n) <= (n - 1) ^ 2 * (S ^ 2 / n)).
  { apply Rmult_le_reg_r with n; [lra|].
    replace ((n - 1) * (Q - S ^ 2 / n) * n) with ((n - 1) * (n * Q - S ^ 2)) by (field; lra).
    replace ((n - 1) ^ 2 * (S ^ 2 / n) * n) with ((n - 1) * ((n - 1) * S ^ 2)) by (field; lra).
    apply Rmult_le_compat_l; nra. }
  assert (0 < S ^ 2 / n) by (apply Rdiv_lt_0_compat; lra).
  exists (S ^ 2 / n / ((n - 1) * (Q - S ^ 2 / n))). split.
  - rewrite Es at 1. unfold sw_sorted. rewrite <- Es. fold n. cbv zeta. rewrite HSS, Reqb_pos by lra. unfold fin_if. cbn [negb].
    do 3 f_equal. rewrite <- Hmean. field. lra.
  - set (W := (n - 1) * (Q - S ^ 2 / n)) in *. apply div_bounds; [lra|]. split; [|lra].
    apply Rmult_le_reg_r with ((n - 1) ^ 2); [apply pow_lt; lra|].
    replace (1 / (n - 1) ^ 2 * W * (n - 1) ^ 2) with W by (field; lra). lra.
Qed.
(** ** Moran, Cox-Oakes, Epstein *)
Lemma mn_range g l : l <> [] -> positive l -> exists v, mn g l = Ok (Fin v) /\ v <= - g.
Proof.
  intros Hn Hp. pose proof (mean_pos _ Hn Hp) as Hm. pose proof (len_pos _ Hn) as Hl. pose proof (positive_ratio _ Hn Hp) as Hy.
  eexists. split. { unfold mn, fin_if. rewrite nonempty_true, Reqb_pos, all_pos_true by auto. reflexivity. }
  set (y := map (fun x => x / mean l) l) in *.
  assert (B : Rsum (map ln y) <= 0).
  { apply Rle_trans with (Rsum (map (fun v => v - 1) y)).
    - apply Rsum_map_le. intros v Hv. now apply ln_le_sub1, Hy.
    - rewrite Rsum_map_minus, Rsum_map_const, map_id. unfold y. rewrite Rsum_ratio, map_length by (auto; lra). unfold len. lra. }
  assert (mean (map ln y) <= 0); [|lra]. unfold mean. rewrite !len_map. unfold y. rewrite len_map. fold y.
  apply Rmult_le_reg_r with (len l); [exact Hl|]. replace (Rsum (map ln y) / len l * len l) with (Rsum (map ln y)) by (field; lra). lra.
Qed.
Lemma co_range l : positive l -> exists v, co l = Ok (Fin v) /\ v <= len l.
Proof.
  intros Hp. destruct l as [|a l0]; [exists (0 + 0); split; [reflexivity|unfold len; simpl; lra]|]. remember (a :: l0) as l eqn:E.
  assert (Hn : l <> []) by (subst; discriminate). clear a l0 E. pose proof (mean_pos _ Hn Hp) as Hm. pose proof (positive_ratio _ Hn Hp) as Hy.
  eexists. split. { unfold co, fin_if. rewrite nonempty_true, Reqb_pos, all_pos_true by auto. reflexivity. }
  assert (Rsum (map (fun v => ln v * (1 - v)) (map (fun x => x / mean l) l)) <= 0); [|lra].
  rewrite <- (Rmult_0_r (INR (length (map (fun x => x / mean l) l)))), <- Rsum_map_const. apply Rsum_map_le. intros v Hv. apply Hy in Hv.
  destruct (Rle_dec v 1).
  - assert (ln v <= 0) by (rewrite <- ln_1; now apply ln_le). nra.
  - assert (0 < ln v) by (rewrite <- ln_1; apply ln_increasing; lra). nra.
Qed.
Lemma norm_spacings_length prev l : length (norm_spacings prev l) = length l.
Proof. revert prev. induction l as [|x l IH]; intros prev; simpl; [reflexivity|now rewrite IH]. Qed.
Lemma norm_spacings_sum prev l : Rsum (norm_spacings prev l) = Rsum l - len l * prev.
Proof.
  revert prev. induction l as [|x l IH]; intros prev; [unfold len; simpl; ring|]. cbn [norm_spacings Rsum]. rewrite IH.
  unfold len. cbn [length]. rewrite S_INR. ring.
Qed.
Definition strictly_increasing (l : list R) : Prop := Sorted Rlt l.
Lemma norm_spacings_pos prev l : strictly_increasing (prev :: l) -> positive (norm_spacings prev l).
Proof.
  revert prev. induction l as [|x l IH]; intros prev H y Hy; [destruct Hy|]. inversion H as [|? ? H1 H2]; subst. inversion H2; subst.
  destruct Hy as [<-|Hy]; [|now apply (IH x)]. apply Rmult_lt_0_compat; [apply INR_pos; simpl; lia|lra].
Qed.
Lemma norm_spacings_nonneg prev l : sortedR (prev :: l) -> forall y, In y (norm_spacings prev l) -> 0 <= y.
Proof.
  revert prev. induction l as [|x l IH]; intros prev H y Hy; [destruct Hy|]. destruct (sorted_cons_inv _ _ H) as [Hs Hx].
  destruct Hy as [<-|Hy]; [|now apply (IH x)]. pose proof (Hx x (or_introl eq_refl)). apply Rmult_le_pos; [apply pos_INR|lra].
Qed.
Lemma sorted_nodup_strict l : sortedR l -> NoDup l -> strictly_increasing l.
Proof.
  unfold strictly_increasing. induction l as [|x l IH]; intros Hs Hd; [constructor|].
  destruct (sorted_cons_inv _ _ Hs) as [Hs' Hx]. apply NoDup_cons_iff in Hd. destruct Hd as [Hni Hd]. constructor; [auto|].
  destruct l as [|y l]; constructor. destruct (Hx y (or_introl eq_refl)) as [|E]; [assumption|subst; exfalso; apply Hni; now left].
Qed.
Lemma rsort_nodup l : NoDup l -> NoDup (rsort l).
Proof. intros H. eapply Permutation_NoDup; [symmetry; apply rsort_perm|exact H]. Qed.
Lemma strict_cons_zero l : positive l -> NoDup l -> strictly_increasing (0 :: rsort l).
Proof.
  intros Hp Hd. pose proof (sorted_nodup_strict _ (rsort_sorted l) (rsort_nodup _ Hd)) as H. constructor; [exact H|].
  pose proof (positive_rsort _ Hp) as Hp'. destruct (rsort l) as [|x t]; constructor. apply Hp'. now left.
Qed.
Lemma eps_range l : l <> [] -> positive l -> NoDup l -> exists v, eps_sorted (rsort l) = Ok (Fin v) /\ 0 <= v.
Proof.
  intros Hn Hp Hd. pose proof (norm_spacings_pos _ _ (strict_cons_zero _ Hp Hd)) as Hsp. pose proof (rsort_ne _ Hn) as Hn'.
  set (s := rsort l) in *. pose proof (len_pos _ Hn') as Hl. eexists. split.
  { unfold eps_sorted. cbv zeta. unfold fin_if. rewrite match_ne, all_pos_true by assumption. reflexivity. }
  set (d := norm_spacings 0 s) in *. assert (Hnd : len d = len s) by (unfold d, len; now rewrite norm_spacings_length).
  assert (Hdn : d <> []) by (intros E; rewrite E in Hnd; unfold len at 1 in Hnd; simpl in Hnd; lra).
  pose proof (Rsum_pos _ Hdn Hsp) as HS. set (m := Rsum d / len s). assert (Hm : 0 < m) by (apply Rdiv_lt_0_compat; lra).
  assert (B : Rsum (map ln d) <= len s * ln m).
  { rewrite <- Hnd. unfold len. rewrite <- Rsum_map_const.
    assert (Z : Rsum (map (fun x => ln m + (x / m - 1)) d) = Rsum (map (fun _ => ln m) d)).
    { rewrite Rsum_map_plus, Rsum_map_minus. unfold Rdiv. rewrite (Rsum_map_scal_r (/ m) (fun x => x)), map_id, !Rsum_map_const. fold (len d). rewrite Hnd. unfold m. field. lra. }
    rewrite <- Z. apply Rsum_map_le. intros x Hx. apply Hsp in Hx. replace x with (m * (x / m)) at 1 by (field; lra).
    assert (0 < x / m) by (apply Rdiv_lt_0_compat; lra). rewrite ln_mult by lra. pose proof (ln_le_sub1 _ H). lra. }
  assert (0 <= ln m - Rsum (map ln d) / len s).
  { assert (Rsum (map ln d) / len s <= ln m); [|lra]. apply Rmult_le_reg_r with (len s); [exact Hl|].
    replace (Rsum (map ln d) / len s * len s) with (Rsum (map ln d)) by (field; lra). lra. }
  assert (0 < 1 + (len s + 1) / (6 * len s)) by (apply Rplus_lt_0_compat; [lra|apply Rdiv_lt_0_compat; lra]).
  apply Rmult_le_pos; [apply Rmult_le_pos; lra|left; now apply Rinv_0_lt_compat].
Qed.
(** ** squared coefficient of variation *)
Lemma var_upper l : l <> [] -> positive l -> 0 <= np_var l <= (len l - 1) * mean l ^ 2.
Proof.
  intros Hn Hp. pose proof (len_pos _ Hn) as Hl. split.
  - unfold np_var. apply mean_nonneg. intros x Hx. apply in_map_iff in Hx. destruct Hx as (y & <- & _). apply pow2_ge_0.
  - assert (E : np_var l = Rsum (map (fun x => x ^ 2) l) / len l - mean l ^ 2).
    { unfold np_var, mean at 1. rewrite len_map.
      rewrite (Rsum_map_ext _ (fun x => (x ^ 2 + (- 2 * mean l) * x) + mean l ^ 2)) by (intros; ring).
      rewrite !Rsum_map_plus, Rsum_map_const, Rsum_map_scal, map_id. fold (len l). unfold mean. field. lra. }
    rewrite E. pose proof (sq_sum_le_sum_sq l (fun x Hx => Rlt_le _ _ (Hp x Hx))) as B.
    assert (Rsum (map (fun x => x ^ 2) l) / len l <= len l * mean l ^ 2); [|lra].
    apply Rmult_le_reg_r with (len l); [exact Hl|]. replace (Rsum (map (fun x => x ^ 2) l) / len l * len l) with (Rsum (map (fun x => x ^ 2) l)) by (field; lra).
    unfold mean. replace (len l * (Rsum l / len l) ^ 2 * len l) with (Rsum l ^ 2) by (field; lra). exact B.
Qed.
Lemma we_range l : l <> [] -> positive l -> exists v, we l = Ok (Fin v) /\ 0 <= v <= (1 - 1 / len l) ^ 2.
Proof.
  intros Hn Hp. pose proof (len_pos _ Hn) as Hl. pose proof (mean_pos _ Hn Hp) as Hm. pose proof (var_upper _ Hn Hp).
  eexists. split. { unfold we, fin_if. rewrite nonempty_true, Reqb_pos by auto. reflexivity. }
  assert (1 <= len l) by (unfold len; apply INR_ge1; destruct l; [congruence|simpl; lia]).
  assert (0 < len l ^ 2 * mean l ^ 2) by (apply Rmult_lt_0_compat; now apply pow_lt).
  apply div_bounds; [assumption|]. split; [rewrite Rmult_0_l; apply Rmult_le_pos; lra|].
  replace ((1 - 1 / len l) ^ 2 * (len l ^ 2 * mean l ^ 2)) with ((len l - 1) * ((len l - 1) * mean l ^ 2)) by (field; lra).
  apply Rmult_le_compat_l; lra.
Qed.
(** ** Wong-Wong *)
Lemma ww_range l : l <> [] -> positive l -> exists v, ww l = Ok (Fin v) /\ 1 <= v.
Proof.
  intros Hn Hp. pose proof (Rminl_in 0 l Hn) as Hi. pose proof (Rmaxl_ge 0 l _ Hi). apply Hp in Hi.
  eexists. split. { unfold ww, fin_if. rewrite Reqb_pos, match_ne by assumption. reflexivity. }
  apply Rmult_le_reg_r with (Rminl 0 l); [exact Hi|]. replace (Rmaxl 0 l / Rminl 0 l * Rminl 0 l) with (Rmaxl 0 l) by (field; lra). lra.
Qed.
(** ** Atkinson, Frozini, Kochar, Gnedenko, Harris, Hegazy-Green, Kimber-Michael *)
Lemma atk_range G p l : l <> [] -> positive l -> exists v, atk G p l = Ok (Fin v) /\ 0 <= v.
Proof.
  intros Hn Hp. eexists. split. { unfold atk, fin_if. rewrite nonempty_true, Reqb_pos, all_nonneg_true by (auto; now apply mean_pos). reflexivity. }
  apply Rmult_le_pos; [apply sqrt_pos|apply Rabs_pos].
Qed.
Lemma exp_neg_01 x : 0 <= x -> 0 <= 1 - exp (- x) < 1.
Proof.
  intros H. pose proof (exp_pos (- x)). split; [|lra]. assert (exp (- x) <= 1); [|lra]. rewrite <- exp_0.
  destruct H; [left; apply exp_increasing; lra|subst; right; f_equal; ring].
Qed.
Lemma fz_range l : l <> [] -> positive l -> exists v, fz_sorted (rsort l) = Ok (Fin v) /\ 0 <= v <= sqrt (len l).
Proof.
  intros Hn Hp. pose proof (rsort_ne _ Hn) as Hn'. pose proof (positive_rsort _ Hp) as Hp'. rewrite <- (len_rsort l).
  set (s := rsort l) in *. pose proof (len_pos _ Hn') as Hl. pose proof (mean_pos _ Hn' Hp') as Hm.
  eexists. split. { unfold fz_sorted, fin_if. rewrite nonempty_true, Reqb_pos by auto. reflexivity. }
  assert (Hq : 0 < sqrt (len s)) by now apply sqrt_lt_R0.
  assert (B : forall i x, (i < length s)%nat -> In x s -> 0 <= Rabs (1 - exp (- x / mean s) - (INR (S i) - 0.5) / len s) <= 1).
  { intros i x Hi Hx. split; [apply Rabs_pos|]. replace (- x / mean s) with (- (x / mean s)) by (field; lra).
    assert (0 <= x / mean s) by (left; apply Rdiv_lt_0_compat; auto). pose proof (exp_neg_01 _ H).
    assert (0 <= (INR (S i) - 0.5) / len s <= 1).
    { apply div_bounds; [exact Hl|]. rewrite S_INR. pose proof (pos_INR i). apply le_INR in Hi. rewrite S_INR in Hi. fold (len s) in Hi. lra. }
    apply Rabs_le. lra. }
  assert (Bs : 0 <= Rsum (imap (fun i x => Rabs (1 - exp (- x / mean s) - (INR (S i) - 0.5) / len s)) s) <= len s).
  { set (v := imap _ s). assert (Hv : forall z, In z v -> 0 <= z <= 1).
    { intros z Hz. apply imap_in in Hz. destruct Hz as (i & x & Hi & ->). apply B; [apply nth_error_Some; congruence|eapply nth_error_In; eauto]. }
    pose proof (Rsum_const_bounds (fun z => z) v 0 1 Hv) as BB. rewrite map_id in BB.
    assert (len v = len s) by (unfold len, v; now rewrite imap_length). lra. }
  replace (1 / sqrt (len s) * Rsum (imap (fun i x => Rabs (1 - exp (- x / mean s) - (INR (S i) - 0.5) / len s)) s))
    with (Rsum (imap (fun i x => Rabs (1 - exp (- x / mean s) - (INR (S i) - 0.5) / len s)) s) / sqrt (len s)) by (field; lra).
  apply div_bounds; [exact Hq|]. rewrite sqrt_sqrt by lra. lra.
Qed.
Lemma kc_weight v : 0 < v <= 1 -> 0 <= v * (1 - ln v) <= 1.
Proof.
  intros H. assert (ln v <= 0) by (rewrite <- ln_1; apply ln_le; lra). split; [nra|].
  pose proof (ln_le_sub1 (/ v) (Rinv_0_lt_compat _ (proj1 H))) as L. rewrite ln_Rinv in L by lra.
  assert (v * (- ln v) <= v * (/ v - 1)) by (apply Rmult_le_compat_l; lra). replace (v * (/ v - 1)) with (1 - v) in H1 by (field; lra). lra.
Qed.
Lemma kc_range l : l <> [] -> positive l -> exists v, kc_sorted (rsort l) = Ok (Fin v) /\ Rabs v <= sqrt (108 * len l / 17).
Proof.
  intros Hn Hp. pose proof (rsort_ne _ Hn) as Hn'. pose proof (positive_rsort _ Hp) as Hp'. rewrite <- (len_rsort l).
  set (s := rsort l) in *. pose proof (len_pos _ Hn') as Hl. pose proof (Rsum_pos _ Hn' Hp') as Hs.
  eexists. split. { unfold kc_sorted, fin_if. cbv zeta. rewrite Reqb_pos by auto. reflexivity. }
  set (T := Rsum (imap _ s)).
  assert (B : Rabs T <= Rsum s).
  { unfold T. rewrite <- (map_id s) at 2. rewrite <- Rsum_imap_val.
    assert (forall i x, (i < length s)%nat -> In x s ->
      - x <= (2 * (1 - (INR i + 1) / (len s + 1)) * (1 - ln (1 - (INR i + 1) / (len s + 1))) - 1) * x <= x).
    { intros i x Hi Hx. apply Hp' in Hx. apply le_INR in Hi. rewrite S_INR in Hi. fold (len s) in Hi. pose proof (pos_INR i).
      assert (0 < 1 - (INR i + 1) / (len s + 1) <= 1).
      { replace (1 - (INR i + 1) / (len s + 1)) with ((len s - INR i) / (len s + 1)) by (field; lra). split; [apply Rdiv_lt_0_compat; lra|].
        apply Rmult_le_reg_r with (len s + 1); [lra|]. replace ((len s - INR i) / (len s + 1) * (len s + 1)) with (len s - INR i) by (field; lra). lra. }
      pose proof (kc_weight _ H0). rewrite Rmult_assoc. set (w := _ * (1 - ln _)) in *. nra. }
    clear T. unfold imap. revert H. generalize (len s) as N. intros N H.
    apply Rabs_le.
    assert (G : forall k (t : list R), (forall i x, (i < length t)%nat -> In x t -> - x <= (2 * (1 - (INR (k + i) + 1) / (N + 1)) * (1 - ln (1 - (INR (k + i) + 1) / (N + 1))) - 1) * x <= x) ->
      - Rsum (imap_from k (fun _ x => x) t) <= Rsum (imap_from k (fun i x => (2 * (1 - (INR i + 1) / (N + 1)) * (1 - ln (1 - (INR i + 1) / (N + 1))) - 1) * x) t) <= Rsum (imap_from k (fun _ x => x) t)).
    { intros k t. revert k. induction t as [|x t IH]; intros k Ht; cbn [imap_from Rsum]; [lra|].
      assert (Ht0 := Ht 0%nat x (Nat.lt_0_succ _) (or_introl eq_refl)). rewrite Nat.add_0_r in Ht0.
      assert (IH' := IH (S k)). lapply IH'; [lra|]. intros i y Hi Hy.
      replace (S k + i)%nat with (k + S i)%nat by lia. apply Ht; [simpl; lia|now right]. }
    apply (G 0%nat s). exact H. }
  unfold Rdiv. rewrite Rabs_mult, (Rabs_pos_eq (/ Rsum s)) by (left; now apply Rinv_0_lt_compat).
  rewrite Rabs_mult, (Rabs_pos_eq (sqrt _)) by apply sqrt_pos.
  apply Rmult_le_reg_r with (Rsum s); [exact Hs|]. rewrite Rmult_assoc, Rinv_l, Rmult_1_r by lra.
  apply Rmult_le_compat_l; [apply sqrt_pos|exact B].
Qed.
Lemma rsort_cons_zero l : positive l -> rsort (0 :: l) = 0 :: rsort l.
Proof.
  intros Hp. rewrite <- (rsort_id (0 :: rsort l)).
  - apply rsort_perm_eq. constructor. symmetry. apply rsort_perm.
  - constructor; [apply rsort_sorted|]. apply Forall_forall. intros x Hx. left. now apply (positive_rsort _ Hp).
Qed.
Lemma firstn_positive k l : positive l -> positive (firstn k l).
Proof. intros H x Hx. apply H. rewrite <- (firstn_skipn k l). apply in_app_iff. now left. Qed.
Lemma skipn_positive k l : positive l -> positive (skipn k l).
Proof. intros H x Hx. apply H. rewrite <- (firstn_skipn k l). apply in_app_iff. now right. Qed.
Lemma length_ne {A} (l : list A) : (0 < length l)%nat -> l <> [].
Proof. intros H E. subst. simpl in H. lia. Qed.
Lemma py_round_half n : (2 <= n)%nat -> (1 <= py_round_div n 2 < n)%nat.
Proof.
  intros H. unfold py_round_div. pose proof (Nat.div_mod n 2 ltac:(lia)) as E. pose proof (Nat.mod_upper_bound n 2 ltac:(lia)) as U.
  cbv zeta. set (q := (n / 2)%nat) in *. set (r := (n mod 2)%nat) in *.
  destruct (Nat.ltb_spec (2 * r) 2); [lia|]. destruct (Nat.ltb_spec 2 (2 * r)); [lia|]. destruct (Nat.even q); lia.
Qed.
Lemma py_round_quarter n : (3 <= n)%nat -> (1 <= py_round_div n 4 /\ 2 * py_round_div n 4 < n)%nat.
Proof.
  intros H. unfold py_round_div. pose proof (Nat.div_mod n 4 ltac:(lia)) as E. pose proof (Nat.mod_upper_bound n 4 ltac:(lia)) as U.
  cbv zeta. set (q := (n / 4)%nat) in *. set (r := (n mod 4)%nat) in *.
  destruct (Nat.ltb_spec (2 * r) 4); [lia|]. destruct (Nat.ltb_spec 4 (2 * r)); [lia|].
  destruct (Nat.even q) eqn:Ev; [|lia]. destruct q as [|q]; [|lia]. exfalso. lia.
Qed.
Lemma gd_range r l : positive l -> NoDup l ->
  (match r with Some r => (1 <= r < length l)%nat | None => (2 <= length l)%nat end) ->
  exists v, gd r l = Ok (Fin v) /\ 0 < v.
Proof.
  intros Hp Hd Hr. pose proof (norm_spacings_pos _ _ (strict_cons_zero _ Hp Hd)) as Hsp.
  set (r' := match r with Some r0 => r0 | None => py_round_div (length l) 2 end).
  assert (Hr' : (1 <= r' < length l)%nat) by (unfold r'; destruct r; [assumption|now apply py_round_half]). clear Hr.
  unfold gd. fold r'. cbv zeta. rewrite rsort_cons_zero by exact Hp.
  destruct (Nat.eqb_spec r' 0); [lia|]. destruct (Nat.eqb_spec r' (length l)); [lia|]. cbn [orb].
  set (d := norm_spacings 0 (rsort l)) in *. assert (Hl : length d = length l) by (unfold d; now rewrite norm_spacings_length, rsort_length).
  assert (A : 0 < Rsum (skipn r' d)) by (apply Rsum_pos; [apply length_ne; rewrite skipn_length; lia|now apply skipn_positive]).
  assert (B : 0 < Rsum (firstn r' d)) by (apply Rsum_pos; [apply length_ne; rewrite firstn_length; lia|now apply firstn_positive]).
  assert (INR r' < INR (length l)) by (apply lt_INR; lia). assert (0 < INR r') by (apply INR_pos; lia).
  assert (D : 0 < Rsum (skipn r' d) / (INR (length l) - INR r')) by (apply Rdiv_lt_0_compat; lra).
  rewrite Reqb_pos by exact D. eexists. split; [reflexivity|]. apply Rdiv_lt_0_compat; [apply Rdiv_lt_0_compat; lra|exact D].
Qed.
Lemma hm_range r l : positive l -> NoDup l ->
  (match r with Some r => (1 <= r /\ 2 * r < length l)%nat | None => (3 <= length l)%nat end) ->
  exists v, hm r l = Ok (Fin v) /\ 0 < v.
Proof.
  intros Hp Hd Hr. pose proof (norm_spacings_pos _ _ (strict_cons_zero _ Hp Hd)) as Hsp.
  set (r' := match r with Some r0 => r0 | None => py_round_div (length l) 4 end).
  assert (Hr' : (1 <= r' /\ 2 * r' < length l)%nat) by (unfold r'; destruct r; [assumption|now apply py_round_quarter]). clear Hr.
  unfold hm. fold r'. cbv zeta. rewrite rsort_cons_zero by exact Hp.
  set (d := norm_spacings 0 (rsort l)) in *. assert (Hl : length d = length l) by (unfold d; now rewrite norm_spacings_length, rsort_length).
  assert (A : 0 < Rsum (skipn (length l - r') d)) by (apply Rsum_pos; [apply length_ne; rewrite skipn_length; lia|now apply skipn_positive]).
  assert (B : 0 < Rsum (firstn r' d)) by (apply Rsum_pos; [apply length_ne; rewrite firstn_length; lia|now apply firstn_positive]).
  assert (C : 0 < Rsum (firstn (length l - 2 * r') (skipn r' d))) by
    (apply Rsum_pos; [apply length_ne; rewrite firstn_length, skipn_length; lia|now apply firstn_positive, skipn_positive]).
  assert (INR (2 * r') < INR (length l)) by (apply lt_INR; lia). rewrite mult_INR in H. simpl (INR 2) in H. assert (0 < INR r') by (apply INR_pos; lia).
  assert (D : 0 < Rsum (firstn (length l - 2 * r') (skipn r' d)) / (INR (length l) - 2 * INR r')) by (apply Rdiv_lt_0_compat; lra).
  rewrite Reqb_pos by exact D. destruct (Nat.leb_spec 1 r'); [|lia]. destruct (Nat.ltb_spec (2 * r') (length l)); [|lia]. cbn [negb andb].
  eexists. split; [reflexivity|]. apply Rdiv_lt_0_compat; [apply Rdiv_lt_0_compat; lra|exact D].
Qed.
(** ** Hegazy-Green *)
Lemma exp_scores_length n : length (exp_scores n) = n.
Proof. unfold exp_scores. now rewrite map_length, seq_length. Qed.
Lemma exp_scores_sorted n : sortedR (exp_scores n).
Proof.
  unfold exp_scores. assert (G : forall k m, (k + m <= n)%nat -> sortedR (map (fun i => - ln (1 - INR (S i) / (INR n + 1))) (seq k m))).
  { intros k m. revert k. induction m as [|m IH]; intros k Hk; [constructor|]. cbn [seq map]. constructor; [apply IH; lia|].
    apply Forall_forall. intros y Hy. apply in_map_iff in Hy. destruct Hy as (i & <- & Hi). apply in_seq in Hi.
    apply Ropp_le_contravar. pose proof (pos_INR n). assert (INR (S i) <= INR n) by (apply le_INR; lia). assert (INR (S k) <= INR (S i)) by (apply le_INR; lia).
    assert (INR (S i) / (INR n + 1) < 1) by (apply Rmult_lt_reg_r with (INR n + 1); [lra|]; replace (INR (S i) / (INR n + 1) * (INR n + 1)) with (INR (S i)) by (field; lra); lra).
    apply ln_le; [lra|]. apply Rplus_le_compat_l, Ropp_le_contravar. apply Rmult_le_compat_r; [left; apply Rinv_0_lt_compat; lra|assumption]. }
  apply G. lia.
Qed.
Lemma sum_combine_zero (f : R * R -> R) a b : length a = length b ->
  (forall x y, 0 <= f (x, y)) -> (forall x y, f (x, y) = 0 <-> x = y) ->
  0 <= Rsum (map f (combine a b)) /\ (Rsum (map f (combine a b)) = 0 <-> a = b).
Proof.
  intros Hl Hf Hz. revert b Hl. induction a as [|x a IH]; intros [|y b] Hl; try discriminate; [simpl; split; [lra|tauto]|].
  cbn [combine map Rsum]. destruct (IH b) as [I1 I2]; [now inversion Hl|]. pose proof (Hf x y). split; [lra|].
  split; intros E.
  - assert (E1 : f (x, y) = 0) by lra. assert (E2 : Rsum (map f (combine a b)) = 0) by lra. f_equal; [exact (proj1 (Hz _ _) E1)|exact (proj1 I2 E2)].
  - injection E as Ex Ea. pose proof (proj2 (Hz x y) Ex). pose proof (proj2 I2 Ea). lra.
Qed.
Lemma hg1_distance l : l <> [] -> exists v, hg1 l = Ok (Fin v) /\ 0 <= v /\ (v = 0 <-> rsort l = exp_scores (length l)).
Proof.
  intros Hn. eexists. split. { unfold hg1. rewrite match_ne by exact Hn. reflexivity. }
  pose proof (len_pos _ Hn) as Hl. pose proof (Rinv_0_lt_compat _ Hl).
  destruct (sum_combine_zero (fun p => Rabs (fst p - snd p)) (rsort l) (exp_scores (length l))) as [A B].
  - now rewrite exp_scores_length, rsort_length.
  - intros. apply Rabs_pos.
  - intros x y. simpl. split; intros E; [|subst; rewrite Rminus_diag_eq, Rabs_R0; reflexivity].
    destruct (Req_dec (x - y) 0); [lra|]. now apply Rabs_no_R0 in H0.
  - split; [apply Rmult_le_pos; lra|]. rewrite <- B. split; intros E; [|rewrite E; ring]. apply Rmult_integral in E. destruct E; lra.
Qed.
Lemma hg2_distance l : l <> [] -> exists v, hg2_sorted (rsort l) = Ok (Fin v) /\ 0 <= v /\ (v = 0 <-> rsort l = exp_scores (length l)).
Proof.
  intros Hn. pose proof (rsort_ne _ Hn) as Hn'. eexists. split. { unfold hg2_sorted. rewrite match_ne by exact Hn'. reflexivity. }
  pose proof (len_pos _ Hn') as Hl. pose proof (Rinv_0_lt_compat _ Hl). rewrite rsort_length.
  destruct (sum_combine_zero (fun p => (fst p - snd p) ^ 2) (rsort l) (exp_scores (length l))) as [A B].
  - now rewrite exp_scores_length, rsort_length.
  - intros. apply pow2_ge_0.
  - intros x y. simpl. split; intros E; nra.
  - split; [apply Rmult_le_pos; lra|]. rewrite <- B. split; intros E; [|rewrite E; ring]. apply Rmult_integral in E. destruct E; lra.
Qed.
(** shifting the perfect fit by t *)
Lemma shift_combine (f : R -> R) a t : Rsum (map (fun p => f (fst p - snd p)) (combine (map (Rplus t) a) a)) = len a * f t.
Proof.
  induction a as [|x a IH]; [unfold len; simpl; ring|]. cbn [map combine Rsum fst snd]. rewrite IH.
  replace (t + x - x) with t by ring. unfold len. cbn [length]. rewrite S_INR. ring.
Qed.
Lemma shifted_sorted t a : sortedR a -> sortedR (map (Rplus t) a).
Proof. intros H. apply sorted_map_mono; [|exact H]. intros x y Hxy. lra. Qed.
Lemma hg1_shift n t : (1 <= n)%nat -> hg1 (map (Rplus t) (exp_scores n)) = Ok (Fin (Rabs t)).
Proof.
  intros Hn. assert (L : length (map (Rplus t) (exp_scores n)) = n) by now rewrite map_length, exp_scores_length.
  unfold hg1. rewrite match_ne by (apply length_ne; lia). rewrite rsort_id by apply shifted_sorted, exp_scores_sorted.
  rewrite L, (shift_combine Rabs). unfold len. rewrite L, exp_scores_length. do 2 f_equal. field. apply not_0_INR. lia.
Qed.
Lemma hg2_shift n t : (1 <= n)%nat -> hg2_sorted (rsort (map (Rplus t) (exp_scores n))) = Ok (Fin (t ^ 2)).
Proof.
  intros Hn. assert (L : length (map (Rplus t) (exp_scores n)) = n) by now rewrite map_length, exp_scores_length.
  rewrite rsort_id by apply shifted_sorted, exp_scores_sorted.
  unfold hg2_sorted. rewrite match_ne by (apply length_ne; lia).
  rewrite L, (shift_combine (fun x => x ^ 2)). unfold len. rewrite L, exp_scores_length. do 2 f_equal. field. apply not_0_INR. lia.
Qed.
(** ** Kimber-Michael *)
Lemma asin_sqrt_bounds t : 0 <= t <= 1 -> 0 <= 2 / PI * asin (sqrt t) <= 1.
Proof.
  intros H. pose proof PI_RGT_0. pose proof (asin_bound (sqrt t)) as [B1 B2].
  assert (Hs : -1 <= sqrt t <= 1) by (pose proof (sqrt_pos t); split; [lra|]; rewrite <- sqrt_1; apply sqrt_le_1_alt; lra).
  assert (0 <= asin (sqrt t)).
  { destruct (Rle_or_lt 0 (asin (sqrt t))) as [|Hneg]; [assumption|exfalso].
    assert (sin (asin (sqrt t)) < 0) by (apply sin_lt_0_var; lra). rewrite sin_asin in H1 by exact Hs. pose proof (sqrt_pos t). lra. }
  assert (0 < / PI) by now apply Rinv_0_lt_compat. unfold Rdiv. split; [apply Rmult_le_pos; [lra|assumption]|].
  apply Rle_trans with (2 * / PI * (PI / 2)); [apply Rmult_le_compat_l; lra|]. right. field. lra.
Qed.
Lemma km_range l : l <> [] -> positive l -> exists v, km_sorted (rsort l) = Ok (Fin v) /\ 0 <= v <= 1.
Proof.
  intros Hn Hp. pose proof (rsort_ne _ Hn) as Hn'. pose proof (positive_rsort _ Hp) as Hp'.
  set (s := rsort l) in *. pose proof (len_pos _ Hn') as Hl. pose proof (mean_pos _ Hn' Hp') as Hm.
  assert (Hr : forall x, In x s -> 0 < x / mean s) by (intros x Hx; apply Rdiv_lt_0_compat; auto).
  eexists. split.
  { unfold km_sorted, fin_if. cbv zeta. rewrite match_ne, Reqb_pos by auto.
    replace (forallb (fun x => Rleb 0 (x / mean s)) s) with true; [reflexivity|]. symmetry. apply forallb_forall. intros x Hx. apply Rleb_true. left. auto. }
  set (v := imap _ s). assert (Hv : forall z, In z v -> 0 <= z <= 1).
  { intros z Hz. apply imap_in in Hz. destruct Hz as (i & x & Hi & ->).
    assert (Hx : In x s) by (eapply nth_error_In; eauto). assert (Hi' : (i < length s)%nat) by (apply nth_error_Some; congruence).
    split; [apply Rabs_pos|]. assert (T : 0 <= (INR (S i) - 0.5) / len s <= 1).
    { apply div_bounds; [exact Hl|]. rewrite S_INR. pose proof (pos_INR i). apply le_INR in Hi'. rewrite S_INR in Hi'. fold (len s) in Hi'. lra. }
    pose proof (asin_sqrt_bounds _ T). pose proof (exp_neg_01 _ (Rlt_le _ _ (Hr x Hx))) as E.
    pose proof (asin_sqrt_bounds (1 - exp (- (x / mean s))) ltac:(lra)). apply Rabs_le. lra. }
  apply Hv, Rmaxl_in. apply length_ne. unfold v. rewrite imap_length. destruct s; [congruence|simpl; lia].
Qed.
