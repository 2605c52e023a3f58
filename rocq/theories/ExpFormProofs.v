(** Proofs about the form of the exponentiality statistics. *)
From Verif Require Import Base Analysis DecModel EdfModel GraphModel ExpModel ExpSpec ExpFormSpec EdfProofs ExpProofs ExpRangeProofs.
From Coq Require Import Lra Lia.
Local Open Scope R_scope.

Lemma fin_inv b x v : fin_if b x = Ok (Fin v) -> b = true /\ v = x.
Proof. unfold fin_if. destruct b; [|discriminate]. intros H. now injection H as <-. Qed.

Lemma ok_inj (a b : R) : @Ok npval (Fin a) = Ok (Fin b) -> b = a.
Proof. congruence. Qed.
(** ** pairs and triples *)
Lemma ind_count {A} (P : A -> bool) L : Rsum (map (fun x => ind (P x)) L) = INR (count P L).
Proof. induction L as [|x L IH]; [reflexivity|]. cbn [map Rsum]. rewrite IH, count_cons, plus_INR. unfold ind. destruct (P x); simpl; ring. Qed.
Lemma share_sum {A} (P : A -> bool) L : share P L = Rsum (map (fun x => ind (P x)) L) / INR (length L).
Proof. unfold share. now rewrite ind_count. Qed.
Lemma sum_pairs_twos f l : sum_pairs f l = Rsum (map (fun p => f (fst p) (snd p)) (twos l)).
Proof. induction l as [|x l IH]; [reflexivity|]. cbn [sum_pairs twos]. now rewrite map_app, Rsum_app, map_map, IH. Qed.
Lemma sum_triples_threes f l : sum_triples f l = Rsum (map (fun p => f (fst p) (fst (snd p)) (snd (snd p))) (threes l)).
Proof. induction l as [|x l IH]; [reflexivity|]. cbn [sum_triples threes]. now rewrite map_app, Rsum_app, map_map, IH, sum_pairs_twos. Qed.
Lemma twos_length l : INR (length (twos l)) = len l * (len l - 1) / 2.
Proof. induction l as [|x l IH]; [unfold len; simpl; lra|]. cbn [twos]. rewrite app_length, plus_INR, IH, map_length. unfold len. cbn [length]. rewrite S_INR. field. Qed.
Lemma threes_length l : INR (length (threes l)) = len l * (len l - 1) * (len l - 2) / 6.
Proof. induction l as [|x l IH]; [unfold len; simpl; lra|]. cbn [threes]. rewrite app_length, plus_INR, IH, map_length, twos_length. unfold len. cbn [length]. rewrite S_INR. field. Qed.
Lemma sum_prod {A B} (f : A -> B -> R) a b : Rsum (map (fun p => f (fst p) (snd p)) (list_prod a b)) = Rsum (map (fun x => Rsum (map (f x) b)) a).
Proof. induction a as [|x a IH]; [reflexivity|]. cbn [list_prod map Rsum]. rewrite map_app, Rsum_app, map_map, IH. reflexivity. Qed.
Lemma ahs_form l v : ahs l = Ok (Fin v) ->
  v = share (fun p => Rltb (Rabs (fst (snd p) - snd (snd p))) (fst p)) (list_prod l (list_prod l l))
      - share (fun p => Rltb (2 * Rmin (fst (snd p)) (snd (snd p))) (fst p)) (list_prod l (list_prod l l)).
Proof.
  intros H. assert (N : l <> []) by (intros ->; discriminate). unfold ahs in H. rewrite match_ne in H by trivial. cbv zeta in H. apply ok_inj in H as ->.
  assert (L : INR (length (list_prod l (list_prod l l))) = len l ^ 3) by (rewrite !prod_length, !mult_INR; unfold len; ring).
  assert (P : 0 < len l) by (now apply len_pos). rewrite !share_sum, L.
  assert (E : forall f : R -> R -> R -> R, Rsum (map (fun p => f (fst p) (fst (snd p)) (snd (snd p))) (list_prod l (list_prod l l))) = Rsum (map (fun xk => Rsum (map (fun xi => Rsum (map (f xk xi) l)) l)) l)).
  { intros f. rewrite (sum_prod (fun x q => f x (fst q) (snd q))). apply Rsum_map_ext. intros x _. apply (sum_prod (f x)). }
  rewrite (E (fun k i j => ind (Rltb (Rabs (i - j)) k))), (E (fun k i j => ind (Rltb (2 * Rmin i j) k))). field. lra.
Qed.
Lemma others_plus g h l : sum_others (fun x r => g x r + h x r) l = sum_others g l + sum_others h l.
Proof. revert g h. induction l as [|x l IH]; intros g h; cbn [sum_others]; [ring|]. rewrite IH. ring. Qed.
Lemma others_pairs_triples (f : R -> R -> R -> R) l : (forall x y z, f x y z = f x z y) ->
  sum_others (fun x r => sum_pairs (f x) r) l = sum_triples (fun x y z => f x y z + f y x z + f z x y) l.
Proof.
  intros S. induction l as [|x l IH]; [reflexivity|]. cbn [sum_others sum_triples sum_pairs]. rewrite others_plus, IH, (sum_others_pairs (fun y z => f y x z)), <- Rplus_assoc. f_equal.
  rewrite !sum_pairs_twos, <- Rsum_map_plus. apply Rsum_map_ext. intros p _. ring.
Qed.
Lemma triples_ext f g l : (forall x y z, In x l -> In y l -> In z l -> f x y z = g x y z) -> sum_triples f l = sum_triples g l.
Proof.
  induction l as [|x l IH]; intros H; [reflexivity|]. cbn [sum_triples]. f_equal; [|apply IH; intros; apply H; now right].
  assert (E : forall t, incl t l -> sum_pairs (f x) t = sum_pairs (g x) t).
  { induction t as [|y t IHt]; intros I; [reflexivity|]. cbn [sum_pairs]. rewrite IHt by (intros z Hz; apply I; now right). f_equal. apply Rsum_map_ext. intros z Hz. apply H; [now left|right; apply I; now left|right; apply I; now right]. }
  apply E. intros z Hz. exact Hz.
Qed.
Lemma hp_form l v : positive l -> hp l = Ok (Fin v) -> v = / 3 * share (fun p => Rltb (fst p + fst (snd p) + snd (snd p)) (2 * largest (fst p) (fst (snd p)) (snd (snd p)))) (threes l).
Proof.
  intros Hp. unfold hp. cbv zeta. destruct (Nat.leb_spec (length l) 2) as [|L]; [discriminate|]. intros H. injection H as <-.
  assert (N : 3 <= len l) by (unfold len; apply le_INR in L; rewrite !S_INR in L; simpl in L; lra).
  rewrite share_sum, threes_length, <- (sum_triples_threes (fun x y z => ind (Rltb (x + y + z) (2 * largest x y z)))).
  rewrite others_pairs_triples by (intros; now rewrite (Rplus_comm y z)).
  rewrite (triples_ext _ (fun x y z => ind (Rltb (x + y + z) (2 * largest x y z)))); [field; lra|].
  intros x y z Hx Hy Hz. apply Hp in Hx, Hy, Hz. unfold ind, largest, Rmax. destruct (Rltb_spec (y + z) x), (Rltb_spec (x + z) y), (Rltb_spec (x + y) z); repeat destruct (Rle_dec _ _); try lra; match goal with |- context [Rltb (x + y + z) ?t] => destruct (Rltb_spec (x + y + z) t) end; lra.
Qed.
Lemma mid_minus_min a b c : a + b + c - 2 * Rmin a (Rmin b c) - Rmax a (Rmax b c) = middle a b c - least a b c.
Proof. unfold middle, least, Rmax, Rmin. repeat destruct (Rle_dec _ _); lra. Qed.
Lemma fact_two n : (2 <= n)%nat -> INR (fact n) = INR n * (INR n - 1) * INR (fact (n - 2)).
Proof. intros H. destruct n as [|[|n]]; try lia. replace (S (S n) - 2)%nat with n by lia. change (fact (S (S n))) with ((S (S n)) * ((S n) * fact n))%nat. rewrite !mult_INR, !S_INR. ring. Qed.
Lemma fact_three n : (3 <= n)%nat -> INR (fact n) = INR n * (INR n - 1) * (INR n - 2) * INR (fact (n - 3)).
Proof. intros H. destruct n as [|[|[|n]]]; try lia. replace (S (S (S n)) - 3)%nat with n by lia. change (fact (S (S (S n)))) with ((S (S (S n))) * ((S (S n)) * ((S n) * fact n)))%nat. rewrite !mult_INR, !S_INR. ring. Qed.
Lemma rs_form l v : rs l = Ok (Fin v) ->
  v = mean (map (fun x => share (fun p => Rltb (middle (fst p) (fst (snd p)) (snd (snd p)) - least (fst p) (fst (snd p)) (snd (snd p))) x) (threes l)
                          - share (fun p => Rltb (Rmin (fst p) (snd p)) x) (twos l)) l).
Proof.
  intros H. assert (L : (3 <= length l)%nat) by (unfold rs in H; cbv zeta in H; destruct (length l) as [|[|[|]]]; try discriminate; lia).
  assert (N : 3 <= len l) by (unfold len; apply le_INR in L; rewrite !S_INR in L; simpl in L; lra).
  assert (E : v = (Rsum (map (fun xm => 6 * INR (fact (length l - 3)) / INR (fact (length l)) * sum_triples (rs_h xm) l) l) - Rsum (map (fun xm => 2 * INR (fact (length l - 2)) / INR (fact (length l)) * sum_pairs (rs_g xm) l) l)) / INR (length l)).
  { revert H. unfold rs. cbv zeta. destruct (length l) as [|[|[|n]]] eqn:El; try lia. intros H. injection H as <-. reflexivity. }
  rewrite E. unfold mean. rewrite Rsum_map_minus, len_map. fold (len l). f_equal. f_equal; apply Rsum_map_ext; intros x _.
  - rewrite share_sum, threes_length, sum_triples_threes, (fact_three (length l)) by lia. fold (len l). pose proof (INR_fact_neq_0 (length l - 3)).
    rewrite (Rsum_map_ext _ (fun p => ind (Rltb (middle (fst p) (fst (snd p)) (snd (snd p)) - least (fst p) (fst (snd p)) (snd (snd p))) x))) by (intros p _; unfold rs_h; now rewrite mid_minus_min). field. lra.
  - rewrite share_sum, twos_length, sum_pairs_twos, (fact_two (length l)) by lia. fold (len l). pose proof (INR_fact_neq_0 (length l - 2)). unfold rs_g. field. lra.
Qed.

(** ** Lorenz curve *)
Lemma dev_prefix m l k : Rsum (firstn k (map (fun x => m - x) l)) <= Rsum (map (fun x => Rmax 0 (m - x)) l).
Proof.
  revert k. induction l as [|x l IH]; intros [|k]; cbn [map firstn Rsum]; try lra.
  - apply Rplus_le_le_0_compat; [apply Rmax_l|]. apply Rsum_map_nonneg. intros; apply Rmax_l.
  - specialize (IH k). pose proof (Rmax_r 0 (m - x)). lra.
Qed.
Lemma dev_attained m l : sortedR l -> exists k, (k <= length l)%nat /\ Rsum (firstn k (map (fun x => m - x) l)) = Rsum (map (fun x => Rmax 0 (m - x)) l).
Proof.
  induction l as [|x l IH]; intros So; [exists 0%nat; split; [lia|reflexivity]|]. destruct (sorted_cons_inv _ _ So) as [S' Hx]. destruct (Rlt_dec x m) as [H|H].
  - destruct (IH S') as (k & Hk & E). exists (S k). split; [simpl; lia|]. cbn [map firstn Rsum]. rewrite E, Rmax_right by lra. reflexivity.
  - exists 0%nat. split; [lia|]. cbn [firstn]. symmetry. rewrite (Rsum_map_ext _ (fun _ => 0)); [rewrite Rsum_map_const; cbn [Rsum]; ring|].
    intros y [->|Hy]; apply Rmax_left; [lra|]. specialize (Hx y Hy). lra.
Qed.
Lemma firstn_dev m l k : (k <= length l)%nat -> Rsum (firstn k (map (fun x => m - x) l)) = INR k * m - Rsum (firstn k l).
Proof.
  revert k. induction l as [|x l IH]; intros [|k] H; cbn [map firstn Rsum]; try (simpl; ring); [simpl in H; lia|]. rewrite IH by (simpl in H; lia). rewrite S_INR. ring.
Qed.
Lemma lorenz_dev l k : Rsum l <> 0 -> (k <= length l)%nat -> l <> [] -> INR k / len l - lorenz l k = Rsum (firstn k (map (fun x => mean l - x) (rsort l))) / Rsum l.
Proof. intros S H N. pose proof (len_pos l N). rewrite firstn_dev by (now rewrite rsort_length). unfold lorenz, mean. field. split; lra. Qed.
Lemma pt_positive_part l v : pt l = Ok (Fin v) -> 0 < mean l -> l <> [] -> v = Rsum (map (fun x => Rmax 0 (mean l - x)) (rsort l)) / Rsum l.
Proof.
  intros H M N. pose proof (len_pos l N) as L. unfold pt in H. cbv zeta in H. apply fin_inv in H as [_ ->]. rewrite (Rsum_map_perm _ (rsort l) l) by apply rsort_perm.
  assert (E : Rsum (map (fun x => Rabs (x - mean l)) l) = 2 * Rsum (map (fun x => Rmax 0 (mean l - x)) l)).
  { rewrite (Rsum_map_ext _ (fun x => 2 * Rmax 0 (mean l - x) + (x - mean l))).
    - rewrite Rsum_map_plus, Rsum_map_scal, mean_dev_sum by exact N. ring.
    - intros x _. unfold Rabs, Rmax. destruct (Rcase_abs _), (Rle_dec _ _); lra. }
  rewrite E. assert (S : Rsum l = len l * mean l) by (unfold mean; field; lra). rewrite S. field. lra.
Qed.
Lemma pt_lorenz l v : positive l -> pt l = Ok (Fin v) -> maximum v (fun w => exists k, (k <= length l)%nat /\ w = INR k / len l - lorenz l k).
Proof.
  intros P H. assert (N : l <> []) by (intros ->; discriminate). pose proof (mean_pos l N P) as M. pose proof (Rsum_pos l N P) as S. apply pt_positive_part in H as ->; trivial. split.
  - destruct (dev_attained (mean l) (rsort l) (rsort_sorted l)) as (k & Hk & E). rewrite rsort_length in Hk. exists k. split; trivial. rewrite lorenz_dev by (trivial; lra). now rewrite E.
  - intros w (k & Hk & ->). rewrite lorenz_dev by (trivial; lra). apply Rmult_le_compat_r; [left; now apply Rinv_0_lt_compat|]. apply dev_prefix.
Qed.
Lemma pair_distances_prefix s : sortedR s -> (len s + 1) * Rsum s - 2 * Rsum (map (fun k => Rsum (firstn k s)) (seq 0 (S (length s)))) = pair_distances s.
Proof.
  unfold pair_distances. induction s as [|x t IH]; intros S; [simpl; ring|]. destruct (sorted_cons_inv _ _ S) as [S' Hx]. specialize (IH S'). cbn [sum_pairs].
  rewrite <- IH. rewrite (Rsum_map_ext (fun y => Rabs (x - y)) (fun y => y - x)) by (intros y Hy; specialize (Hx y Hy); rewrite Rabs_left1; lra).
  rewrite Rsum_map_minus, Rsum_map_const, map_id. cbn [length]. set (q := Datatypes.S (length t)). change (seq 0 (Datatypes.S q)) with (0%nat :: seq 1 q). cbn [map Rsum firstn].
  rewrite <- seq_shift, map_map. rewrite (Rsum_map_ext (fun k => Rsum (firstn (Datatypes.S k) (x :: t))) (fun k => x + Rsum (firstn k t))) by reflexivity. rewrite Rsum_map_plus, Rsum_map_const, seq_length. unfold len. cbn [length]. fold q. unfold q. rewrite S_INR. ring.
Qed.
Lemma gini_lorenz l v : (2 <= length l)%nat -> positive l -> gini l = Ok (Fin v) ->
  v = 2 / (len l - 1) * Rsum (map (fun k => INR k / len l - lorenz l k) (seq 0 (S (length l)))).
Proof.
  intros L P H. assert (N : l <> []) by (intros ->; simpl in L; lia). pose proof (Rsum_pos l N P) as S. pose proof (len_ge2 l L) as N2. rewrite gini_pairs in H by (trivial; lra). injection H as <-.
  rewrite Rsum_map_minus. unfold lorenz, Rdiv. rewrite (Rsum_map_scal_r (/ len l) INR), (Rsum_map_scal_r (/ Rsum l) (fun k => Rsum (firstn k (rsort l)))).
  assert (G : forall n, Rsum (map INR (seq 0 (Datatypes.S n))) = INR n * (INR n + 1) / 2).
  { induction n as [|n IH]; [simpl; lra|]. rewrite seq_S, map_app, Rsum_app, IH. cbn [map Rsum Nat.add]. rewrite S_INR. field. }
  rewrite G. fold (len l). pose proof (pair_distances_prefix (rsort l) (rsort_sorted l)) as E. rewrite rsort_length, len_rsort, Rsum_rsort in E. rewrite <- (pair_distances_perm _ _ (rsort_perm l)), <- E. field. lra.
Qed.

(** ** spacings *)
Lemma norm_spacings_nth prev s : norm_spacings prev s = map (fun i => INR (length s - i) * (nth (S i) (prev :: s) 0 - nth i (prev :: s) 0)) (seq 0 (length s)).
Proof.
  revert prev. induction s as [|x t IH]; intros prev; [reflexivity|]. cbn [norm_spacings length seq map]. f_equal. rewrite IH, <- seq_shift, map_map. apply map_ext. intros i. reflexivity.
Qed.
Lemma spacings_norm l : norm_spacings 0 (rsort l) = spacings l.
Proof. rewrite norm_spacings_nth, rsort_length. reflexivity. Qed.
Lemma spacings_length l : length (spacings l) = length l.
Proof. unfold spacings. now rewrite map_length, seq_length. Qed.
Lemma py_round_nearest n d : d = 2%nat \/ d = 4%nat -> nearest (py_round_div n d) (INR n / INR d).
Proof.
  intros D. unfold py_round_div. cbv zeta. pose proof (Nat.div_mod n d ltac:(lia)) as E. pose proof (Nat.mod_upper_bound n d ltac:(lia)) as B. set (q := (n / d)%nat) in *. set (r := (n mod d)%nat) in *.
  assert (Dp : 0 < INR d) by (apply INR_pos; lia). assert (X : INR n / INR d = INR q + INR r / INR d) by (rewrite E, plus_INR, mult_INR; field; lra). rewrite X.
  assert (Y : forall t, (INR r / INR d - t) * INR d = INR r - t * INR d) by (intros; field; lra).
  assert (Z : forall a b : nat, (2 * a < b)%nat -> INR a < INR b / 2) by (intros a b H; apply lt_INR in H; rewrite mult_INR in H; simpl in H; lra).
  assert (R0 : 0 <= INR r / INR d) by (apply Rmult_le_pos; [apply pos_INR|left; now apply Rinv_0_lt_compat]).
  assert (R1 : INR r / INR d < 1) by (apply lt_INR in B; apply Rmult_lt_reg_r with (INR d); trivial; replace (INR r / INR d * INR d) with (INR r) by (field; lra); lra).
  unfold nearest. destruct (Nat.ltb_spec (2 * r) d) as [H|H]; [|destruct (Nat.ltb_spec d (2 * r)) as [H'|H']].
  - apply Z in H. assert (INR r / INR d < 1 / 2) by (apply Rmult_lt_reg_r with (INR d); trivial; replace (INR r / INR d * INR d) with (INR r) by (field; lra); lra).
    replace (INR q - (INR q + INR r / INR d)) with (- (INR r / INR d)) by ring. rewrite Rabs_Ropp, Rabs_pos_eq by trivial. split; lra.
  - assert (INR d / 2 < INR r) by (apply lt_INR in H'; rewrite mult_INR in H'; simpl in H'; lra). assert (1 / 2 < INR r / INR d) by (apply Rmult_lt_reg_r with (INR d); trivial; replace (INR r / INR d * INR d) with (INR r) by (field; lra); lra).
    rewrite S_INR. replace (INR q + 1 - (INR q + INR r / INR d)) with (1 - INR r / INR d) by ring. rewrite Rabs_pos_eq by lra. split; lra.
  - assert (E2 : d = (2 * r)%nat) by lia. assert (Q : INR r / INR d = 1 / 2) by (rewrite E2, mult_INR; simpl (INR 2); field; rewrite E2, mult_INR in Dp; simpl in Dp; lra). rewrite Q.
    destruct (Nat.even q) eqn:Ev.
    + replace (INR q - (INR q + 1 / 2)) with (- (1 / 2)) by ring. rewrite Rabs_Ropp, Rabs_pos_eq by lra. split; [lra|]. intros _. now apply Nat.even_spec.
    + rewrite S_INR. replace (INR q + 1 - (INR q + 1 / 2)) with (1 / 2) by lra. rewrite Rabs_pos_eq by lra. split; [lra|]. intros _. apply Nat.even_spec. now rewrite Nat.even_succ, <- Nat.negb_even, Ev.
Qed.
Lemma mean_firstn r (d : list R) : (r <= length d)%nat -> mean (firstn r d) = Rsum (firstn r d) / INR r.
Proof. intros H. unfold mean, len. now rewrite firstn_length_le. Qed.
Lemma gd_form r l v : positive l -> gd r l = Ok (Fin v) -> exists k, match r with Some k' => k = k' | None => nearest k (INR (length l) / 2) end /\
  ((k < length l)%nat -> v = mean (firstn k (spacings l)) / mean (skipn k (spacings l))).
Proof.
  intros P. unfold gd. cbv zeta. rewrite rsort_cons_zero, spacings_norm by trivial. set (k := match r with Some r0 => r0 | None => py_round_div (length l) 2 end). intros H. exists k. split.
  - unfold k. destruct r; [reflexivity|]. apply (py_round_nearest _ 2). now left.
  - intros Hk. destruct (Nat.eqb k 0 || Nat.eqb k (length l)); [discriminate|]. apply fin_inv in H as [_ ->]. rewrite mean_firstn by (rewrite spacings_length; lia). f_equal. unfold mean, len. rewrite skipn_length, spacings_length, minus_INR by lia. reflexivity.
Qed.
Lemma hm_form r l v : positive l -> hm r l = Ok (Fin v) -> exists k, match r with Some k' => k = k' | None => nearest k (INR (length l) / 4) end /\ (1 <= k)%nat /\ (2 * k < length l)%nat /\
  v = mean (firstn k (spacings l) ++ skipn (length l - k) (spacings l)) / mean (firstn (length l - 2 * k) (skipn k (spacings l))).
Proof.
  intros P. unfold hm. cbv zeta. rewrite rsort_cons_zero, spacings_norm by trivial. set (k := match r with Some r0 => r0 | None => py_round_div (length l) 4 end). intros H. exists k. split.
  { unfold k. destruct r; [reflexivity|]. replace 4 with (INR 4) by (simpl; lra). apply (py_round_nearest _ 4). now right. }
  apply fin_inv in H as [B ->]. apply andb_true_iff in B as [B _]. apply andb_true_iff in B as [B1 B2]. apply Nat.leb_le in B1. apply Nat.ltb_lt in B2. split; [trivial|]. split; [trivial|]. f_equal.
  - unfold mean, len. rewrite app_length, Rsum_app, firstn_length_le, skipn_length, spacings_length by (rewrite spacings_length; lia). replace (k + (length l - (length l - k)))%nat with (2 * k)%nat by lia. rewrite mult_INR. reflexivity.
  - unfold mean, len. rewrite firstn_length_le by (rewrite skipn_length, spacings_length; lia). rewrite minus_INR, mult_INR by lia. reflexivity.
Qed.
