(** Proofs that the statistics of transformed samples have their published form. *)
From Coq Require Import Lia Lra.
From Coquelicot Require Import Coquelicot.
From Verif Require Import Base DecModel EdfModel EdfSpec EdfProofs EdfRotProofs EdfIntProofs EdfPowerProofs NormReflProofs NormMoreProofs GraphProofs GraphInvProofs GraphLineProofs StudentModel ChisqSpec ChisqProofs WeibullFormSpec WeibullFormProofs EdfFormSpec.
Local Open Scope R_scope.

Ltac eqR := match goal with |- ?a = ?b => change (@eq R a b) end.
Lemma len_cons x (l : list R) : len (x :: l) = len l + 1.
Proof. unfold len. cbn [length]. now rewrite S_INR. Qed.
Lemma filter_none {A} (p : A -> bool) l : (forall x, In x l -> p x = false) -> filter p l = [].
Proof. induction l as [|x l IH]; intros H; trivial. cbn [filter]. rewrite (H x (or_introl eq_refl)). apply IH. intros y Hy. apply H. now right. Qed.
(** *** Anderson-Darling *)
Definition ad_prim (c t : R) : R := - t + c ^ 2 * ln t - (1 - c) ^ 2 * ln (1 - t).
Lemma ad_step c a b : 0 <= a -> a <= b -> b <= 1 -> (a = 0 -> c = 0) -> (b = 1 -> c = 1) -> 0 <= c <= 1 ->
  is_RInt (fun t => (c - t) ^ 2 / (t * (1 - t))) a b (ad_prim c b - ad_prim c a).
Proof.
  intros Ha Hab Hb H0 H1 Hc.
  destruct (Req_dec a b) as [<-|Hne]; [replace (ad_prim c a - ad_prim c a) with 0 by ring; apply (@is_RInt_point R_NormedModule)|].
  assert (D : forall g : R -> R, (forall t, a <= t <= b -> is_derive (ad_prim c) t (g t)) -> (forall t, a <= t <= b -> continuous g t) -> (forall t, a < t < b -> g t = (c - t) ^ 2 / (t * (1 - t))) ->
            is_RInt (fun t => (c - t) ^ 2 / (t * (1 - t))) a b (ad_prim c b - ad_prim c a)).
  { intros g Hg Hgc He. apply (is_RInt_ext (V := R_NormedModule) g); [rewrite Rmin_left, Rmax_right by lra; exact He|].
    apply (is_RInt_derive (V := R_CompleteNormedModule) (ad_prim c) g); rewrite Rmin_left, Rmax_right by lra; assumption. }
  destruct (Req_dec c 0) as [->|N0]; [|destruct (Req_dec c 1) as [->|N1]].
  - apply (D (fun t => -1 + / (1 - t))).
    + intros t Ht. assert (t < 1) by (destruct (Req_dec t 1) as [->|]; [assert (b = 1) by lra; specialize (H1 H); lra|lra]). unfold ad_prim.
      apply (is_derive_ext (fun t => - t - ln (1 - t))); [intros s; eqR; ring|]. auto_derive; [lra|]. field. lra.
    + intros t Ht. assert (t < 1) by (destruct (Req_dec t 1) as [->|]; [assert (b = 1) by lra; specialize (H1 H); lra|lra]).
      apply (ex_derive_continuous (fun t => -1 + / (1 - t))). auto_derive. lra.
    + intros t Ht. field. lra.
  - apply (D (fun t => -1 + / t)).
    + intros t Ht. assert (0 < t) by (destruct (Req_dec t 0) as [->|]; [assert (a = 0) by lra; specialize (H0 H); lra|lra]). unfold ad_prim.
      apply (is_derive_ext (fun t => - t + ln t)); [intros s; eqR; ring|]. auto_derive; [lra|]. field. lra.
    + intros t Ht. assert (0 < t) by (destruct (Req_dec t 0) as [->|]; [assert (a = 0) by lra; specialize (H0 H); lra|lra]).
      apply (ex_derive_continuous (fun t => -1 + / t)). auto_derive. lra.
    + intros t Ht. field. lra.
  - assert (a <> 0) by (intros E; now apply N0, H0). assert (b <> 1) by (intros E; now apply N1, H1).
    apply (D (fun t => -1 + c ^ 2 / t + (1 - c) ^ 2 / (1 - t))).
    + intros t Ht. unfold ad_prim. auto_derive; [lra|]. field. lra.
    + intros t Ht. apply (ex_derive_continuous (fun t => -1 + c ^ 2 / t + (1 - c) ^ 2 / (1 - t))). auto_derive. lra.
    + intros t Ht. field. lra.
Qed.
(** the integral from a to 1 when k of n observations are at most a and the remaining ones are the sorted list u *)
Fixpoint ad_tail (n k a : R) (u : list R) : R :=
  match u with [] => ad_prim (k / n) 1 - ad_prim (k / n) a | x :: u' => ad_prim (k / n) x - ad_prim (k / n) a + ad_tail n (k + 1) x u' end.
Definition upto (u : list R) (t : R) : R := INR (length (filter (fun y => Rleb y t) u)).
Lemma ad_tail_int n : 0 < n -> forall u k a, sortedR u -> (forall x, In x u -> a <= x /\ 0 < x < 1) -> 0 <= a -> a < 1 -> (a = 0 -> k = 0) -> 0 <= k -> k + len u = n -> (u = [] -> 0 < a) ->
  is_RInt (fun t => ((k + upto u t) / n - t) ^ 2 / (t * (1 - t))) a 1 (ad_tail n k a u).
Proof.
  intros Pn. induction u as [|x u IH]; intros k a HS HI Ha Ha1 H0 Hk Hn He.
  - unfold len in Hn. simpl in Hn. assert (KN : k / n = 1) by (replace k with n by lra; field; lra). cbn [ad_tail]. rewrite KN.
    apply (is_RInt_ext (V := R_NormedModule) (fun t => (1 - t) ^ 2 / (t * (1 - t)))); [|apply ad_step; try lra; specialize (He eq_refl); intros; lra].
    intros t _. unfold upto. simpl. now replace ((k + 0) / n) with 1 by (replace k with n by lra; field; lra).
  - cbn [ad_tail]. destruct (StronglySorted_inv HS) as [HS' HF]. destruct (HI x (or_introl eq_refl)) as [Hax Hx]. assert (PL : 0 <= len u) by apply pos_INR. rewrite len_cons in Hn.
    assert (KR : 0 <= k / n < 1). { split; [apply Rmult_le_pos; [lra|left; now apply Rinv_0_lt_compat]|]. apply (Rmult_lt_reg_r n); trivial. unfold Rdiv. rewrite Rmult_assoc, Rinv_l; lra. }
    change (ad_prim (k / n) x - ad_prim (k / n) a + ad_tail n (k + 1) x u) with (@plus R_NormedModule (ad_prim (k / n) x - ad_prim (k / n) a) (ad_tail n (k + 1) x u)).
    apply (is_RInt_Chasles (V := R_NormedModule) _ a x 1).
    + apply (is_RInt_ext (V := R_NormedModule) (fun t => (k / n - t) ^ 2 / (t * (1 - t)))).
      * rewrite Rmin_left, Rmax_right by lra. intros t Ht. assert (U : upto (x :: u) t = 0); [|now rewrite U, Rplus_0_r].
        unfold upto. replace (filter (fun y => Rleb y t) (x :: u)) with (@nil R); [reflexivity|]. symmetry. apply filter_none. intros y Hy. apply Rleb_false. destruct Hy as [<-|Hy]; [lra|].
        rewrite Forall_forall in HF. specialize (HF y Hy). lra.
      * apply ad_step; try lra. intros E. rewrite (H0 E). unfold Rdiv. ring.
    + apply (is_RInt_ext (V := R_NormedModule) (fun t => ((k + 1 + upto u t) / n - t) ^ 2 / (t * (1 - t)))).
      * rewrite Rmin_left, Rmax_right by lra. intros t Ht. assert (U : upto (x :: u) t = 1 + upto u t); [|now rewrite U, Rplus_assoc].
        unfold upto. cbn [filter]. rewrite (proj2 (Rleb_true x t)) by lra. cbn [length]. rewrite S_INR. ring.
      * apply IH; trivial; try lra. intros y Hy. split; [rewrite Forall_forall in HF; now apply HF|]. apply HI. now right.
Qed.
Lemma ad_tail_sum n : 0 < n -> forall u k a, k + len u = n ->
  ad_tail n k a u = ad_prim 1 1 - ad_prim (k / n) a
    - Rsum (imap (fun i x => (2 * (k + INR (S i)) - 1) / n ^ 2 * ln x + (2 * (n - k - INR (S i)) + 1) / n ^ 2 * ln (1 - x)) u).
Proof.
  intros Pn. induction u as [|x u IH]; intros k a Hn; cbn [ad_tail].
  - unfold len in Hn. simpl in Hn. replace (k / n) with 1 by (replace k with n by lra; field; lra). unfold imap. simpl. ring.
  - rewrite len_cons in Hn. rewrite IH by lra. rewrite imap_cons. cbn [Rsum]. rewrite (Rsum_imap_ext _ (fun i x => (2 * (k + INR (S (S i))) - 1) / n ^ 2 * ln x + (2 * (n - k - INR (S (S i))) + 1) / n ^ 2 * ln (1 - x))).
    + unfold ad_prim. change (INR 1) with 1. field. lra.
    + intros i y _ _. rewrite (S_INR (S i)). do 2 f_equal; [|]; f_equal; ring.
Qed.
Lemma ad_integral u : u <> [] -> (forall x, In x u -> 0 < x < 1) ->
  is_RInt (fun t => (edf u t - t) ^ 2 / (t * (1 - t))) 0 1 (ad_do_execute (map ln (rsort u)) (map (fun x => ln (1 - x)) (rsort u)) / len u).
Proof.
  intros Hne HI. set (s := rsort u). assert (Hs : s <> []) by now apply rsort_ne. pose proof (len_pos u Hne) as PL. assert (LS : len s = len u) by (unfold len, s; now rewrite rsort_length).
  assert (E : ad_do_execute (map ln s) (map (fun x => ln (1 - x)) s) / len u = ad_tail (len u) 0 0 s).
  { rewrite ad_closed by exact Hs. rewrite ad_tail_sum by lra. rewrite LS. unfold ad_prim. replace (0 / len u) with 0 by (field; lra). rewrite Rminus_0_r, ln_1.
    rewrite (Rsum_imap_ext (fun i x => midrank (len u) i * ln x + (1 - midrank (len u) i) * ln (1 - x)) (fun i x => len u / 2 * ((2 * (0 + INR (S i)) - 1) / len u ^ 2 * ln x + (2 * (len u - 0 - INR (S i)) + 1) / len u ^ 2 * ln (1 - x)))).
    - rewrite Rsum_imap_scal. field. lra.
    - intros i x _ _. unfold midrank. field. lra. }
  rewrite E. apply (is_RInt_ext (V := R_NormedModule) (fun t => ((0 + upto s t) / len u - t) ^ 2 / (t * (1 - t)))).
  - intros t _. rewrite Rplus_0_l. rewrite (edf_perm u s t) by (apply Permutation_sym, rsort_perm). unfold edf, upto. fold (len s). now rewrite LS.
  - apply ad_tail_int; trivial; try lra.
    + apply rsort_sorted.
    + intros x Hx. unfold s in Hx. rewrite rsort_in in Hx. specialize (HI x Hx). lra.
    + easy.
Qed.
Lemma ad_form F l v : l <> [] -> (forall x y, x <= y -> F x <= F y) -> ad_stat F l = Fin v ->
  ex_RInt (fun t => (edf (map F l) t - t) ^ 2 / (t * (1 - t))) 0 1 /\ v = anderson_darling (map F l).
Proof.
  intros Hne HM E. unfold ad_stat, cdf_vals, ad_of_cdf in E. destruct (forallb _ _) eqn:K; [|discriminate]. injection E as <-. rewrite forallb_forall in K.
  assert (U : map F (rsort l) = rsort (map F l)) by (symmetry; now apply rsort_map_mono).
  assert (HI : forall x, In x (map F l) -> 0 < x < 1). { intros x Hx. assert (Hx' : In x (map F (rsort l))) by (rewrite U, rsort_in; exact Hx). apply K in Hx'. apply andb_true_iff in Hx'. rewrite !Rltb_true in Hx'. exact Hx'. }
  assert (Hne' : map F l <> []) by now apply map_ne. pose proof (ad_integral _ Hne' HI) as I. rewrite U. split; [eexists; exact I|].
  unfold anderson_darling. rewrite (is_RInt_unique _ _ _ _ I). field. apply Rgt_not_eq, len_pos, Hne'.
Qed.
(** *** Cramer-von Mises, Watson, Kuiper *)
Lemma len_sorted u : len (rsort u) = len u.
Proof. unfold len. now rewrite rsort_length. Qed.
Lemma cvm_form F l v : l <> [] -> (forall x y, x <= y -> F x <= F y) -> (forall x, In x l -> 0 <= F x <= 1) -> cvm_stat F l = Ok v ->
  v = cramer_von_mises (map F l).
Proof.
  intros Hne HM H01 E. unfold cvm_stat, cdf_vals in E. rewrite <- (rsort_map_mono F l HM) in E. set (u := map F l) in *.
  assert (Hu : u <> []) by now apply map_ne. assert (U01 : in01 u) by (intros x Hx; apply in_map_iff in Hx as (y & <- & Hy); now apply H01).
  rewrite cvm_eval in E by now apply rsort_ne. injection E as <-. unfold cramer_von_mises. rewrite (is_RInt_unique _ _ _ _ (cvm_int01 u Hu U01)).
  pose proof (len_pos u Hu). rewrite len_sorted. field. lra.
Qed.
Lemma edf_mean_int u : u <> [] -> in01 u -> is_RInt (fun t => edf u t - t) 0 1 (/ 2 - mean u).
Proof.
  intros Hu U01. pose proof (len_pos u Hu) as PL.
  assert (E : / 2 - mean u = @minus R_NormedModule (scal (/ len u) (Rsum (map (fun x => 1 - x) u))) (/ 2)).
  { unfold minus, plus, opp, scal. simpl. unfold mult. simpl. unfold mean. rewrite (Rsum_map_ext (fun x => 1 - x) (fun x => 1 + -1 * x)) by (intros; ring).
    rewrite Rsum_map_plus, Rsum_map_const, Rsum_map_scal, map_id. fold (len u). field. lra. }
  rewrite E. apply (is_RInt_minus (V := R_NormedModule)).
  - apply (is_RInt_ext (V := R_NormedModule) (fun t => scal (/ len u) (Rsum (map (fun y => if Rleb y t then 1 else 0) u)))).
    + intros t _. unfold edf. rewrite count_as_sum. fold (len u). unfold scal. simpl. unfold mult. simpl. eqR. field. lra.
    + apply (is_RInt_scal (V := R_NormedModule)). apply (is_RInt_Rsum (fun y t => if Rleb y t then 1 else 0) (fun y => 1 - y)). intros y Hy.
      apply (int_tail (fun x => x) (fun _ => 1) 0 1 y); [intros x; apply (is_derive_id (K := R_AbsRing))|intros x; apply continuous_const|now apply U01].
  - replace (/ 2) with (1 ^ 2 / 2 - 0 ^ 2 / 2) by field. apply (is_RInt_derive (V := R_CompleteNormedModule) (fun t => t ^ 2 / 2) (fun t => t)).
    + intros t _. auto_derive; trivial. field.
    + intros t _. apply continuous_id.
Qed.
Lemma watson_integral u : u <> [] -> in01 u -> watson_val (rsort u) = watson u.
Proof.
  intros Hu U01. pose proof (len_pos u Hu) as PL. unfold watson. rewrite (is_RInt_unique _ _ _ _ (edf_mean_int u Hu U01)). set (d := / 2 - mean u).
  assert (I : is_RInt (fun t => (edf u t - t - d) ^ 2) 0 1 (/ 3 + sumsq (rsort u) / len u - wsum (rsort u) / len u ^ 2 - d ^ 2)).
  { assert (C : is_RInt (fun _ => d ^ 2) 0 1 (d ^ 2)). { pose proof (@is_RInt_const R_NormedModule 0 1 (d ^ 2)) as C. unfold scal in C. simpl in C. unfold mult in C. simpl in C. replace ((1 - 0) * (d * (d * 1))) with (d ^ 2) in C by ring. exact C. }
    pose proof (is_RInt_scal (V := R_NormedModule) _ _ _ (2 * d) _ (edf_mean_int u Hu U01)) as I1. fold d in I1.
    pose proof (is_RInt_plus (V := R_NormedModule) _ _ _ _ _ _ (is_RInt_minus (V := R_NormedModule) _ _ _ _ _ _ (cvm_int01 u Hu U01) I1) C) as I2.
    match type of I2 with is_RInt _ _ _ ?w => replace (/ 3 + sumsq (rsort u) / len u - wsum (rsort u) / len u ^ 2 - d ^ 2) with w end.
    - revert I2. apply (is_RInt_ext (V := R_NormedModule)). intros t _. unfold minus, plus, opp, scal. simpl. unfold mult, plus. simpl. eqR. ring.
    - unfold minus, plus, opp, scal. simpl. unfold mult, plus. simpl. ring. }
  rewrite (is_RInt_unique _ _ _ _ I). rewrite watson_center by now apply rsort_ne. rewrite <- sq_sym_sum, cvm_closed by now apply rsort_ne.
  rewrite (GraphInvProofs.mean_perm (rsort u) u) by (apply rsort_perm). rewrite len_sorted. unfold d. field. lra.
Qed.
Lemma watson_form F l v : l <> [] -> (forall x y, x <= y -> F x <= F y) -> (forall x, In x l -> 0 <= F x <= 1) -> watson_stat F l = Ok v \/ watson_gamma_stat F l = Ok v ->
  v = watson (map F l).
Proof.
  intros Hne HM H01 E. unfold watson_stat, watson_gamma_stat, cdf_vals in E. rewrite <- (rsort_map_mono F l HM) in E. set (u := map F l) in *.
  assert (Hu : u <> []) by now apply map_ne. assert (U01 : in01 u) by (intros x Hx; apply in_map_iff in Hx as (y & <- & Hy); now apply H01).
  rewrite watson_eval, watson_gamma_eval in E by now apply rsort_ne. rewrite <- watson_integral by trivial. destruct E as [E|E]; now injection E as <-.
Qed.
Lemma kuiper_form F l v : l <> [] -> continuous_cdf F -> kuiper_stat F l = Ok v -> kuiper F l v.
Proof.
  intros Hne HF E. unfold kuiper_stat, cdf_vals in E. rewrite kuiper_eval in E by (apply map_ne, rsort_ne, Hne). injection E as <-.
  eexists. eexists. split; [apply dplus_sup; auto|]. split; [apply dminus_sup; auto|]. reflexivity.
Qed.
(** *** spacings *)
Lemma spacings_gap lo hi l : spacings lo (rsort l) hi = map (gap lo hi l) (seq 0 (S (length l))).
Proof.
  unfold spacings. apply (nth_ext _ _ 0 0); rewrite NormReflProofs.diff_length; cbn [length]; rewrite app_length, rsort_length; cbn [length].
  - rewrite map_length, seq_length. lia.
  - intros i Hi. rewrite GraphLineProofs.diff_nth_gap by (cbn [length]; rewrite app_length, rsort_length; cbn [length]; lia). now rewrite GraphProofs.nth_map_seq by lia.
Qed.
Lemma gap_sum_spacings lo hi l f : Rsum (map f (spacings lo (rsort l) hi)) = gap_sum lo hi l f.
Proof. rewrite spacings_gap, map_map. reflexivity. Qed.
Lemma products_gap (g : nat -> R) : forall k a, consecutive_products (map g (seq a (S k))) = Rsum (map (fun i => g i * g (S i)) (seq a k)).
Proof. induction k as [|k IH]; intros a; [reflexivity|]. specialize (IH (S a)). cbn [seq map consecutive_products Rsum] in *. now rewrite IH. Qed.
Lemma greenwood_gap u : greenwood_of (rsort u) = greenwood u.
Proof. unfold greenwood_of. now rewrite gap_sum_spacings. Qed.
Lemma moran_gap u v : moran_of (rsort u) = Ok v -> v = moran u.
Proof.
  intros E. unfold moran_of in E. destruct (rsort u) as [|a s] eqn:S; [discriminate|]. rewrite <- S in E. destruct (existsb _ _); [discriminate|]. injection E as <-.
  unfold moran. rewrite <- gap_sum_spacings. unfold len. now rewrite rsort_length.
Qed.
Lemma sherman_gap lo hi l : sherman_of lo hi (rsort l) = sherman lo hi l.
Proof. unfold sherman_of, sherman. cbv zeta. rewrite gap_sum_spacings. unfold len. rewrite rsort_length. f_equal. lra. Qed.
Lemma qm_gap lo hi l : quesenberry_miller_of lo hi (rsort l) = quesenberry_miller lo hi l.
Proof. unfold quesenberry_miller_of, quesenberry_miller. cbv zeta. rewrite gap_sum_spacings, spacings_gap, products_gap. reflexivity. Qed.
(** *** order statistics *)
Lemma imap_order {B} (f : nat -> R -> B) u : imap f (rsort u) = map (fun i => f (i - 1)%nat (order u i)) (seq 1 (length u)).
Proof.
  rewrite (imap_seq f (rsort u) 0), rsort_length. rewrite NormMoreProofs.map_seq_shift. apply map_ext. intros i. unfold order. now replace (S i - 1)%nat with i by lia.
Qed.
Lemma order_in u i : (1 <= i <= length u)%nat -> In (order u i) u.
Proof. intros H. unfold order. rewrite <- rsort_in. apply nth_In. rewrite rsort_length. lia. Qed.
Lemma mt_order u v : mt_do_execute (rsort u) = Fin v -> v = min_toshiyuki u.
Proof.
  intros E. unfold mt_do_execute in E. destruct (forallb _ _ && _) eqn:K; [|discriminate]. injection E as <-. apply andb_true_iff in K as [K _]. rewrite forallb_forall in K.
  unfold min_toshiyuki. cbv zeta. rewrite imap_order. unfold len. rewrite rsort_length. unfold Rdiv at 1. rewrite Rmult_comm. f_equal. apply Rsum_map_ext. intros i Hi. apply in_seq in Hi.
  change (match (i - 1)%nat with 0%nat => 1 | S _ => INR (i - 1) + 1 end) with (INR (S (i - 1))). replace (INR (S (i - 1))) with (INR i) by (f_equal; lia). replace (INR (i - 1)) with (INR i - 1) by (rewrite minus_INR by lia; reflexivity).
  assert (I : 0 < order u i < 1). { assert (In (order u i) (rsort u)) by (rewrite rsort_in; apply order_in; lia). apply K in H. apply andb_true_iff in H. now rewrite !Rltb_true in H. }
  cbv beta. unfold Rdiv. rewrite Rmult_1_l, sqrt_inv. reflexivity.
Qed.
Lemma zhang_order u : StudentModel.zhang_za_of (rsort u) = zhang_a u.
Proof.
  unfold StudentModel.zhang_za_of, zhang_a. cbv zeta. rewrite !imap_order. unfold len. rewrite rsort_length. rewrite Rsum_map_plus.
  replace 0.5 with (/ 2) by lra.
  rewrite (Rsum_map_ext (fun i => ln (order u i) / (INR (length u) - INR (S (i - 1)) + / 2)) (fun i => ln (order u i) / (INR (length u) - INR i + / 2))) by (intros i Hi; apply in_seq in Hi; now replace (S (i - 1)) with i by lia).
  rewrite (Rsum_map_ext (fun i => ln (1 - order u i) / (INR (S (i - 1)) - / 2)) (fun i => ln (1 - order u i) / (INR i - / 2))) by (intros i Hi; apply in_seq in Hi; now replace (S (i - 1)) with i by lia).
  ring.
Qed.
(** *** power divergences *)
Lemma pd_terms lam (o e : nat -> R) : forall s v, (forall i, In i s -> 0 <= o i) -> pd_sum lam (map o s) (map e s) = Some v ->
  v = Rsum (map (fun i => if Req_EM_T lam 1 then (o i - e i) ^ 2 / e i else if Req_EM_T lam 0 then 2 * (o i * ln (o i / e i))
                          else if Req_EM_T lam (-1) then 2 * (e i * ln (e i / o i)) else 2 / (lam * (lam + 1)) * (o i * (Rpower (o i / e i) lam - 1))) s).
Proof.
  induction s as [|i s IH]; intros v Ho E; cbn [map pd_sum] in E; [injection E as <-; reflexivity|]. destruct (pd_term _ _ _) as [t|] eqn:Et; [|discriminate]. destruct (pd_sum _ _ _) as [w|] eqn:Ew; [|discriminate].
  injection E as <-. cbn [map Rsum]. rewrite <- (IH w) by (trivial; intros; apply Ho; now right). f_equal. clear IH Ew. unfold pd_term, xlogy in Et.
  assert (RQ : forall a b (P : a = b \/ a <> b), Reqb a b = if Req_EM_T a b then true else false) by (intros a b _; destruct (Req_EM_T a b) as [->|N]; [now apply Reqb_true|now apply Reqb_false]).
  rewrite !RQ in Et by (apply Req_dec). destruct (Req_EM_T lam 1); [destruct (Req_EM_T (e i) 0); [discriminate|]; now injection Et|].
  destruct (Req_EM_T lam 0); [destruct (Req_EM_T (e i) 0); [discriminate|]; injection Et as <-; destruct (Req_EM_T (o i) 0) as [Z|Z]; [rewrite Z; ring|reflexivity]|].
  destruct (Req_EM_T lam (-1)); [destruct (Req_EM_T (o i) 0); [discriminate|]; injection Et as <-; destruct (Req_EM_T (e i) 0) as [Z|Z]; [rewrite Z; ring|reflexivity]|].
  destruct (Req_EM_T (e i) 0); [discriminate|]. destruct (Req_EM_T (o i) 0) as [Z|Z].
  - destruct (Rltb 0 lam); [injection Et as <-; rewrite Z; ring|discriminate].
  - injection Et as <-. replace 0.5 with (/ 2) by lra. field. split; lra.
Qed.
Lemma pd_cressie_read lam k o e v : (forall i, (i < k)%nat -> 0 <= o i /\ 0 < e i) -> Rsum (map o (seq 0 k)) = Rsum (map e (seq 0 k)) ->
  power_divergence lam (map o (seq 0 k)) (map e (seq 0 k)) = Fin v -> v = cressie_read lam k o e.
Proof.
  intros Ho T E. unfold power_divergence in E. destruct (pd_sum _ _ _) as [w|] eqn:W; [|discriminate]. injection E as <-.
  apply pd_terms in W; [|intros i Hi; apply in_seq in Hi; apply Ho; lia]. rewrite W. unfold cressie_read.
  destruct (Req_EM_T lam 1) as [->|N1].
  - destruct (Req_EM_T 1 0); [lra|]. destruct (Req_EM_T 1 (-1)); [lra|]. replace (2 / (1 * (1 + 1))) with 1 by field. rewrite Rmult_1_l.
    rewrite (Rsum_map_ext (fun i => (o i - e i) ^ 2 / e i) (fun i => o i * (Rpower (o i / e i) 1 - 1) + (e i + -1 * o i))).
    + rewrite !Rsum_map_plus, Rsum_map_scal, T. ring.
    + intros i Hi. apply in_seq in Hi. destruct (Ho i ltac:(lia)) as [H1 H2]. destruct (Req_dec (o i) 0) as [Z|Z]; [rewrite Z; field; lra|].
      rewrite Rpower_1 by (apply Rdiv_lt_0_compat; lra). field. lra.
  - destruct (Req_EM_T lam 0); [now rewrite Rsum_map_scal|]. destruct (Req_EM_T lam (-1)); now rewrite Rsum_map_scal.
Qed.
Lemma cell_counts_total lo hi k l : lo < hi -> (0 < k)%nat -> (forall x, In x l -> lo <= x <= hi) -> Rsum (map (cell_count lo hi k l) (seq 0 k)) = len l.
Proof. intros Hlt Hk Hb. unfold cell_count. rewrite <- (cells_histogram lo hi k l Hlt Hk Hb). apply histogram_total. Qed.
(** k cells of equal probability under F: the cells of the transformed sample are the k equal parts of the unit interval *)
Lemma binned_form (F Q : R -> R) lam k l v : (0 < k)%nat -> l <> [] -> (forall x, In x l -> 0 <= F x <= 1) -> (forall x p, In x l -> 0 < p < 1 -> (x < Q p <-> F x < p)) ->
  power_divergence lam (map INR (histogram (map (fun i => Q (INR (S i) / INR k)) (seq 0 (k - 1))) l)) (repeat (len l / INR k) k) = Fin v ->
  v = cressie_read lam k (cell_count 0 1 k (map F l)) (fun _ => len l / INR k).
Proof.
  intros Hk Hne H01 HQ E. assert (PK : 0 < INR k) by now apply lt_0_INR. pose proof (len_pos l Hne) as PL.
  assert (U01 : forall x, In x (map F l) -> 0 <= x <= 1) by (intros x Hx; apply in_map_iff in Hx as (y & <- & Hy); now apply H01).
  assert (HH : histogram (map (fun i => Q (INR (S i) / INR k)) (seq 0 (k - 1))) l = histogram (map (fun i => cell_edge 0 1 k (S i)) (seq 0 (k - 1))) (map F l)).
  { clear E. assert (W : forall s m, (forall i, In i s -> (S i < k)%nat) -> (forall x, In x m -> In x l) -> histogram (map (fun i => Q (INR (S i) / INR k)) s) m = histogram (map (fun i => cell_edge 0 1 k (S i)) s) (map F m)).
    { induction s as [|i s IH]; intros m Hs Hm; cbn [map histogram]; [now rewrite map_length|].
      assert (CE : cell_edge 0 1 k (S i) = INR (S i) / INR k) by (unfold cell_edge; field; lra). specialize (Hs i (or_introl eq_refl)) as Hi.
      assert (P : 0 < INR (S i) / INR k < 1). { apply lt_INR in Hi. split; [apply Rdiv_lt_0_compat; trivial; apply lt_0_INR; lia|]. apply (Rmult_lt_reg_r (INR k)); trivial. unfold Rdiv. rewrite Rmult_assoc, Rinv_l; lra. }
      assert (T : forall x, In x m -> Rltb x (Q (INR (S i) / INR k)) = Rltb (F x) (cell_edge 0 1 k (S i))).
      { intros x Hx. rewrite CE. specialize (HQ x _ (Hm x Hx) P). destruct (Rltb_spec x (Q (INR (S i) / INR k))) as [A|A], (Rltb_spec (F x) (INR (S i) / INR k)) as [C|C]; trivial; [apply HQ in A; lra|apply HQ in C; lra]. }
      assert (K : forall (p q : R -> bool), (forall x, In x m -> p x = q (F x)) -> map F (filter p m) = filter q (map F m)).
      { intros p q Hp. clear -Hp. induction m as [|x m IHm]; trivial. cbn [filter map]. rewrite <- (Hp x (or_introl eq_refl)). destruct (p x); cbn [map]; now rewrite IHm by (intros; apply Hp; now right). }
      f_equal.
      - rewrite <- (K (fun x => Rltb x (Q (INR (S i) / INR k))) (fun y => Rltb y (cell_edge 0 1 k (S i)))) by exact T. now rewrite map_length.
      - rewrite IH; [|intros; apply Hs; now right|intros x Hx; apply filter_In in Hx as [Hx _]; now apply Hm]. f_equal. apply K. intros x Hx. now rewrite T. }
    apply W; trivial. intros i Hi. apply in_seq in Hi. lia. }
  rewrite HH, (cells_histogram 0 1 k (map F l) Rlt_0_1 Hk U01) in E. fold (cell_count 0 1 k (map F l)) in E.
  replace (repeat (len l / INR k) k) with (map (fun _ : nat => len l / INR k) (seq 0 k)) in E.
  - apply pd_cressie_read in E; trivial.
    + intros i _. split; [apply pos_INR|now apply Rdiv_lt_0_compat].
    + rewrite cell_counts_total by (trivial; lra). rewrite Rsum_map_const, seq_length. unfold len. rewrite map_length. field. lra.
  - generalize (len l / INR k). generalize 0%nat. clear. induction k as [|k IH]; intros a c; trivial. cbn [seq map repeat]. now rewrite IH.
Qed.
