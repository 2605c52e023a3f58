(** Maximum likelihood: discrete families, values outside the support, degenerate samples. *)
From Coq Require Import ZArith.
From Verif Require Import Base NormModel MleModel MleSpec Analysis EdfProofs NormProofs NormSymProofs NormReflProofs NormRangeProofs NormFiniteProofs NormBoundProofs ExpRangeProofs MleProofs.
From Coq Require Import Lra Lia.
Local Open Scope R_scope.

Lemma exp_mono a b : a <= b -> exp a <= exp b.
Proof. intros [H|H]; [left; now apply exp_increasing|now rewrite H; right]. Qed.
(** *** integers *)
Lemma int_part_IZR z : Int_part (IZR z) = z.
Proof. unfold Int_part. rewrite <- (tech_up (IZR z) (z + 1)); [lia|rewrite plus_IZR; lra..]. Qed.
Lemma is_int_spec x : is_int x = true <-> integer x.
Proof.
  unfold is_int, integer. rewrite Reqb_true. split; [intros H; eexists; symmetry; exact H|]. intros (z & ->). now rewrite int_part_IZR.
Qed.
Lemma to_nat_INR x : integer x -> 0 <= x -> INR (to_nat x) = x.
Proof.
  intros (z & ->) H. unfold to_nat. rewrite int_part_IZR. apply le_IZR in H. rewrite INR_IZR_INZ, Z2Nat.id by lia. reflexivity.
Qed.
Lemma integer_INR k : integer (INR k).
Proof. exists (Z.of_nat k). apply INR_IZR_INZ. Qed.
Lemma to_nat_of k : to_nat (INR k) = k.
Proof. unfold to_nat. rewrite INR_IZR_INZ, int_part_IZR. apply Nat2Z.id. Qed.
Lemma integer_gap x y : integer x -> integer y -> x < y -> x + 1 <= y.
Proof. intros (a & ->) (b & ->) H. apply lt_IZR in H. rewrite <- plus_IZR. apply IZR_le. lia. Qed.

(** *** discrete uniform *)
Lemma discrete_uniform_opt c l : l <> [] -> (forall x, In x l -> integer x) ->
  exists v, lf_discrete_uniform c l = Ok (Val v) /\
  is_maximum (fun p : Z * Z => (fst p <= snd p)%Z) (fun p => likelihood (discrete_uniform_pmf (fst p) (snd p)) l) v.
Proof.
  intros Hne Hi. set (a := Rminl 0 l). set (b := Rmaxl 0 l). pose proof (minl_le_maxl l Hne) as LE. fold a b in LE.
  exists (exp (- len l * ln (b - a + 1))). split; [unfold lf_discrete_uniform; now rewrite match_ne|].
  rewrite exp_len_ln by lra. destruct (Hi a) as (za & Ea); [now apply Rminl_in|]. destruct (Hi b) as (zb & Eb); [now apply Rmaxl_in|]. split.
  - exists (za, zb). cbn [fst snd]. split; [apply le_IZR; lra|]. apply lik_ext. intros z Hz. unfold discrete_uniform_pmf. rewrite <- Ea, <- Eb.
    rewrite (proj2 (Rleb_true a z)) by (now apply Rminl_le). rewrite (proj2 (Rleb_true z b)) by (now apply Rmaxl_ge). fold (is_int z). now rewrite (proj2 (is_int_spec z) (Hi z Hz)).
  - intros (a', b') Hp. cbn [fst snd] in *. apply IZR_le in Hp. rewrite <- exp_len_ln by lra. apply lik_bound.
    + intros z _. unfold discrete_uniform_pmf. destruct (Rleb _ z && Rleb z _ && Reqb _ z); [|lra]. left. apply Rdiv_lt_0_compat; lra.
    + intros P.
      assert (I : forall z, In z l -> IZR a' <= z <= IZR b').
      { intros z Hz. specialize (P z Hz). unfold discrete_uniform_pmf in P. destruct (Rleb_spec (IZR a') z), (Rleb_spec z (IZR b')); simpl in P; lra. }
      assert (IZR a' <= a) by (apply I; now apply Rminl_in). assert (b <= IZR b') by (apply I; now apply Rmaxl_in).
      rewrite (Rsum_map_ext _ (fun _ => - ln (IZR b' - IZR a' + 1))).
      * rewrite Rsum_const_len. assert (ln (b - a + 1) <= ln (IZR b' - IZR a' + 1)) by (apply ln_le; lra). pose proof (len_pos l Hne). nra.
      * intros z Hz. specialize (I z Hz). unfold discrete_uniform_pmf. rewrite (proj2 (Rleb_true _ z)), (proj2 (Rleb_true z _)) by lra.
        fold (is_int z). rewrite (proj2 (is_int_spec z) (Hi z Hz)). cbn [andb]. unfold Rdiv. rewrite Rmult_1_l, ln_Rinv by lra. reflexivity.
Qed.

(** k ln p + m ln (1 - p) is largest at p = k / (k + m) *)
Lemma gibbs k m p : 0 < k -> 0 < m -> 0 < p < 1 ->
  k * ln p + m * ln (1 - p) <= k * ln (k / (k + m)) + m * ln (1 - k / (k + m)).
Proof.
  intros Hk Hm (H0 & H1). assert (A : 0 < k / (k + m)) by (apply Rdiv_lt_0_compat; lra).
  replace (1 - k / (k + m)) with (m / (k + m)) by (field; lra). assert (B : 0 < m / (k + m)) by (apply Rdiv_lt_0_compat; lra).
  pose proof (ln_ratio_le p _ H0 A) as K. pose proof (ln_ratio_le (1 - p) _ ltac:(lra) B) as M.
  assert (k * (p / (k / (k + m))) = p * (k + m)) by (field; lra). assert (m * ((1 - p) / (m / (k + m))) = (1 - p) * (k + m)) by (field; lra). nra.
Qed.
Lemma Rsum_le_len c l : (forall x, In x l -> x <= c) -> Rsum l <= len l * c.
Proof. intros H. rewrite <- Rsum_const_len, <- (map_id l) at 1. apply Rsum_map_le. exact H. Qed.
Lemma Rsum_full c l : (forall x, In x l -> x <= c) -> Rsum l = len l * c -> forall x, In x l -> x = c.
Proof.
  intros H E x Hx. assert (Z : c - x = 0); [|lra]. apply (Rsum_zero (map (fun x => c - x) l)).
  - intros y Hy. apply in_map_iff in Hy. destruct Hy as (u & <- & Hu). specialize (H u Hu). lra.
  - rewrite Rsum_map_minus, Rsum_const_len, map_id. lra.
  - apply in_map_iff; eauto.
Qed.
Lemma likelihood_le_one f l : (forall x, In x l -> 0 <= f x <= 1) -> likelihood f l <= 1.
Proof.
  intros H. assert (0 <= likelihood f l <= 1); [|lra]. induction l as [|x l IH]; simpl; [lra|].
  pose proof (H x (or_introl eq_refl)). assert (0 <= likelihood f l <= 1) by (apply IH; intros; apply H; simpl; auto). nra.
Qed.
Lemma likelihood_one f l : (forall x, In x l -> f x = 1) -> likelihood f l = 1.
Proof. intros H. rewrite (lik_ext f (fun _ => 1)) by trivial. induction l as [|x l IH]; simpl; [reflexivity|]. rewrite IH; [lra|]. intros; apply H; simpl; auto. Qed.

(** *** Bernoulli *)
Lemma bernoulli_opt c l : l <> [] -> (forall x, In x l -> x = 0 \/ x = 1) ->
  exists v, lf_bernoulli c l = Ok (Val v) /\ is_maximum (fun p => 0 <= p <= 1) (fun p => likelihood (bernoulli_pmf p) l) v.
Proof.
  intros Hne H. pose proof (len_pos l Hne) as L. set (p := Rsum l / len l).
  assert (E1 : forallb (fun x => Reqb x 0 || Reqb x 1) l = true).
  { apply forallb_forall. intros x Hx. apply orb_true_iff. rewrite !Reqb_true. auto. }
  assert (Nn : 0 <= Rsum l) by (apply Rsum_nonneg; intros x Hx; destruct (H x Hx); lra).
  assert (Nl : Rsum l <= len l * 1) by (apply Rsum_le_len; intros x Hx; destruct (H x Hx); lra).
  assert (Rng : forall q x, 0 <= q <= 1 -> In x l -> 0 <= bernoulli_pmf q x <= 1).
  { intros q x Hq Hx. unfold bernoulli_pmf. destruct (Reqb x 1), (Reqb x 0); lra. }
  unfold lf_bernoulli. rewrite E1, match_ne by trivial. cbn [negb]. fold p.
  destruct (Reqb_spec p 0) as [E|E].
  - exists 1. split; [reflexivity|]. split; [|intros; apply likelihood_le_one; auto]. exists 0. split; [lra|].
    apply likelihood_one. intros x Hx. assert (Z : x = 0).
    { apply (Rsum_zero l); trivial; [intros y Hy; destruct (H y Hy); lra|]. unfold p in E. apply (Rmult_eq_compat_r (len l)) in E. unfold Rdiv in E. rewrite Rmult_assoc, Rinv_l in E by lra. lra. }
    rewrite Z. unfold bernoulli_pmf. rewrite (proj2 (Reqb_false 0 1)), (proj2 (Reqb_true 0 0)) by lra. lra.
  - destruct (Reqb_spec p 1) as [E'|E'].
    + exists 1. split; [reflexivity|]. split; [|intros; apply likelihood_le_one; auto]. exists 1. split; [lra|].
      apply likelihood_one. intros x Hx. assert (Z : x = 1).
      { apply (Rsum_full 1 l); trivial; [intros y Hy; destruct (H y Hy); lra|]. unfold p in E'. apply (Rmult_eq_compat_r (len l)) in E'. unfold Rdiv in E'. rewrite Rmult_assoc, Rinv_l in E' by lra. lra. }
      rewrite Z. unfold bernoulli_pmf. now rewrite (proj2 (Reqb_true 1 1)).
    + cbn [orb]. assert (S0 : 0 < Rsum l) by (destruct Nn as [?|N0]; [trivial|]; exfalso; apply E; unfold p; rewrite <- N0; field; lra).
      assert (S1 : 0 < len l - Rsum l). { destruct Nl as [?|N1]; [lra|]. exfalso. apply E'. unfold p. rewrite N1. field. lra. }
      assert (Ln : forall q, 0 < q < 1 -> Rsum (map (fun x => ln (bernoulli_pmf q x)) l) = Rsum l * ln q + (len l - Rsum l) * ln (1 - q)).
      { intros q Hq. rewrite (Rsum_map_ext _ (fun x => (ln q - ln (1 - q)) * x + ln (1 - q))).
        - rewrite Rsum_map_plus, Rsum_map_scal, Rsum_const_len, map_id. ring.
        - intros x Hx. unfold bernoulli_pmf. destruct (H x Hx) as [-> | ->].
          + rewrite (proj2 (Reqb_false 0 1)), (proj2 (Reqb_true 0 0)) by lra. lra.
          + rewrite (proj2 (Reqb_true 1 1)) by lra. lra. }
      assert (Hp : 0 < p < 1). { unfold p. split; [now apply Rdiv_lt_0_compat|]. apply (Rmult_lt_reg_r (len l)); [lra|]. unfold Rdiv. rewrite Rmult_assoc, Rinv_l by lra. lra. }
      assert (Pos : forall x, In x l -> 0 < bernoulli_pmf p x).
      { intros x Hx. unfold bernoulli_pmf. destruct (H x Hx) as [-> | ->]; [rewrite (proj2 (Reqb_false 0 1)), (proj2 (Reqb_true 0 0)) by lra; lra|rewrite (proj2 (Reqb_true 1 1)) by lra; lra]. }
      eexists. split; [reflexivity|]. split.
      * exists p. split; [lra|]. rewrite lik_exp by trivial. now rewrite Ln.
      * intros q Hq. apply lik_bound; [intros; apply Rng; trivial|]. intros P.
        assert (X0 : In 0 l). { destruct (in_dec Req_EM_T 0 l) as [?|N0]; [trivial|]. exfalso. assert (Rsum l = len l * 1); [|lra].
          rewrite <- Rsum_const_len, <- (map_id l) at 1. apply Rsum_map_ext. intros x Hx. destruct (H x Hx) as [-> | ]; [contradiction|trivial]. }
        assert (X1 : In 1 l). { destruct (in_dec Req_EM_T 1 l) as [?|N1]; [trivial|]. exfalso. assert (Rsum l = len l * 0); [|lra].
          rewrite <- Rsum_const_len, <- (map_id l) at 1. apply Rsum_map_ext. intros x Hx. destruct (H x Hx) as [ | ->]; [trivial|contradiction]. }
        apply P in X0. apply P in X1. unfold bernoulli_pmf in X0, X1. rewrite (proj2 (Reqb_false 0 1)), (proj2 (Reqb_true 0 0)) in X0 by lra.
        rewrite (proj2 (Reqb_true 1 1)) in X1 by lra. rewrite Ln by lra. pose proof (gibbs (Rsum l) (len l - Rsum l) q S0 S1 ltac:(lra)) as K.
        replace (Rsum l + (len l - Rsum l)) with (len l) in K by ring. exact K.
Qed.

(** *** binomial *)
Lemma choose_C n k : (k <= n)%nat -> INR (choose n k) = C n k.
Proof.
  intros H. induction k as [|k IH].
  - rewrite choose_0. unfold C. rewrite Nat.sub_0_r. simpl (fact 0). pose proof (INR_fact_neq_0 n). change (INR 1) with 1. field. trivial.
  - pose proof (choose_step n k) as Hs. rewrite IH in Hs by lia. assert (0 < INR (S k)) by (apply lt_0_INR; lia).
    apply (Rmult_eq_reg_l (INR (S k))); [|lra]. rewrite Hs. unfold C. replace (n - k)%nat with (S (n - S k)) by lia.
    rewrite !fact_simpl, !mult_INR. replace (INR (S (n - S k))) with (INR n - INR k) by (rewrite <- minus_INR by lia; f_equal; lia).
    pose proof (INR_fact_neq_0 k). pose proof (INR_fact_neq_0 (n - S k)). assert (INR n - INR k <> 0) by (rewrite <- minus_INR by lia; apply not_0_INR; lia).
    field. repeat split; trivial; lra.
Qed.
Lemma C_pos n k : (k <= n)%nat -> 0 < C n k.
Proof. intros H. rewrite <- choose_C by trivial. apply lt_0_INR, choose_pos, H. Qed.
Lemma binomial_val n p k : (k <= n)%nat -> binomial_pmf n p (INR k) = C n k * p ^ k * (1 - p) ^ (n - k).
Proof.
  intros H. unfold binomial_pmf. change (Z.to_nat (Int_part (INR k))) with (to_nat (INR k)). rewrite to_nat_of.
  rewrite (proj2 (Rleb_true 0 _)) by apply pos_INR. rewrite (proj2 (Rleb_true _ (INR n))) by (now apply le_INR). now rewrite (proj2 (Reqb_true _ _) eq_refl).
Qed.
Lemma pow_eq_ln p k : 0 < p -> ln (p ^ k) = INR k * ln p.
Proof. intros. rewrite <- Rpower_pow by trivial. unfold Rpower. now rewrite ln_exp. Qed.
Lemma binomial_term_le1 n p k : (k <= n)%nat -> 0 <= p <= 1 -> 0 <= C n k * p ^ k * (1 - p) ^ (n - k) <= 1.
Proof.
  intros Hk Hp.
  assert (T : forall i, (i <= n)%nat -> 0 <= C n i * p ^ i * (1 - p) ^ (n - i)).
  { intros i Hi. apply Rmult_le_pos; [apply Rmult_le_pos; [left; now apply C_pos|apply pow_le; lra]|apply pow_le; lra]. }
  split; [now apply T|]. pose proof (NormReflProofs.binomial p (1 - p) n) as B. replace (p + (1 - p)) with 1 in B by ring. rewrite pow1 in B.
  rewrite <- choose_C by trivial. refine (Rle_trans _ _ _ (Rsum_in_le _ _ _ _) (Req_le _ _ B)).
  - intros y Hy. apply in_map_iff in Hy. destruct Hy as (i & <- & Hi). apply in_seq in Hi. rewrite choose_C by lia. apply T. lia.
  - apply (in_map (fun k => INR (choose n k) * p ^ k * (1 - p) ^ (n - k))). apply in_seq. lia.
Qed.
Lemma counts_guard n l : counts n l -> existsb (fun x => Rltb x 0 || Rltb (INR n) x || negb (is_int x)) l = false.
Proof.
  intros H. destruct (existsb _ l) eqn:E; [|reflexivity]. apply existsb_exists in E. destruct E as (x & Hx & E). destruct (H x Hx) as (k & Hk & ->).
  rewrite (proj2 (is_int_spec (INR k)) (integer_INR k)), (proj2 (Rltb_false (INR k) 0) (pos_INR k)), (proj2 (Rltb_false (INR n) (INR k)) (le_INR _ _ Hk)) in E. discriminate.
Qed.
Lemma div_prod_mult a x n : x <> 0 -> n <> 0 -> a / (x * n) * (x * n) = a.
Proof. intros. field. auto. Qed.
Lemma binomial_opt n l : (0 < n)%nat -> l <> [] -> counts n l ->
  exists v, lf_binomial KInt l n = Ok (Val v) /\ is_maximum (fun p => 0 <= p <= 1) (fun p => likelihood (binomial_pmf n p) l) v.
Proof.
  intros Hn Hne H. pose proof (len_pos l Hne) as L. pose proof (lt_0_INR n Hn) as Np. set (p := Rsum l / (len l * INR n)).
  assert (Nn : 0 <= Rsum l) by (apply Rsum_nonneg; intros x Hx; destruct (H x Hx) as (k & _ & ->); apply pos_INR).
  assert (Nl : Rsum l <= len l * INR n) by (apply Rsum_le_len; intros x Hx; destruct (H x Hx) as (k & Hk & ->); now apply le_INR).
  assert (Rng : forall q x, 0 <= q <= 1 -> In x l -> 0 <= binomial_pmf n q x <= 1).
  { intros q x Hq Hx. destruct (H x Hx) as (k & Hk & ->). rewrite binomial_val by trivial. now apply binomial_term_le1. }
  assert (LN : 0 < len l * INR n) by nra.
  assert (Ep : p * (len l * INR n) = Rsum l) by (unfold p; apply div_prod_mult; lra).
  unfold lf_binomial. rewrite counts_guard, match_ne by trivial. cbn [elementwise]. fold p. rewrite (proj2 (Nat.eqb_neq n 0)) by lia. cbn [negb andb].
  destruct (Reqb_spec p 0) as [E|E].
  { assert (Z : forall x, In x l -> x = 0).
    { apply Rsum_zero; [intros x Hx; destruct (H x Hx) as (k & _ & ->); apply pos_INR|]. rewrite <- Ep, E. ring. }
    assert (F : forallb (fun x => Reqb x 0) l = true) by (apply forallb_forall; intros x Hx; apply Reqb_true; auto).
    rewrite F. cbn [orb]. exists 1. split; [reflexivity|]. split; [|intros; apply likelihood_le_one; auto]. exists 0. split; [lra|].
    apply likelihood_one. intros x Hx. rewrite (Z x Hx). change 0 with (INR 0) at 2. rewrite binomial_val by lia. unfold C. rewrite Nat.sub_0_r, Rminus_0_r, pow1. simpl (fact 0).
    change (INR 1) with 1. pose proof (INR_fact_neq_0 n). simpl. field. trivial. }
  destruct (Reqb_spec p 1) as [E'|E'].
  { assert (Z : forall x, In x l -> x = INR n).
    { apply Rsum_full; [intros x Hx; destruct (H x Hx) as (k & Hk & ->); now apply le_INR|]. rewrite <- Ep, E'. ring. }
    assert (F : forallb (fun x => Reqb x (INR n)) l = true) by (apply forallb_forall; intros x Hx; apply Reqb_true; auto).
    rewrite F, !orb_true_r. cbn [orb]. exists 1. split; [reflexivity|]. split; [|intros; apply likelihood_le_one; auto]. exists 1. split; [lra|].
    apply likelihood_one. intros x Hx. rewrite (Z x Hx). rewrite binomial_val by lia. rewrite <- choose_C by lia. rewrite choose_diag, Nat.sub_diag, pow1. simpl. ring. }
  cbn [orb].
  assert (S0 : 0 < Rsum l) by (destruct Nn as [?|N0]; [trivial|]; exfalso; apply E; unfold p; rewrite <- N0; field; lra).
  assert (S1 : 0 < len l * INR n - Rsum l). { destruct Nl as [?|N1]; [lra|]. exfalso. apply E'. unfold p. rewrite N1. field. lra. }
  assert (Hp : 0 < p < 1). { split; [now apply Rdiv_lt_0_compat|]. nra. }
  assert (Pq : forall q x, 0 < q < 1 -> In x l -> 0 < binomial_pmf n q x).
  { intros q x Hq Hx. destruct (H x Hx) as (k & Hk & ->). rewrite binomial_val by trivial. apply Rmult_lt_0_compat; [apply Rmult_lt_0_compat; [now apply C_pos|apply pow_lt; lra]|apply pow_lt; lra]. }
  assert (Lt : forall q x, 0 < q < 1 -> In x l -> ln (binomial_pmf n q x) = ln (INR (choose n (to_nat x))) + x * ln q + (INR n - x) * ln (1 - q)).
  { intros q x Hq Hx. destruct (H x Hx) as (k & Hk & ->). rewrite binomial_val, to_nat_of, choose_C by trivial. rewrite <- minus_INR by trivial.
    pose proof (C_pos n k Hk) as Cp. pose proof (pow_lt q k ltac:(lra)) as P1. pose proof (pow_lt (1 - q) (n - k) ltac:(lra)) as P2.
    rewrite ln_mult, (ln_mult (C n k)), !pow_eq_ln; try lra. now apply Rmult_lt_0_compat. }
  assert (Ln : forall q, 0 < q < 1 -> Rsum (map (fun x => ln (binomial_pmf n q x)) l) =
    Rsum (map (fun x => ln (INR (choose n (to_nat x)))) l) + (Rsum l * ln q + (len l * INR n - Rsum l) * ln (1 - q))).
  { intros q Hq. rewrite (Rsum_map_ext _ (fun x => ln (INR (choose n (to_nat x))) + ((ln q - ln (1 - q)) * x + INR n * ln (1 - q)))).
    - rewrite Rsum_map_plus, Rsum_map_plus, Rsum_map_scal, Rsum_const_len, map_id. ring.
    - intros x Hx. rewrite Lt by trivial. ring. }
  eexists. split; [reflexivity|]. split.
  - exists p. split; [lra|]. rewrite lik_exp by (intros; auto). f_equal. apply Rsum_map_ext. intros x Hx. now rewrite Lt.
  - intros q Hq. apply lik_bound; [intros; apply Rng; trivial|]. intros P.
    assert (Q : 0 < q < 1).
    { split.
      - destruct (Req_dec q 0) as [->|]; [|lra]. exfalso.
        assert (Z : forall x, In x l -> x = 0); [|assert (Rsum l = len l * 0); [|lra]; rewrite <- Rsum_const_len, <- (map_id l) at 1; apply Rsum_map_ext; exact Z].
        intros x Hx. specialize (P x Hx). destruct (H x Hx) as (k & Hk & ->). rewrite binomial_val in P by trivial. destruct k as [|k]; [reflexivity|]. rewrite pow_i in P by lia. lra.
      - destruct (Req_dec q 1) as [->|]; [|lra]. exfalso.
        assert (Z : forall x, In x l -> x = INR n); [|assert (Rsum l = len l * INR n); [|lra]; rewrite <- Rsum_const_len, <- (map_id l) at 1; apply Rsum_map_ext; exact Z].
        intros x Hx. specialize (P x Hx). destruct (H x Hx) as (k & Hk & ->). rewrite binomial_val in P by trivial. destruct (Nat.eq_dec k n) as [->|Nk]; [reflexivity|].
        replace (1 - 1) with 0 in P by ring. rewrite (pow_i (n - k)) in P by lia. lra. }
    rewrite Ln by trivial. rewrite (Rsum_map_ext (fun x => ln (INR (choose n (to_nat x))) + x * ln p + (INR n - x) * ln (1 - p)) (fun x => ln (binomial_pmf n p x))) by (intros; now rewrite Lt).
    rewrite Ln by trivial. pose proof (gibbs _ _ q S0 S1 Q) as K. replace (Rsum l + (len l * INR n - Rsum l)) with (len l * INR n) in K by ring. fold p in K. lra.
Qed.

(** *** Poisson *)
Lemma naturals_guard l : (forall x, In x l -> exists k, x = INR k) -> any_neg l = false /\ forallb is_int l = true.
Proof.
  intros H. split.
  - apply not_any_neg. intros x Hx. destruct (H x Hx) as (k & ->). apply pos_INR.
  - apply forallb_forall. intros x Hx. destruct (H x Hx) as (k & ->). apply is_int_spec, integer_INR.
Qed.
Lemma poisson_val lam k : poisson_pmf lam (INR k) = lam ^ k / INR (fact k) * exp (- lam).
Proof.
  unfold poisson_pmf. change (Z.to_nat (Int_part (INR k))) with (to_nat (INR k)). rewrite to_nat_of.
  rewrite (proj2 (Rleb_true 0 _)) by apply pos_INR. now rewrite (proj2 (Reqb_true _ _) eq_refl).
Qed.
Lemma fact_pos k : 0 < INR (fact k). Proof. apply INR_fact_lt_0. Qed.
Lemma poisson_opt l : l <> [] -> (forall x, In x l -> exists k, x = INR k) -> (exists x, In x l /\ x <> 0) ->
  exists v, lf_poisson KInt l = Ok (Val v) /\ is_maximum (fun lam => 0 <= lam) (fun lam => likelihood (poisson_pmf lam) l) v.
Proof.
  intros Hne H (x1 & Hx1 & N1). pose proof (len_pos l Hne) as L. destruct (naturals_guard l H) as (G1 & G2).
  assert (S : 0 < Rsum l). { apply Rsum_pos_exists; [intros x Hx; destruct (H x Hx) as (k & ->); apply pos_INR|]. exists x1. split; [trivial|]. destruct (H x1 Hx1) as (k & ->). pose proof (pos_INR k). lra. }
  set (lam := Rsum l / len l). assert (Hl : 0 < lam) by (now apply Rdiv_lt_0_compat).
  assert (Pq : forall q x, 0 < q -> In x l -> 0 < poisson_pmf q x).
  { intros q x Hq Hx. destruct (H x Hx) as (k & ->). rewrite poisson_val. apply Rmult_lt_0_compat; [apply Rdiv_lt_0_compat; [now apply pow_lt|apply fact_pos]|apply exp_pos]. }
  assert (Lt : forall q x, 0 < q -> In x l -> ln (poisson_pmf q x) = x * ln q - q - ln (INR (fact (to_nat x)))).
  { intros q x Hq Hx. destruct (H x Hx) as (k & ->). rewrite poisson_val, to_nat_of. pose proof (fact_pos k). pose proof (pow_lt q k Hq).
    rewrite ln_mult, ln_exp, ln_quot, pow_eq_ln; trivial; [lra|now apply Rdiv_lt_0_compat|apply exp_pos]. }
  assert (Ln : forall q, 0 < q -> Rsum (map (fun x => ln (poisson_pmf q x)) l) = Rsum l * ln q - len l * q - Rsum (map (fun x => ln (INR (fact (to_nat x)))) l)).
  { intros q Hq. rewrite (Rsum_map_ext _ (fun x => ln q * x - q - ln (INR (fact (to_nat x))))).
    - rewrite Rsum_map_minus, Rsum_map_minus, Rsum_map_scal, Rsum_const_len, map_id. ring.
    - intros x Hx. rewrite Lt by trivial. ring. }
  exists (likelihood (poisson_pmf lam) l). split.
  - unfold lf_poisson. rewrite G1, G2, match_ne by trivial. cbn [elementwise orb negb]. fold lam. rewrite (proj2 (Reqb_false lam 0)) by lra.
    do 2 f_equal. rewrite lik_exp by auto. f_equal. apply Rsum_map_ext. intros x Hx. now rewrite Lt.
  - split; [exists lam; split; [lra|reflexivity]|]. intros q Hq. rewrite (lik_exp (poisson_pmf lam)) by auto. destruct Hq as [Hq| <-].
    + apply lik_bound; [intros; left; auto|]. intros _. rewrite !Ln by trivial. pose proof (rate_bound (Rsum l) (len l) q S L Hq) as K. fold lam in K.
      assert (lam * len l = Rsum l) by (unfold lam; field; lra). lra.
    + rewrite (lik_zero _ l x1); [left; apply exp_pos|trivial|]. destruct (H x1 Hx1) as (k & ->). rewrite poisson_val. destruct k as [|k]; [simpl in N1; lra|]. rewrite pow_i by lia. unfold Rdiv. ring.
Qed.

(** *** geometric *)
Lemma geometric_val p k : (1 <= k)%nat -> geometric_pmf p (INR k) = p * (1 - p) ^ (k - 1).
Proof.
  intros Hk. unfold geometric_pmf. change (Z.to_nat (Int_part (INR k))) with (to_nat (INR k)). rewrite to_nat_of.
  rewrite (proj2 (Rleb_true 1 _)) by (change 1 with (INR 1); now apply le_INR). now rewrite (proj2 (Reqb_true _ _) eq_refl).
Qed.
Lemma positive_naturals_guard l : (forall x, In x l -> exists k, (1 <= k)%nat /\ x = INR k) -> existsb (fun x => Rltb x 1) l = false /\ forallb is_int l = true.
Proof.
  intros H. split.
  - destruct (existsb _ l) eqn:E; [|reflexivity]. apply existsb_exists in E. destruct E as (x & Hx & E). apply Rltb_true in E. destruct (H x Hx) as (k & Hk & ->).
    apply le_INR in Hk. change (INR 1) with 1 in Hk. lra.
  - apply forallb_forall. intros x Hx. destruct (H x Hx) as (k & _ & ->). apply is_int_spec, integer_INR.
Qed.
Lemma geometric_opt c l : c <> KList -> l <> [] -> (forall x, In x l -> exists k, (1 <= k)%nat /\ x = INR k) -> (exists x, In x l /\ x <> 1) ->
  exists v, lf_geometric c l = Ok (Val v) /\ is_maximum (fun p => 0 <= p <= 1) (fun p => likelihood (geometric_pmf p) l) v.
Proof.
  intros Hc Hne H (x1 & Hx1 & N1). pose proof (len_pos l Hne) as L. destruct (positive_naturals_guard l H) as (G1 & G2).
  assert (Ge : forall x, In x l -> 1 <= x) by (intros x Hx; destruct (H x Hx) as (k & Hk & ->); change 1 with (INR 1); now apply le_INR).
  assert (S : len l < Rsum l).
  { assert (0 < Rsum (map (fun x => x - 1) l)); [|rewrite Rsum_map_minus, Rsum_const_len, map_id in H0; lra]. apply Rsum_pos_exists.
    - intros y Hy. apply in_map_iff in Hy. destruct Hy as (x & <- & Hx). specialize (Ge x Hx). lra.
    - exists (x1 - 1). split; [apply in_map_iff; eauto|]. specialize (Ge x1 Hx1). lra. }
  set (p := len l / Rsum l). assert (Ep : p * Rsum l = len l) by (unfold p; field; lra).
  assert (Hp : 0 < p < 1) by (split; [apply Rdiv_lt_0_compat; lra|nra]).
  assert (Pq : forall q x, 0 < q < 1 -> In x l -> 0 < geometric_pmf q x).
  { intros q x Hq Hx. destruct (H x Hx) as (k & Hk & ->). rewrite geometric_val by trivial. apply Rmult_lt_0_compat; [lra|apply pow_lt; lra]. }
  assert (Nq : forall q x, 0 <= q <= 1 -> In x l -> 0 <= geometric_pmf q x).
  { intros q x Hq Hx. destruct (H x Hx) as (k & Hk & ->). rewrite geometric_val by trivial. apply Rmult_le_pos; [lra|apply pow_le; lra]. }
  assert (Ln : forall q, 0 < q < 1 -> Rsum (map (fun x => ln (geometric_pmf q x)) l) = len l * ln q + (Rsum l - len l) * ln (1 - q)).
  { intros q Hq. rewrite (Rsum_map_ext _ (fun x => ln q + (ln (1 - q) * x - ln (1 - q)))).
    - rewrite Rsum_map_plus, Rsum_map_minus, Rsum_map_scal, !Rsum_const_len, map_id. ring.
    - intros x Hx. destruct (H x Hx) as (k & Hk & ->). rewrite geometric_val by trivial. rewrite ln_mult, pow_eq_ln, minus_INR by (trivial; try lra; apply pow_lt; lra). simpl (INR 1). ring. }
  exists (likelihood (geometric_pmf p) l). split.
  - unfold lf_geometric. rewrite G1, G2, match_ne by trivial. cbn [orb negb]. fold p. rewrite (proj2 (Reqb_false p 1)) by lra.
    rewrite lik_exp by auto. rewrite Ln by trivial. destruct c; [congruence|reflexivity..].
  - split; [exists p; split; [lra|reflexivity]|]. intros q Hq. rewrite (lik_exp (geometric_pmf p)) by auto. apply lik_bound; [intros; auto|]. intros P.
    assert (Q : 0 < q < 1).
    { specialize (P x1 Hx1). destruct (H x1 Hx1) as (k & Hk & Ek). rewrite Ek, geometric_val in P by trivial. split; [destruct (Req_dec q 0) as [->|]; lra|].
      destruct (Req_dec q 1) as [->|]; [|lra]. replace (1 - 1) with 0 in P by ring. destruct (Nat.eq_dec k 1) as [->|]; [simpl in Ek; contradiction|]. rewrite pow_i in P by lia. lra. }
    rewrite !Ln by trivial. pose proof (gibbs (len l) (Rsum l - len l) q L ltac:(lra) Q) as K. replace (len l + (Rsum l - len l)) with (Rsum l) in K by ring. exact K.
Qed.

(** *** samples outside the support *)
Lemma zero_maximum {P} (adm : P -> Prop) (f : P -> R -> R) l x p0 : In x l -> (forall p, adm p -> f p x = 0) -> adm p0 ->
  is_maximum adm (fun p => likelihood (f p) l) 0.
Proof.
  intros Hx Hz H0. split; [exists p0; split; [trivial|]; apply (lik_zero _ l x); auto|]. intros p Hp. rewrite (lik_zero _ l x); auto. lra.
Qed.
Lemma any_nonpos_true l x : In x l -> x <= 0 -> any_nonpos l = true.
Proof. intros. apply existsb_exists. exists x. split; [trivial|now apply Rleb_true]. Qed.
Lemma any_neg_true l x : In x l -> x < 0 -> any_neg l = true.
Proof. intros. apply existsb_exists. exists x. split; [trivial|now apply Rltb_true]. Qed.

(** *** degenerate samples *)
Lemma lik_const f a l : constant a l -> likelihood f l = f a ^ length l.
Proof.
  intros (_ & H). induction l as [|x l IH]; simpl; [reflexivity|]. rewrite (H x) by (simpl; auto). rewrite IH; [reflexivity|]. intros; apply H; simpl; auto.
Qed.
Lemma pow_ge_self y n : 1 <= y -> (1 <= n)%nat -> y <= y ^ n.
Proof. intros Hy Hn. destruct n as [|n]; [lia|]. simpl. pose proof (pow_R1_Rle y n Hy). nra. Qed.
(** if the density at the common value can be made arbitrarily large, the likelihood is unbounded *)
Lemma unbounded_const {P} (adm : P -> Prop) (f : P -> R -> R) a l : constant a l -> (forall v, 1 <= v -> exists p, adm p /\ v <= f p a) ->
  unbounded adm (fun p => likelihood (f p) l).
Proof.
  intros Hc H v. destruct (H (Rmax 1 (v + 1)) (Rmax_l _ _)) as (p & Hp & Hv). exists p. split; [trivial|]. rewrite (lik_const _ a) by trivial.
  pose proof (Rmax_l 1 (v + 1)). pose proof (Rmax_r 1 (v + 1)).
  assert (Hl : (1 <= length l)%nat) by (destruct Hc as (Hne & _); destruct l; [congruence|simpl; lia]). pose proof (pow_ge_self (f p a) (length l) ltac:(lra) Hl). lra.
Qed.
Lemma const_mean a l : constant a l -> mean l = a.
Proof.
  intros (Hne & H). pose proof (len_pos l Hne). unfold mean. rewrite <- (map_id l) at 1. rewrite (Rsum_map_ext _ (fun _ => a)) by trivial. rewrite Rsum_const_len. field. lra.
Qed.
Lemma const_dev a l : constant a l -> Rsum (map (fun x => (x - mean l) ^ 2) l) = 0.
Proof.
  intros Hc. rewrite (const_mean a l Hc). destruct Hc as (_ & H). rewrite (Rsum_map_ext _ (fun _ => 0)); [rewrite Rsum_const_len; ring|]. intros x Hx. rewrite (H x Hx). ring.
Qed.
Lemma const_min_max a l : constant a l -> Rminl 0 l = a /\ Rmaxl 0 l = a.
Proof. intros (Hne & H). split; apply H; [now apply Rminl_in|now apply Rmaxl_in]. Qed.
Lemma uniform_const c a l : constant a l -> lf_uniform c l = Ok (Val 0) /\
  unbounded (fun p : R * R => fst p < snd p) (fun p => likelihood (uniform_pdf (fst p) (snd p)) l).
Proof.
  intros Hc. pose proof Hc as (Hne & _). destruct (const_min_max a l Hc) as (E1 & E2). split.
  - unfold lf_uniform. rewrite match_ne, E1, E2 by trivial. now rewrite (proj2 (Reqb_true a a) eq_refl).
  - apply (unbounded_const _ (fun p : R * R => uniform_pdf (fst p) (snd p)) a); [trivial|]. intros v Hv. exists (a, a + / v). cbn [fst snd].
    assert (0 < / v) by (apply Rinv_0_lt_compat; lra). split; [lra|]. unfold uniform_pdf. rewrite (proj2 (Rleb_true a a)), (proj2 (Rleb_true a _)) by lra. cbn [andb].
    replace (a + / v - a) with (/ v) by ring. right. field. lra.
Qed.
Lemma normal_density_large a v : 1 <= v -> exists p : R * R, 0 < snd p /\ v <= normal_pdf (fst p) (snd p) a.
Proof.
  intros Hv. pose proof PI_RGT_0. exists (a, / (2 * PI * v ^ 2)). cbn [fst snd]. assert (0 < 2 * PI * v ^ 2) by (apply Rmult_lt_0_compat; [lra|apply pow_lt; lra]). split; [now apply Rinv_0_lt_compat|].
  unfold normal_pdf. replace (2 * PI * / (2 * PI * v ^ 2)) with ((/ v) ^ 2) by (field; split; lra). assert (0 < / v) by (apply Rinv_0_lt_compat; lra).
  rewrite sqrt_pow2 by lra. replace (- (a - a) ^ 2 / (2 * / (2 * PI * v ^ 2))) with 0 by (field; lra). rewrite exp_0. right. field. lra.
Qed.
Lemma normal_const c a l : constant a l -> lf_normal c l = Ok (Val 0) /\
  unbounded (fun p : R * R => 0 < snd p) (fun p => likelihood (normal_pdf (fst p) (snd p)) l).
Proof.
  intros Hc. pose proof Hc as (Hne & _). split.
  - unfold lf_normal. rewrite match_ne by trivial. fold (mean l). rewrite (const_dev a) by trivial. unfold Rdiv. rewrite Rmult_0_l. now rewrite (proj2 (Reqb_true 0 0) eq_refl).
  - apply (unbounded_const _ (fun p : R * R => normal_pdf (fst p) (snd p)) a); [trivial|]. apply normal_density_large.
Qed.
Lemma lognormal_const c a l : 0 < a -> constant a l -> lf_lognormal c l = Ok (Val 0) /\
  unbounded (fun p : R * R => 0 < snd p) (fun p => likelihood (lognormal_pdf (fst p) (snd p)) l).
Proof.
  intros Ha Hc. pose proof Hc as (Hne & Hx). assert (Hc' : constant (ln a) (map ln l)).
  { split; [destruct l; [congruence|discriminate]|]. intros y Hy. apply in_map_iff in Hy. destruct Hy as (x & <- & H). now rewrite (Hx x H). }
  split.
  - unfold lf_lognormal. rewrite positive_any by (intros x H; now rewrite (Hx x H)). rewrite match_ne by trivial. rewrite <- (len_map ln l). fold (mean (map ln l)).
    rewrite (const_dev (ln a)) by trivial. unfold Rdiv at 1. rewrite Rmult_0_l. now rewrite (proj2 (Reqb_true 0 0) eq_refl).
  - apply (unbounded_const _ (fun p : R * R => lognormal_pdf (fst p) (snd p)) a); [trivial|]. intros v Hv.
    destruct (normal_density_large (ln a) (Rmax 1 (v * a)) (Rmax_l _ _)) as (p & Hp & Hd). exists p. split; [trivial|]. unfold lognormal_pdf. rewrite (proj2 (Rltb_true 0 a) Ha).
    pose proof (Rmax_r 1 (v * a)). apply (Rmult_le_reg_r a); [trivial|]. unfold Rdiv. rewrite Rmult_assoc, Rinv_l by lra. lra.
Qed.
Lemma exponential_zeros c l : c <> KList -> constant 0 l -> lf_exponential c l = Ok (Val 0) /\
  unbounded (fun r => 0 < r) (fun r => likelihood (exponential_pdf r) l).
Proof.
  intros Hk Hc. pose proof Hc as (Hne & Hx). split.
  - unfold lf_exponential. rewrite not_any_neg by (intros x H; rewrite (Hx x H); lra). assert (F : forallb (fun x => Reqb x 0) l = true) by (apply forallb_forall; intros x H; apply Reqb_true; auto).
    destruct c; [congruence| |]; simpl; now rewrite F.
  - apply (unbounded_const _ exponential_pdf 0); [trivial|]. intros v Hv. exists v. split; [lra|]. unfold exponential_pdf. rewrite (proj2 (Rleb_true 0 0)) by lra. rewrite Rmult_0_r, exp_0. lra.
Qed.
Lemma const_rsort a l : constant a l -> constant a (rsort l).
Proof. intros (Hne & H). split; [now apply rsort_ne|]. intros x Hx. apply H. now apply rsort_in. Qed.
Lemma const_median a l : constant a l -> median l = a.
Proof.
  intros Hc. destruct Hc as (Hne & H). assert (Hl : (0 < length l)%nat) by (destruct l; [congruence|simpl; lia]).
  pose proof (median_between l 0 ltac:(lia)) as (A & B). rewrite (H (nth 0 (rsort l) 0)) in A by (apply rsort_in, nth_In; rewrite rsort_length; lia).
  rewrite (H (nth (length l - 1 - 0) (rsort l) 0)) in B by (apply rsort_in, nth_In; rewrite rsort_length; lia). lra.
Qed.
Lemma laplace_const c a l : constant a l -> lf_laplace c l = Ok PlusInf /\
  unbounded (fun p : R * R => 0 < snd p) (fun p => likelihood (laplace_pdf (fst p) (snd p)) l).
Proof.
  intros Hc. pose proof Hc as (Hne & Hx). split.
  - unfold lf_laplace. rewrite match_ne by trivial. rewrite (const_median a) by trivial. unfold mean. rewrite (Rsum_map_ext _ (fun _ => 0)).
    + rewrite Rsum_const_len, Rmult_0_r. unfold Rdiv. rewrite Rmult_0_l. now rewrite (proj2 (Reqb_true 0 0) eq_refl).
    + intros x H. rewrite (Hx x H). rewrite Rminus_diag_eq by reflexivity. apply Rabs_R0.
  - apply (unbounded_const _ (fun p : R * R => laplace_pdf (fst p) (snd p)) a); [trivial|]. intros v Hv. exists (a, / (2 * v)). cbn [fst snd].
    assert (0 < / (2 * v)) by (apply Rinv_0_lt_compat; lra). split; [trivial|]. unfold laplace_pdf. rewrite Rminus_diag_eq, Rabs_R0 by reflexivity. unfold Rdiv. rewrite Rmult_0_l, Ropp_0, exp_0. right. field. lra.
Qed.
Lemma pareto_const c a l : c <> KList -> 0 < a -> constant a l -> lf_pareto c l = Ok PlusInf /\
  unbounded (fun p : R * R => 0 < fst p /\ 0 < snd p) (fun p => likelihood (pareto_pdf (fst p) (snd p)) l).
Proof.
  intros Hk Ha Hc. pose proof Hc as (Hne & Hx). destruct (const_min_max a l Hc) as (E1 & _). split.
  - unfold lf_pareto. rewrite positive_any by (intros x H; now rewrite (Hx x H)). rewrite match_ne, E1 by trivial. rewrite (Rsum_map_ext _ (fun _ => 0)).
    + rewrite Rsum_const_len, Rmult_0_r. rewrite (proj2 (Reqb_true 0 0) eq_refl). destruct c; [congruence|reflexivity..].
    + intros x H. rewrite (Hx x H). unfold Rdiv. rewrite Rinv_r by lra. apply ln_1.
  - apply (unbounded_const _ (fun p : R * R => pareto_pdf (fst p) (snd p)) a); [trivial|]. intros v Hv. exists (v * a, a). cbn [fst snd]. split; [split; [nra|trivial]|].
    unfold pareto_pdf. rewrite (proj2 (Rleb_true a a)) by lra. rewrite Rpower_plus, Rpower_1 by trivial. right. field. split; [lra|]. unfold Rpower. pose proof (exp_pos (v * a * ln a)). lra.
Qed.
