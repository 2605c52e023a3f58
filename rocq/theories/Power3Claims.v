(** The hypotheses of the consistency theorems C119 and C121 can be met for every number of draws. *)
From Verif Require Import Base ProbSpec ProbProofs DecModel DecSpec DecProofs EdfModel EdfSpec SizeSpec ConvSpec Conv2Spec Conv2Claims PowerSpec PowerClaims.
From Coq Require Import Lra Lia List.
Import ListNotations.
Local Open Scope R_scope.

(** the values 1/K, 2/K, ..., 1 with equal probabilities *)
Definition grid (K : nat) : list (R * nat) := map (fun k => (/ INR K, k)) (seq 0 K).
Definition grid_value (K k : nat) : R := INR (k + 1) / INR K.
Lemma grid_weights K : (0 < K)%nat -> weights (grid K).
Proof.
  intros HK. assert (P : 0 < INR K) by (apply INR_pos; exact HK). split.
  - intros p Hp. apply in_map_iff in Hp. destruct Hp as (k & <- & _). simpl. left. now apply Rinv_0_lt_compat.
  - unfold grid. rewrite map_map. cbn [fst]. assert (C : forall c (l : list nat), Rsum (map (fun _ => c) l) = INR (length l) * c). { intros c. induction l as [|a l IH]; [simpl; ring|]. cbn [length map Rsum]. rewrite IH, S_INR. ring. }
    rewrite C, seq_length. field. lra.
Qed.
Lemma grid_cdf K x : (0 < K)%nat -> 0 <= x -> law_cdf (grid K) (grid_value K) x = INR (Nat.min K (floor_nat (INR K * x))) / INR K.
Proof.
  intros HK Hx. assert (P : 0 < INR K) by (apply INR_pos; exact HK). assert (H0 : 0 <= INR K * x) by (apply Rmult_le_pos; lra).
  pose proof (floor_nat_spec _ H0) as [F1 F2]. set (f := floor_nat (INR K * x)) in *.
  unfold law_cdf, Pr, finite_expectation, grid. rewrite map_map. cbn [fst snd].
  assert (G : forall k, Rsum (map (fun i => / INR K * ind (Rleb (grid_value K i) x)) (seq 0 k)) = / INR K * INR (Nat.min k f)).
  { induction k as [|k IH]; [simpl; ring|]. rewrite seq_S, map_app, Rsum_app, IH. cbn [map Rsum Nat.add].
    assert (E : Rleb (grid_value K k) x = (k + 1 <=? f)%nat).
    { unfold grid_value. destruct (Nat.leb_spec (k + 1) f) as [L|L].
      - apply Rleb_true. apply le_INR in L. apply Rmult_le_reg_l with (INR K); [exact P|]. replace (INR K * (INR (k + 1) / INR K)) with (INR (k + 1)) by (field; lra). lra.
      - apply Rleb_false. assert (L' : (f + 1 <= k + 1)%nat) by lia. apply le_INR in L'. rewrite plus_INR in L' at 1. simpl (INR 1) in L'. apply Rmult_lt_reg_l with (INR K); [exact P|]. replace (INR K * (INR (k + 1) / INR K)) with (INR (k + 1)) by (field; lra). lra. }
    rewrite E. destruct (Nat.leb_spec (k + 1) f); cbn [ind]; [rewrite !Nat.min_l by lia; rewrite S_INR; ring|].
    rewrite !Nat.min_r by lia. ring. }
  rewrite G. unfold Rdiv. ring.
Qed.
Lemma grid_near K : (0 < K)%nat -> laws_within (/ INR K) (law_cdf (grid K) (grid_value K)) (uniform_cdf 0 1).
Proof.
  intros HK x. assert (P : 0 < INR K) by (apply INR_pos; exact HK). assert (I : 0 < / INR K) by (now apply Rinv_0_lt_compat).
  destruct (Rlt_dec x 0) as [N|N].
  - assert (Z : law_cdf (grid K) (grid_value K) x = 0).
    { unfold law_cdf, Pr, finite_expectation, grid. rewrite map_map. cbn [fst snd]. generalize (seq 0 K). induction l as [|k l IH]; [reflexivity|]. cbn [map Rsum]. rewrite IH, (proj2 (Rleb_false (grid_value K k) x)); [simpl; ring|]. unfold grid_value. apply Rlt_le_trans with 0; [exact N|]. apply Rmult_le_pos; [apply pos_INR|lra]. }
    rewrite Z. unfold uniform_cdf. rewrite (proj2 (Rltb_true x 0)) by lra. rewrite Rminus_diag_eq, Rabs_R0 by reflexivity. lra.
  - rewrite grid_cdf by (auto; lra). assert (H0 : 0 <= INR K * x) by (apply Rmult_le_pos; lra). pose proof (floor_nat_spec _ H0) as [F1 F2]. set (f := floor_nat (INR K * x)) in *.
    unfold uniform_cdf. rewrite (proj2 (Rltb_false x 0)) by lra. destruct (Rltb 1 x) eqn:L.
    + apply Rltb_true in L. assert (Hf : (K <= f)%nat). { assert (Q : INR K < INR (f + 1)) by (rewrite plus_INR; simpl (INR 1); nra). apply INR_lt in Q. lia. }
      rewrite Nat.min_l by exact Hf. replace (INR K / INR K - 1) with 0 by (field; lra). rewrite Rabs_R0. lra.
    + apply Rltb_false in L. assert (Hf : (f <= K)%nat) by (apply INR_le; nra).
      rewrite Nat.min_r by exact Hf. replace (INR f / INR K - (x - 0) / (1 - 0)) with ((INR f - INR K * x) * / INR K) by (field; lra).
      rewrite Rabs_mult, (Rabs_pos_eq (/ INR K)) by lra. rewrite <- (Rmult_1_l (/ INR K)) at 2. apply Rmult_le_compat_r; [lra|]. apply Rabs_le. lra.
Qed.
(** for all n, m and K: n draws of the law at 5, and m simulated samples of n draws of a law within 1/K of the hypothesised one *)
Lemma C119_nonvacuous_every_n_holds : forall n m K, (0 < K)%nat -> exists (E : (list nat -> R) -> R) X Y H0 H,
  is_expectation E /\ full_cdf (uniform_cdf 0 1) /\ independent_draws E n X H /\ laws_apart 1 TWO_TAILED H (uniform_cdf 0 1) /\
  (forall i, (i < m)%nat -> independent_draws E n (Y i) H0) /\ laws_within (/ INR K) H0 (uniform_cdf 0 1).
Proof.
  intros n m K HK. exists (repeated (grid K) n), (fun _ _ => 5), (fun _ j w => grid_value K (nth j w 0%nat)), (law_cdf (grid K) (grid_value K)), five_law.
  destruct (C118_nonvacuous_repeated_holds nat (grid K) (grid_value K) 0%nat n (grid_weights K HK)) as [HE HI].
  split; [exact HE|]. split; [apply C119_nonvacuous_holds|]. split; [|split; [apply C119_nonvacuous_holds|split; [intros i _; exact HI|now apply grid_near]]].
  constructor.
  - intros i x _. unfold Pr, five_law. apply (E_const _ HE).
  - intros i j x y _ _ _. unfold Pr, five_law. rewrite (E_const _ HE (ind (Rleb 5 x && Rleb 5 y))). destruct (Rleb 5 x), (Rleb 5 y); simpl; ring.
Qed.
