(** Proofs of the theorems in Props_NormPin.v. *)
From Coq Require Import String Permutation.
From Verif Require Import Base DecModel EdfModel GraphModel RegistryModel NormalLaw ExpModel NormModel NormSpec NormFormSpec DetailSpec NormMoreSpec LognormModel LognormSpec NormMoreProofs NormFormClaims NormMoreClaims LognormProofs LognormClaims NormPinSpec.
From Coq Require Import Lra Lia.
Local Open Scope string_scope.
Local Open Scope R_scope.

Lemma correction_eq n rank : (1 <= n)%nat -> 10 ^ 6 * coin_correct rank n = royston_correction n rank.
Proof.
  intros Hn. unfold royston_correction. destruct (Nat.eqb_spec (rank * n) 4) as [E|E].
  - unfold coin_correct. rewrite (proj2 (Nat.eqb_eq _ _) E). lra.
  - destruct (C100_coin_correction_holds rank n Hn E) as [A B].
    destruct (Nat.leb_spec 1 rank); [|cbn [andb]; rewrite B by auto; ring].
    destruct (Nat.leb_spec rank 7); [|cbn [andb]; rewrite B by auto; ring].
    destruct (Nat.leb_spec n (royston_limit rank)); [|cbn [andb]; rewrite B by auto; ring].
    cbn [andb]. destruct (nth (rank - 1) royston_corrections (0, 0, 0)) as [[c1 c2] c3] eqn:T. now apply A.
Qed.

Lemma same_tail q p b c n k : q + p * (b + p * c) / n - k = q + (b * p + c * p ^ 2) / n - 10 ^ 6 * k / 10 ^ 6.
Proof. replace (p * (b + p * c)) with (b * p + c * p ^ 2) by ring. unfold Rdiv at 3. f_equal. f_equal. lra. Qed.

(** *** C100 *)
(** the tail areas behind the expected order statistics of Coin's statistic are Royston's *)
Lemma C100_coin_score_holds : forall n i, (1 <= n)%nat ->
  coin_s n i = royston_tail n (S i) - royston_correction n (S i) / 10 ^ 6.
Proof.
  intros n i Hn. rewrite <- correction_eq by trivial. unfold coin_s, royston_tail, royston_score_row.
  destruct i as [|[|[|i]]]; cbn [Nat.min nth Nat.ltb Nat.leb]; try rewrite Nat.min_0_r; cbn [Nat.min nth Nat.ltb Nat.leb]; cbv zeta.
  1-3: apply same_tail.
  replace (INR (S (S (S (S i)))) - 0.106136) with (INR (S (S (S (S i)))) + -0.106136) by lra.
  replace (0.414093 - 0.283833 / (INR (S (S (S (S i)))) + -0.106136)) with (0.414093 + -0.283833 / (INR (S (S (S (S i)))) + -0.106136)) by (generalize (INR (S (S (S (S i)))) + -0.106136); intros y; unfold Rdiv; lra).
  apply same_tail.
Qed.

(** *** C68 *)
(** the log-normal class derived from Ryan and Joiner's uses the default plotting position 3/8 of the normal class: its
    value is the correlation of the ordered standardised logarithms with Blom's scores *)
Lemma C68_ryan_joiner_holds : forall s scale alt l, 0 < scale -> all_positive l ->
  exists g, In ("RyanJoinerLogNormalGofStatistic", g) (lognormal_statistics s scale alt) /\
  forall v, nvalue (g l) = Ok (Some (Fin v)) ->
    v = correlation (rsort (standardised_logs s scale l)) (map (blom (List.length l)) (seq 0 (List.length l))).
Proof.
  intros s scale alt l Hs P. set (f := nreads (rj_norm (n_weighted norm_defaults) (n_alpha norm_defaults))).
  exists (wrapped f s scale). split.
  - unfold lognormal_statistics. apply in_or_app. right. apply in_map_iff. exists ("RyanJoinerNormalityGofStatistic", f). split; [reflexivity|].
    apply filter_In. split; [|reflexivity]. unfold normality_statistics. repeat (try (left; reflexivity); right).
  - intros v Hv. rewrite wrapped_pos in Hv by trivial.
    assert (H : lg_norm (standardised_logs s scale l) = Ok (Some (Fin v))) by exact Hv.
    apply (proj1 (proj2 (C105_correlations_holds (standardised_logs s scale l) v))) in H. cbv zeta in H. replace (List.length (standardised_logs s scale l)) with (List.length l) in H by (unfold standardised_logs; now rewrite map_length). exact H.
Qed.

(** a number is returned for ten or more different positive observations *)
Lemma C68_nonvacuous_ryan_joiner_holds : forall s scale l, 0 < s -> 0 < scale -> (10 <= List.length l)%nat -> NoDup l -> all_positive l ->
  exists g v, In ("RyanJoinerLogNormalGofStatistic", g) (lognormal_statistics s scale TWO_TAILED) /\ nvalue (g l) = Ok (Some (Fin v)).
Proof.
  intros s scale l Hs Hc L D P. destruct (C68_ryan_joiner_holds s scale TWO_TAILED l Hc P) as (g & I & _).
  destruct (C63_lognormal_holds s scale TWO_TAILED _ g l Hs Hc I) as [v V]; trivial.
  - unfold conditional_lognormal. intros K. repeat (destruct K as [K|K]; [discriminate K|]). destruct K.
  - exists g, v. auto.
Qed.
(** the corrections of the smallest of four, ten and fifty observations *)
Lemma C100_nonvacuous_coin_score_holds : royston_correction 4 1 = 19 /\ royston_correction 10 1 = 9.5 - 61.95 + 9.338 /\ royston_correction 50 1 = 0.
Proof. unfold royston_correction. cbn. repeat split; lra. Qed.
