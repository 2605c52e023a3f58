(** Royston's order statistics in Coin's statistic and the default plotting position of the derived log-normal class (C68, C100). *)
From Coq Require Import String Permutation.
From Verif Require Import Base DecModel EdfModel GraphModel RegistryModel NormalLaw ExpModel NormModel NormSpec NormFormSpec DetailSpec NormMoreSpec LognormModel LognormSpec NormMoreProofs NormFormClaims NormMoreClaims LognormProofs LognormClaims NormPinSpec NormPinClaims.
From Coq Require Import Lra Lia.
Local Open Scope string_scope.
Local Open Scope R_scope.

(** *** C100 *)
(** the tail areas behind the expected order statistics of Coin's statistic are Royston's *)
Theorem C100_coin_score : forall n i, (1 <= n)%nat ->
  coin_s n i = royston_tail n (S i) - royston_correction n (S i) / 10 ^ 6.
Proof. exact C100_coin_score_holds. Qed.
Print Assumptions C100_coin_score.
(** *** C68 *)
(** the log-normal class derived from Ryan and Joiner's uses the default plotting position 3/8 of the normal class: its
    value is the correlation of the ordered standardised logarithms with Blom's scores *)
Theorem C68_ryan_joiner : forall s scale alt l, 0 < scale -> all_positive l ->
  exists g, In ("RyanJoinerLogNormalGofStatistic", g) (lognormal_statistics s scale alt) /\
  forall v, nvalue (g l) = Ok (Some (Fin v)) ->
    v = correlation (rsort (standardised_logs s scale l)) (map (blom (List.length l)) (seq 0 (List.length l))).
Proof. exact C68_ryan_joiner_holds. Qed.
Print Assumptions C68_ryan_joiner.
(** a number is returned for ten or more different positive observations *)
Example C68_nonvacuous_ryan_joiner : forall s scale l, 0 < s -> 0 < scale -> (10 <= List.length l)%nat -> NoDup l -> all_positive l ->
  exists g v, In ("RyanJoinerLogNormalGofStatistic", g) (lognormal_statistics s scale TWO_TAILED) /\ nvalue (g l) = Ok (Some (Fin v)).
Proof. exact C68_nonvacuous_ryan_joiner_holds. Qed.
(** the corrections of the smallest of four, ten and fifty observations *)
Example C100_nonvacuous_coin_score : royston_correction 4 1 = 19 /\ royston_correction 10 1 = 9.5 - 61.95 + 9.338 /\ royston_correction 50 1 = 0.
Proof. exact C100_nonvacuous_coin_score_holds. Qed.
