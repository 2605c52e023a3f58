(** Property C115: double precision critical values are exact ones of a neighbouring level. *)
From Flocq Require Import Core Sterbenz.
From Verif Require Import Base DecModel DecSpec DecProofs MTFloat MTFloatModel MTFloatSpec MTFloatProofs MTFloatClaims MCFloatModel MCFloatSpec MCFloatProofs MCFloat2Proofs MCFloatClaims MCFloat3Claims.
From Coq Require Import Lra Lia.


(** every critical value is within 4 * 2^-53 * M + 3 * 2^-1074 of the exact one of a level at most 2^-50 away (one
    level for each end of a two-sided interval), where M bounds the simulated values *)
Theorem C115_critical_value_error : forall limit level M, simulated limit -> (forall x, In x limit -> is_b64 x /\ Rabs x <= M) ->
  is_b64 level -> 0 <= level <= 1 ->
  let close c e := Rabs (c - e) <= 4 * bpow radix2 (-53) * M + 3 * bpow radix2 (-1074) in
  let near level' := 0 <= level' /\ Rabs (level' - level) <= 8 * bpow radix2 (-53) in
  (forall alt, alt <> TWO_TAILED -> exists c level' e, critical_value_float_of alt limit level = Ok (CV1 c) /\
     near level' /\ critical_value_of alt limit level' = Ok (CV1 e) /\ close c e) /\
  exists l r, critical_value_float_of TWO_TAILED limit level = Ok (CV2 l r) /\
    (exists level' el er, near level' /\ critical_value_of TWO_TAILED limit level' = Ok (CV2 el er) /\ close l el) /\
    (exists level' el er, near level' /\ critical_value_of TWO_TAILED limit level' = Ok (CV2 el er) /\ close r er).
Proof. exact C115_critical_value_error_holds. Qed.
Print Assumptions C115_critical_value_error.
