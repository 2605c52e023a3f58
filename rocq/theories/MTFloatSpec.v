(** Specification vocabulary for the corrections in binary64. *)
From Verif Require Import Base MTModel MTSpec MTFloat MTFloatModel ProbSpec MTErrorSpec.
From Flocq Require Import Core.

(** a list of binary64 probabilities *)
Definition float_pvalues (p : list R) : Prop := forall x, In x p -> is_b64 x /\ 0 <= x <= 1.
(** [y] is [x] up to the relative error [d] *)
Definition within (d x y : R) : Prop := (1 - d) * x <= y <= (1 + d) * x.
(** half a unit in the last place of 1 *)
Definition ulp_half : R := bpow radix2 (-53).
(** the power function keeps [0,1] and is monotone in its base, as every libm documents for integer exponents *)
Definition pow_ok (pow : R -> nat -> R) : Prop :=
  (forall x k, 0 <= x <= 1 -> 0 <= pow x k <= 1) /\
  (forall x y k, 0 <= x <= y -> y <= 1 -> pow x k <= pow y k).
(** the first two terms of the harmonic sum are not lost *)
Definition factor_ok (factor : nat -> R) : Prop :=
  (1 <= factor 1%nat) /\ forall n, (2 <= n)%nat -> 3 / 2 <= factor n.
(** larger raw values have larger adjusted values *)
Definition order_kept (p a : list R) : Prop :=
  forall i j, (i < length p)%nat -> (j < length p)%nat -> nth i p 0 <= nth j p 0 -> nth i a 0 <= nth j a 0.
Definition float_decisions (pow : R -> nat -> R) (factor : nat -> R) (mt : method) (p : list R) (threshold : R) : list bool :=
  match mt_test_float pow factor mt p threshold with Ok (r, _) => r | Raise _ => [] end.
(** probability of at least one false rejection by the binary64 program *)
Definition float_FWER {Om} (pow : R -> nat -> R) (factor : nat -> R) (E : (Om -> R) -> R) (mt : method) (m : nat)
    (nulls : nat -> bool) (X : Om -> list R) (threshold : R) : R :=
  Pr E (fun w => some_false_rejection m nulls (float_decisions pow factor mt (X w) threshold)).
(** results of one Bonferroni or Holm product are at most half a unit off; Benjamini-Yekutieli has three operations and
    the error [d] of its factor *)
Definition method_error (mt : method) (d : R) : R :=
  match mt with BenjaminiYekutieli => d + 7 * ulp_half | _ => ulp_half end.
(** no p-value of a Benjamini-Yekutieli run is subnormal *)
Definition normal_or_zero (p : list R) : Prop := forall x, In x p -> x = 0 \/ bpow radix2 (-1022) <= x.
