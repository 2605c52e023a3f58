(** Properties C35-C37, C74: the compressed float column. *)
From Coq Require Import ZArith List Lia Lra Reals Bool.
From Flocq Require Import Core.Core IEEE754.BinarySingleNaN IEEE754.Binary IEEE754.Bits.
From Verif Require Import Base CodecModel CodecSpec CodecProofs CodecClaims.
Import ListNotations.
(** *** C35: the ORM column uses float32 (limit_distribution_orm.py) *)
Theorem C35_values_change_refuted : forall compress decompress, lossless compress decompress ->
  exists x y blob, fin64 x /\ value64 x = 16777217%R /\ value64 y = 16777216%R /\
  encode compress true [x] = Ok blob /\ decode decompress blob = Ok [y].
Proof. exact C35_values_change_refuted_holds. Qed.
Print Assumptions C35_values_change_refuted.
(** with 64 bit storage the round trip is the identity (signed zeros, infinities and nan bits included) *)
Theorem C35_identity_with_float64 : forall compress decompress xs, lossless compress decompress ->
  Z.of_nat (length xs) < 2 ^ 32 ->
  exists blob, encode compress false xs = Ok blob /\ decode decompress blob = Ok xs.
Proof. exact C35_identity_with_float64_holds. Qed.
Print Assumptions C35_identity_with_float64.

(** *** C36 *)
Theorem C36_roundtrip_rounds : forall compress decompress xs, lossless compress decompress ->
  Z.of_nat (length xs) < 2 ^ 32 ->
  exists blob ys, encode compress true xs = Ok blob /\ decode decompress blob = Ok ys /\
  length ys = length xs /\
  forall i x y, nth_error xs i = Some x -> nth_error ys i = Some y ->
    fin64 x -> (Rabs (to_single (value64 x)) < single_max)%R ->
    fin64 y /\ value64 y = to_single (value64 x).
Proof. exact C36_roundtrip_rounds_holds. Qed.
Print Assumptions C36_roundtrip_rounds.
Theorem C36_second_roundtrip_exact : forall compress decompress f32 xs, lossless compress decompress ->
  Z.of_nat (length xs) < 2 ^ 32 ->
  exists blob ys blob', encode compress f32 xs = Ok blob /\ decode decompress blob = Ok ys /\
    encode compress f32 ys = Ok blob' /\ decode decompress blob' = Ok ys.
Proof. exact C36_second_roundtrip_exact_holds. Qed.
Print Assumptions C36_second_roundtrip_exact.
(** a list of doubles that are all float32 values comes back unchanged *)
Theorem C36_representable_exact : forall compress decompress xs, lossless compress decompress ->
  Z.of_nat (length xs) < 2 ^ 32 ->
  (forall x, In x xs -> fin64 x /\ to_single (value64 x) = value64 x /\ (Rabs (value64 x) < single_max)%R) ->
  exists blob, encode compress true xs = Ok blob /\ decode decompress blob = Ok xs.
Proof. exact C36_representable_exact_holds. Qed.
Print Assumptions C36_representable_exact.
Theorem C36_too_long : forall compress f32 xs, 2 ^ 32 <= Z.of_nat (length xs) ->
  encode compress f32 xs = Raise StructError.
Proof. exact C36_too_long_holds. Qed.
Print Assumptions C36_too_long.
Example C36_nonvacuous : let one := b64_of_bits 4607182418800017408 in
  value64 one = 1%R /\ widen (narrow one) = one.
Proof. exact C36_nonvacuous_holds. Qed.

(** *** C37 *)
Theorem C37_corrupt_blobs_refused : forall (decompress : list byte -> option (list byte)) (blob : list byte),
  (length blob < 6)%nat \/ nth 0 blob 0 <> 1 \/ decompress (skipn 6 blob) = None \/
  (exists b, decompress (skipn 6 blob) = Some b /\
     Z.of_nat (length b) < from_le (firstn 4 (skipn 2 blob)) * (if nth 1 blob 0 =? 1 then 4 else 8)) ->
  exists e, decode decompress blob = Raise e.
Proof. exact C37_corrupt_blobs_refused_holds. Qed.
Print Assumptions C37_corrupt_blobs_refused.
Theorem C37_decoded_length : forall decompress blob ys, decode decompress blob = Ok ys ->
  0 <= from_le (firstn 4 (skipn 2 blob)) -> Z.of_nat (length ys) = from_le (firstn 4 (skipn 2 blob)).
Proof. exact C37_decoded_length_holds. Qed.
Print Assumptions C37_decoded_length.
Example C37_nonvacuous : decode Some [2; 1; 0; 0; 0; 0] = Raise ValueError /\ decode Some [1; 1; 0; 0; 0; 0] = Ok [].
Proof. exact C37_nonvacuous_holds. Qed.

(** *** C74 *)
Theorem C74_unknown_dtype_accepted_refuted : exists blob ys, nth 1 blob 0 = 7 /\ decode Some blob = Ok ys /\ length ys = 1%nat.
Proof. exact C74_unknown_dtype_accepted_refuted_holds. Qed.
Print Assumptions C74_unknown_dtype_accepted_refuted.
