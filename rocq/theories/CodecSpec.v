(** Vocabulary of the codec properties. *)
From Coq Require Import ZArith List Reals.
From Flocq Require Import Core.Core IEEE754.BinarySingleNaN IEEE754.Binary IEEE754.Bits.
From Verif Require Import CodecModel.

(** zstd loses nothing *)
Definition lossless (compress : list byte -> list byte) (decompress : list byte -> option (list byte)) : Prop :=
  forall b, decompress (compress b) = Some b.
(** the value of a finite double *)
Notation value64 := (B2R 53 1024).
Definition fin64 (x : binary64) : Prop := is_finite 53 1024 x = true.
(** round to nearest, ties to even, to a float32 (without overflow) *)
Definition to_single (x : R) : R := round radix2 (SpecFloat.fexp 24 128) ZnearestE x.
Definition single_max : R := bpow radix2 128.

