(** Model of the compressed float column,
    pysatl_criterion/persistence/sqlalchemy/alchemy_decorator.py, at the level of bytes.

    float32/float64 are Flocq's IEEE-754 types with their interchange bit patterns; the zstd library
    is an arbitrary pair of functions (theorems assume it lossless).  The legacy branches for JSON
    text (lines 38-39, 58-60) and None are not modelled. *)
From Coq Require Import ZArith List Bool.
From Flocq Require Import Core.Core IEEE754.BinarySingleNaN IEEE754.Binary IEEE754.Bits.
From Verif Require Import Base.
Import ListNotations.
Open Scope Z_scope.

Definition byte := Z.
Definition is_byte (b : byte) : Prop := 0 <= b < 256.

(** little-endian encoding on k bytes *)
Fixpoint to_le (k : nat) (z : Z) : list byte :=
  match k with O => [] | S k' => z mod 256 :: to_le k' (z / 256) end.
Fixpoint from_le (l : list byte) : Z :=
  match l with [] => 0 | b :: l' => b + 256 * from_le l' end.

Definition Hp24 : Prec_gt_0 24 := eq_refl.
Definition Hp53 : Prec_gt_0 53 := eq_refl.
Definition He24 : Prec_lt_emax 24 128 := eq_refl.
Definition He53 : Prec_lt_emax 53 1024 := eq_refl.

(** conversion between formats: round to nearest even; overflow gives an infinity; a nan becomes
    the given nan (payloads are not tracked) *)
Definition convert (p e p' e' : Z) (Hp : Prec_gt_0 p') (He : Prec_lt_emax p' e')
    (nan : binary_float p' e') (x : binary_float p e) : binary_float p' e' :=
  match x with
  | B754_zero _ _ s => B754_zero p' e' s
  | B754_infinity _ _ s => B754_infinity p' e' s
  | B754_nan _ _ _ _ _ => nan
  | B754_finite _ _ s m ex _ => binary_normalize p' e' Hp He mode_NE (cond_Zopp s (Zpos m)) ex s
  end.
(** [np.asarray(value, dtype=np.float32)] on one Python float *)
Definition narrow : binary64 -> binary32 := convert 53 1024 24 128 Hp24 He24 (proj1_sig default_nan_pl32).
(** [arr.tolist()] on one float32 *)
Definition widen : binary32 -> binary64 := convert 24 128 53 1024 Hp53 He53 (proj1_sig default_nan_pl64).

(** [arr.tobytes()] *)
Definition payload (use_float32 : bool) (xs : list binary64) : list byte :=
  concat (map (fun x => if use_float32 then to_le 4 (bits_of_b32 (narrow x)) else to_le 8 (bits_of_b64 x)) xs).

(** lines 17-19 *)
Definition VERSION : Z := 1.
Definition DTYPE_FLOAT32 : Z := 1.
Definition DTYPE_FLOAT64 : Z := 2.

(** [struct.pack("<BBI", version, dtype, length)], line 48; struct.error if the length needs more
    than 32 bits *)
Definition pack_header (version dtype : Z) (len : Z) : result (list byte) :=
  if len <? 2 ^ 32 then Ok (version :: dtype :: to_le 4 len) else Raise StructError.

(** lines 30-49  [process_bind_param] *)
Definition encode (compress : list byte -> list byte) (use_float32 : bool) (xs : list binary64)
  : result (list byte) :=
  let compressed := compress (payload use_float32 xs) in
  let! header := pack_header VERSION (if use_float32 then DTYPE_FLOAT32 else DTYPE_FLOAT64)
                   (Z.of_nat (length xs)) in
  Ok (header ++ compressed).

(** [np.frombuffer(b, dtype, count).tolist()]: ValueError if the buffer is too small *)
Fixpoint read_items (k : nat) (conv : Z -> binary64) (count : nat) (b : list byte) : result (list binary64) :=
  match count with
  | O => Ok []
  | S c =>
    if (length b <? k)%nat then Raise ValueError
    else let! rest := read_items k conv c (skipn k b) in
         Ok (conv (from_le (firstn k b)) :: rest)
  end.
Definition frombuffer (float32 : bool) (count : Z) (b : list byte) : result (list binary64) :=
  let k := if float32 then 4%nat else 8%nat in
  if Z.of_nat (length b) <? count * Z.of_nat k then Raise ValueError
  else read_items k (if float32 then fun z => widen (b32_of_bits z) else b64_of_bits) (Z.to_nat count) b.

(** lines 51-76  [process_result_value]; [decompress] raises on malformed input (None) *)
Definition decode (decompress : list byte -> option (list byte)) (blob : list byte) : result (list binary64) :=
  if (length blob <? 6)%nat then Raise ValueError
  else
    let version := nth 0 blob 0 in
    let dtype_code := nth 1 blob 0 in
    let len := from_le (firstn 4 (skipn 2 blob)) in
    let compressed := skipn 6 blob in
    if negb (version =? VERSION) then Raise ValueError
    else match decompress compressed with
         | None => Raise DbError        (* zstd.ZstdError *)
         | Some b => frombuffer (dtype_code =? DTYPE_FLOAT32) len b
         end.
