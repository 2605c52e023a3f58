From Coq Require Import ZArith List Bool Reals Lia Lra.
From Flocq Require Import Core.Core IEEE754.BinarySingleNaN IEEE754.Binary IEEE754.Bits.
From Verif Require Import Base CodecModel.
Import ListNotations.
Open Scope Z_scope.

Lemma from_to_le k z : 0 <= z < 256 ^ Z.of_nat k -> from_le (to_le k z) = z.
Proof.
  revert z; induction k as [|k IH]; intros z H.
  - simpl in *. lia.
  - cbn [to_le from_le].
    rewrite Nat2Z.inj_succ, Z.pow_succ_r in H by lia.
    rewrite IH; [rewrite (Z.div_mod z 256) at 3; lia|].
    split; [apply Z.div_pos; lia|]. apply Z.div_lt_upper_bound; lia.
Qed.
Lemma to_le_length k z : length (to_le k z) = k.
Proof. revert z; induction k; intros; simpl; auto. Qed.

(** ** conversions *)
Notation fexp32 := (SpecFloat.fexp 24 128).
Notation fexp64 := (SpecFloat.fexp 53 1024).

Lemma format_32_64 x : generic_format radix2 fexp32 x -> generic_format radix2 fexp64 x.
Proof.
  apply generic_inclusion_mag. intros _. unfold SpecFloat.fexp, SpecFloat.emin. lia.
Qed.

Lemma sign_F2R s m e :
  Rcompare (@F2R radix2 {| Fnum := cond_Zopp s (Zpos m); Fexp := e |}) 0%R = if s then Lt else Gt.
Proof.
  destruct s; simpl.
  - apply Rcompare_Lt. apply F2R_lt_0. reflexivity.
  - apply Rcompare_Gt. apply F2R_gt_0. reflexivity.
Qed.

Lemma widen_finite (y : binary32) : is_finite 24 128 y = true ->
  B2R 53 1024 (widen y) = B2R 24 128 y /\ is_finite 53 1024 (widen y) = true /\
  Bsign 53 1024 (widen y) = Bsign 24 128 y.
Proof.
  destruct y as [s|s|s pl H|s m e H]; intros Hf; try discriminate; simpl; [auto|].
  unfold widen, convert.
  pose proof (binary_normalize_correct 53 1024 Hp53 He53 mode_NE (cond_Zopp s (Zpos m)) e s) as C.
  set (x := F2R {| Fnum := cond_Zopp s (Zpos m); Fexp := e |}) in *.
  assert (Hx : x = B2R 24 128 (B754_finite 24 128 s m e H)) by reflexivity.
  assert (Hfmt : generic_format radix2 fexp64 x).
  { apply format_32_64. rewrite Hx. apply generic_format_B2R. }
  rewrite round_generic in C; [|apply valid_rnd_round_mode|exact Hfmt].
  rewrite Rlt_bool_true in C.
  - destruct C as (A & B & D). split; [exact A|]. split; [exact B|]. rewrite D.
    unfold x. rewrite sign_F2R. destruct s; reflexivity.
  - rewrite Hx. eapply Rlt_trans; [apply abs_B2R_lt_emax|]. apply bpow_lt. lia.
Qed.

Lemma narrow_finite (x : binary64) : is_finite 53 1024 x = true ->
  let r := round radix2 fexp32 ZnearestE (B2R 53 1024 x) in
  if Rlt_bool (Rabs r) (bpow radix2 128)
  then B2R 24 128 (narrow x) = r /\ is_finite 24 128 (narrow x) = true /\
       Bsign 24 128 (narrow x) = Bsign 53 1024 x
  else narrow x = B754_infinity 24 128 (Bsign 53 1024 x).
Proof.
  destruct x as [s|s|s pl H|s m e H]; intros Hf; try discriminate; cbv zeta.
  - change (B2R 53 1024 (B754_zero 53 1024 s)) with 0%R. rewrite round_0 by apply valid_rnd_N.
    rewrite Rabs_R0, Rlt_bool_true by apply bpow_gt_0. auto.
  - unfold narrow, convert.
    pose proof (binary_normalize_correct 24 128 Hp24 He24 mode_NE (cond_Zopp s (Zpos m)) e s) as C.
    change (round_mode mode_NE) with ZnearestE in C.
    set (x := F2R {| Fnum := cond_Zopp s (Zpos m); Fexp := e |}) in *.
    change (B2R 53 1024 (B754_finite 53 1024 s m e H)) with x.
    assert (Hs : Rcompare x 0 = if s then Lt else Gt).
    { apply sign_F2R. }
    destruct (Rlt_bool _ _) eqn:E.
    + destruct C as (A & B & D). split; [exact A|]. split; [exact B|]. rewrite D, Hs. destruct s; reflexivity.
    + set (y := binary_normalize 24 128 Hp24 He24 mode_NE (cond_Zopp s (Zpos m)) e s) in *.
      assert (Hl : Rlt_bool x 0 = s).
      { unfold Rlt_bool. rewrite Hs. destruct s; reflexivity. }
      rewrite Hl in C. unfold binary_overflow in C. simpl in C.
      destruct y; simpl in C; try discriminate. injection C as ->. reflexivity.
Qed.

Lemma B64_inj (x y : binary64) : is_finite 53 1024 x = true -> is_finite 53 1024 y = true ->
  B2R 53 1024 x = B2R 53 1024 y -> Bsign 53 1024 x = Bsign 53 1024 y -> x = y.
Proof. apply B2R_Bsign_inj. Qed.

(** a value representable in float32 survives *)
Lemma narrow_widen_exact (x : binary64) : is_finite 53 1024 x = true ->
  generic_format radix2 fexp32 (B2R 53 1024 x) -> (Rabs (B2R 53 1024 x) < bpow radix2 128)%R ->
  widen (narrow x) = x.
Proof.
  intros Hf Hg Hb. pose proof (narrow_finite x Hf) as N. cbv zeta in N.
  rewrite round_generic in N; [|apply valid_rnd_N|exact Hg].
  rewrite Rlt_bool_true in N by exact Hb. destruct N as (A & B & C).
  destruct (widen_finite (narrow x) B) as (D & E & F).
  apply B64_inj; auto; congruence.
Qed.

Lemma widen_narrow_idem (x : binary64) : widen (narrow (widen (narrow x))) = widen (narrow x).
Proof.
  assert (G : forall y : binary32, is_finite 24 128 y = true -> widen (narrow (widen y)) = widen y).
  { intros y Hy. destruct (widen_finite y Hy) as (A & B & C).
    apply narrow_widen_exact; auto; rewrite A; [apply generic_format_B2R|apply abs_B2R_lt_emax]. }
  destruct (is_finite 24 128 (narrow x)) eqn:E; [apply G, E|].
  destruct (narrow x) as [s|s|s pl H|s m e H] eqn:Ex; try discriminate E; reflexivity.
Qed.

(** ** payload and frombuffer *)
Definition cell_bytes (f32 : bool) (x : binary64) : list byte :=
  if f32 then to_le 4 (bits_of_b32 (narrow x)) else to_le 8 (bits_of_b64 x).
Definition cell_size (f32 : bool) : nat := if f32 then 4%nat else 8%nat.
Definition cell_read (f32 : bool) : Z -> binary64 :=
  if f32 then fun z => widen (b32_of_bits z) else b64_of_bits.
(** what one value becomes *)
Definition stored (f32 : bool) (x : binary64) : binary64 := if f32 then widen (narrow x) else x.

Lemma cell_length f32 x : length (cell_bytes f32 x) = cell_size f32.
Proof. destruct f32; reflexivity. Qed.
Lemma cell_roundtrip f32 x : cell_read f32 (from_le (cell_bytes f32 x)) = stored f32 x.
Proof.
  destruct f32; unfold cell_read, cell_bytes, stored.
  - rewrite from_to_le.
    + f_equal. apply (binary_float_of_bits_of_binary_float 23 8).
    + apply (bits_of_binary_float_range 23 8); lia.
  - rewrite from_to_le.
    + apply (binary_float_of_bits_of_binary_float 52 11).
    + apply (bits_of_binary_float_range 52 11); lia.
Qed.
Lemma payload_length f32 xs : length (payload f32 xs) = (length xs * cell_size f32)%nat.
Proof.
  unfold payload. fold (cell_bytes f32). induction xs as [|x xs IH]; [reflexivity|].
  cbn [map concat]. rewrite app_length. change (length (concat _)) with (length (payload f32 xs)).
  simpl length. rewrite Nat.mul_succ_l.
  unfold payload. fold (cell_bytes f32). rewrite IH.
  change (if f32 then to_le 4 (bits_of_b32 (narrow x)) else to_le 8 (bits_of_b64 x)) with (cell_bytes f32 x).
  rewrite cell_length. lia.
Qed.
Lemma read_payload f32 xs : read_items (cell_size f32) (cell_read f32) (length xs) (payload f32 xs)
  = Ok (map (stored f32) xs).
Proof.
  induction xs as [|x xs IH]; [reflexivity|].
  change (payload f32 (x :: xs)) with (cell_bytes f32 x ++ payload f32 xs).
  cbn [length read_items]. rewrite app_length, cell_length.
  destruct (Nat.ltb_spec (cell_size f32 + length (payload f32 xs)) (cell_size f32)); [lia|].
  rewrite skipn_app, firstn_app, cell_length, Nat.sub_diag.
  rewrite (skipn_all2 (cell_bytes f32 x)) by (rewrite cell_length; lia).
  rewrite (firstn_all2 (cell_bytes f32 x)) by (rewrite cell_length; lia).
  simpl firstn. rewrite app_nil_r. simpl skipn. rewrite app_nil_l, IH. simpl.
  rewrite cell_roundtrip. reflexivity.
Qed.

Lemma read_items_short k conv count b : (0 < k)%nat -> (length b < count * k)%nat ->
  read_items k conv count b = Raise ValueError.
Proof.
  intros Hk. revert b; induction count as [|c IH]; intros b H; [simpl in H; lia|].
  cbn [read_items]. destruct (Nat.ltb_spec (length b) k); [reflexivity|].
  rewrite IH; [reflexivity|]. rewrite skipn_length. simpl in H. lia.
Qed.

Lemma encode_decode compress decompress f32 xs :
  (forall b, decompress (compress b) = Some b) -> Z.of_nat (length xs) < 2 ^ 32 ->
  exists blob, encode compress f32 xs = Ok blob /\ decode decompress blob = Ok (map (stored f32) xs).
Proof.
  intros Hz Hl. unfold encode, pack_header.
  destruct (Z.ltb_spec (Z.of_nat (length xs)) (2 ^ 32)); [|lia]. simpl bind.
  set (dt := if f32 then DTYPE_FLOAT32 else DTYPE_FLOAT64).
  remember (to_le 4 (Z.of_nat (length xs))) as L eqn:EL.
  exists (VERSION :: dt :: (L ++ compress (payload f32 xs))). split; [rewrite EL; reflexivity|].
  assert (HL : length L = 4%nat) by (rewrite EL; apply to_le_length).
  assert (Hle : from_le L = Z.of_nat (length xs)).
  { rewrite EL. apply from_to_le. change (256 ^ Z.of_nat 4) with (2 ^ 32). lia. }
  clear EL. destruct L as [|a [|b [|c [|d [|]]]]]; try discriminate HL.
  assert (Hd : (dt =? DTYPE_FLOAT32) = f32) by (unfold dt; destruct f32; reflexivity).
  change (decode decompress (VERSION :: dt :: ([a; b; c; d] ++ compress (payload f32 xs))))
    with (match decompress (compress (payload f32 xs)) with
          | None => Raise DbError
          | Some bs => frombuffer (dt =? DTYPE_FLOAT32) (from_le [a; b; c; d]) bs end).
  rewrite Hz, Hle, Hd.
  unfold frombuffer. fold (cell_size f32).
  rewrite payload_length.
  destruct (Z.ltb_spec (Z.of_nat (length xs * cell_size f32)) (Z.of_nat (length xs) * Z.of_nat (cell_size f32)));
    [lia|].
  rewrite Nat2Z.id. apply read_payload.
Qed.
