(** Proofs of the theorems stated in [Props_Codec]. *)
From Coq Require Import ZArith List Lia Lra Reals Bool.
From Flocq Require Import Core.Core IEEE754.BinarySingleNaN IEEE754.Binary IEEE754.Bits.
From Verif Require Import Base CodecModel CodecSpec CodecProofs.
Import ListNotations.
Open Scope Z_scope.

(** 16777217 = 2^24+1 as a double *)
Definition d24 : binary64 := b64_of_bits 4715268810125344768.
Lemma d24_value : value64 d24 = 16777217%R.
Proof. unfold d24. vm_compute. lra. Qed.

(** *** C35: the ORM column uses float32 (limit_distribution_orm.py) *)
Lemma C35_values_change_refuted_holds : forall compress decompress, lossless compress decompress ->
  exists x y blob, fin64 x /\ value64 x = 16777217%R /\ value64 y = 16777216%R /\
  encode compress true [x] = Ok blob /\ decode decompress blob = Ok [y].
Proof.
  intros compress decompress Hz.
  destruct (encode_decode compress decompress true [d24] Hz) as (blob & A & B); [simpl; lia|].
  exists d24, (widen (narrow d24)), blob. split; [reflexivity|]. split; [exact d24_value|].
  split; [vm_compute; lra|]. split; assumption.
Qed.
(** with 64 bit storage the round trip is the identity (signed zeros, infinities and nan bits included) *)
Lemma C35_identity_with_float64_holds : forall compress decompress xs, lossless compress decompress ->
  Z.of_nat (length xs) < 2 ^ 32 ->
  exists blob, encode compress false xs = Ok blob /\ decode decompress blob = Ok xs.
Proof.
  intros compress decompress xs Hz Hl.
  destruct (encode_decode compress decompress false xs Hz Hl) as (blob & A & B). exists blob.
  split; [exact A|]. rewrite B. f_equal. simpl. apply map_id.
Qed.
(** *** C36 *)
Lemma C36_roundtrip_rounds_holds : forall compress decompress xs, lossless compress decompress ->
  Z.of_nat (length xs) < 2 ^ 32 ->
  exists blob ys, encode compress true xs = Ok blob /\ decode decompress blob = Ok ys /\
  length ys = length xs /\
  forall i x y, nth_error xs i = Some x -> nth_error ys i = Some y ->
    fin64 x -> (Rabs (to_single (value64 x)) < single_max)%R ->
    fin64 y /\ value64 y = to_single (value64 x).
Proof.
  intros compress decompress xs Hz Hl.
  destruct (encode_decode compress decompress true xs Hz Hl) as (blob & A & B).
  exists blob, (map (stored true) xs). split; [exact A|]. split; [exact B|]. split; [apply map_length|].
  intros i x y Hx Hy Hf Hb. rewrite nth_error_map, Hx in Hy. injection Hy as <-. simpl.
  pose proof (narrow_finite x Hf) as N. cbv zeta in N. rewrite Rlt_bool_true in N by exact Hb.
  destruct N as (N1 & N2 & _). destruct (widen_finite (narrow x) N2) as (W1 & W2 & _).
  split; [exact W2|]. rewrite W1. exact N1.
Qed.
Lemma C36_second_roundtrip_exact_holds : forall compress decompress f32 xs, lossless compress decompress ->
  Z.of_nat (length xs) < 2 ^ 32 ->
  exists blob ys blob', encode compress f32 xs = Ok blob /\ decode decompress blob = Ok ys /\
    encode compress f32 ys = Ok blob' /\ decode decompress blob' = Ok ys.
Proof.
  intros compress decompress f32 xs Hz Hl.
  destruct (encode_decode compress decompress f32 xs Hz Hl) as (blob & A & B).
  destruct (encode_decode compress decompress f32 (map (stored f32) xs) Hz) as (blob' & A' & B').
  { rewrite map_length; exact Hl. }
  exists blob, (map (stored f32) xs), blob'. repeat split; auto. rewrite B'. f_equal. rewrite map_map.
  apply map_ext. intros x. destruct f32; [apply widen_narrow_idem|reflexivity].
Qed.
(** a list of doubles that are all float32 values comes back unchanged *)
Lemma C36_representable_exact_holds : forall compress decompress xs, lossless compress decompress ->
  Z.of_nat (length xs) < 2 ^ 32 ->
  (forall x, In x xs -> fin64 x /\ to_single (value64 x) = value64 x /\ (Rabs (value64 x) < single_max)%R) ->
  exists blob, encode compress true xs = Ok blob /\ decode decompress blob = Ok xs.
Proof.
  intros compress decompress xs Hz Hl Hx.
  destruct (encode_decode compress decompress true xs Hz Hl) as (blob & A & B).
  exists blob. split; [exact A|]. rewrite B. f_equal. rewrite <- (map_id xs) at 2. apply map_ext_in.
  intros x Hin. destruct (Hx x Hin) as (F & G & Hb). simpl. apply narrow_widen_exact; auto.
  rewrite <- G. apply generic_format_round; [apply fexp_correct; reflexivity|apply valid_rnd_N].
Qed.
Lemma C36_too_long_holds : forall compress f32 xs, 2 ^ 32 <= Z.of_nat (length xs) ->
  encode compress f32 xs = Raise StructError.
Proof.
  intros compress f32 xs H. unfold encode, pack_header.
  destruct (Z.ltb_spec (Z.of_nat (length xs)) (2 ^ 32)); [lia|reflexivity].
Qed.
Lemma C36_nonvacuous_holds : let one := b64_of_bits 4607182418800017408 in
  value64 one = 1%R /\ widen (narrow one) = one.
Proof. split; [vm_compute; lra|]. apply B64_inj; reflexivity. Qed.

(** *** C37 *)
Lemma C37_corrupt_blobs_refused_holds : forall (decompress : list byte -> option (list byte)) (blob : list byte),
  (length blob < 6)%nat \/ nth 0 blob 0 <> 1 \/ decompress (skipn 6 blob) = None \/
  (exists b, decompress (skipn 6 blob) = Some b /\
     Z.of_nat (length b) < from_le (firstn 4 (skipn 2 blob)) * (if nth 1 blob 0 =? 1 then 4 else 8)) ->
  exists e, decode decompress blob = Raise e.
Proof.
  intros decompress blob H. unfold decode. 
  match goal with |- context [(?a <? ?b)%nat] => destruct (Nat.ltb_spec a b) as [Hs|Hlen] end; [eauto|].
  destruct (Z.eqb_spec (nth 0 blob 0) VERSION) as [E|E]; simpl negb; cbv iota; [|eauto].
  destruct H as [H|[H|[H|(b & H & Hs)]]];
   [exfalso; apply (Nat.lt_irrefl 6); exact (Nat.le_lt_trans _ _ _ Hlen H)|contradiction|rewrite H; eauto|].
  rewrite H. unfold frombuffer. change DTYPE_FLOAT32 with 1.
  destruct (nth 1 blob 0 =? 1); match goal with |- context [?a <? ?b] => destruct (Z.ltb_spec a b); [eauto|] end; lia.
Qed.
Lemma C37_decoded_length_holds : forall decompress blob ys, decode decompress blob = Ok ys ->
  0 <= from_le (firstn 4 (skipn 2 blob)) -> Z.of_nat (length ys) = from_le (firstn 4 (skipn 2 blob)).
Proof.
  intros decompress blob ys. unfold decode. destruct (length blob <? 6)%nat; [discriminate|].
  destruct (negb _); [discriminate|]. destruct (decompress _) as [b|]; [|discriminate].
  unfold frombuffer. set (k := if nth 1 blob 0 =? DTYPE_FLOAT32 then 4%nat else 8%nat).
  set (cv := if nth 1 blob 0 =? DTYPE_FLOAT32 then _ else _).
  destruct (Z.ltb _ _); [discriminate|]. intros H H0.
  assert (L : forall n b ys, read_items k cv n b = Ok ys -> length ys = n).
  { induction n as [|n IH]; intros b' ys' E; simpl in E; [injection E as <-; reflexivity|].
    destruct (length b' <? k)%nat; [discriminate|].
    destruct (read_items k cv n (skipn k b')) as [rest|] eqn:Er; [|discriminate].
    simpl in E. injection E as <-. simpl. f_equal. eapply IH, Er. }
  rewrite (L _ _ _ H). lia.
Qed.
Lemma C37_nonvacuous_holds : decode Some [2; 1; 0; 0; 0; 0] = Raise ValueError /\ decode Some [1; 1; 0; 0; 0; 0] = Ok [].
Proof. split; reflexivity. Qed.

(** *** C74 *)
Lemma C74_unknown_dtype_accepted_refuted_holds : exists blob ys, nth 1 blob 0 = 7 /\ decode Some blob = Ok ys /\ length ys = 1%nat.
Proof. exists [1; 7; 1; 0; 0; 0; 0; 0; 0; 0; 0; 0; 0; 0], [B754_zero 53 1024 false]. repeat split. Qed.
