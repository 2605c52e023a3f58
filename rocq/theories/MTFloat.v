(** IEEE-754 binary64 behaviour of the single-step corrections (fwer.py:20-23 and 53-56).
    Every arithmetic operation is the exact result rounded to nearest-even in binary64 without
    overflow (p-values lie in [0,1], so no intermediate can overflow for m < 2^1023). *)
From Verif Require Import Base.
From Flocq Require Import Core.

(** binary64: 53-bit significand, least exponent -1074 *)
Definition b64 : Z -> Z := FLT_exp (-1074) 53.
Definition fl (x : R) : R := round radix2 b64 ZnearestE x.
Definition is_b64 (x : R) : Prop := generic_format radix2 b64 x.

(** fwer.py:22  [min(p_value * m, 1.0)]: the int m is converted to float, multiplied, compared *)
Definition bonferroni_float (p : R) (m : nat) : R := Rmin (fl (p * fl (INR m))) 1.

(** fwer.py:55  [1 - (1 - p_value) ** m], for a libm [pow] *)
Definition sidak_float (pow : R -> nat -> R) (p : R) (m : nat) : R := fl (1 - pow (fl (1 - p)) m).

Local Instance b64_valid : Valid_exp b64.
Proof. apply FLT_exp_valid. reflexivity. Qed.

Lemma b64_one : is_b64 1.
Proof.
  replace 1 with (bpow radix2 0) by reflexivity.
  apply generic_format_bpow. unfold b64, FLT_exp. simpl. lia.
Qed.
Lemma b64_zero : is_b64 0.
Proof. apply generic_format_0. Qed.
Lemma fl_ge x y : is_b64 x -> x <= y -> x <= fl y.
Proof. intros Hx H. unfold fl. apply round_ge_generic; auto with typeclass_instances. Qed.
Lemma fl_le x y : is_b64 y -> x <= y -> fl x <= y.
Proof. intros Hx H. unfold fl. apply round_le_generic; auto with typeclass_instances. Qed.

Lemma bonferroni_float_range p m : is_b64 p -> 0 <= p <= 1 -> (1 <= m)%nat ->
  p <= bonferroni_float p m <= 1.
Proof.
  intros Hf Hp Hm. unfold bonferroni_float. split; [|apply Rmin_r].
  apply Rmin_glb; [|lra]. apply fl_ge; auto.
  assert (1 <= fl (INR m)) by (apply fl_ge; [apply b64_one|apply INR_ge1; lia]). nra.
Qed.

Lemma sidak_float_le1 pow p m :
  (forall x k, 0 <= x <= 1 -> 0 <= pow x k) -> 0 <= p <= 1 -> sidak_float pow p m <= 1.
Proof.
  intros Hpow Hp. unfold sidak_float. apply fl_le; [apply b64_one|].
  assert (0 <= pow (fl (1 - p)) m); [|lra]. apply Hpow. split.
  - apply fl_ge; [apply b64_zero|lra].
  - apply fl_le; [apply b64_one|lra].
Qed.

(** 2^-60 *)
Definition tiny : R := bpow radix2 (-60).
Lemma tiny_b64 : is_b64 tiny.
Proof. apply generic_format_bpow. unfold b64, FLT_exp. simpl. lia. Qed.

Lemma round_absorbs : fl (1 - tiny) = 1.
Proof.
  assert (Ht : 0 < tiny) by apply bpow_gt_0.
  assert (Ht2 : tiny * 2 < bpow radix2 (-53)).
  { unfold tiny. replace (bpow radix2 (-53)) with (bpow radix2 (-60) * bpow radix2 7).
    - apply Rmult_lt_compat_l; [apply bpow_gt_0|]. simpl; lra.
    - rewrite <- bpow_plus. reflexivity. }
  apply Rle_antisym; [apply fl_le; [apply b64_one|lra]|].
  unfold fl.
  (* mantissa of 1 - tiny is within 1/2 of 2^53 with exponent -53 *)
  assert (Hmag : mag_val radix2 _ (mag radix2 (1 - tiny)) = 0%Z).
  { apply mag_unique. split.
    - rewrite Rabs_pos_eq by (simpl in *; lra). simpl. unfold tiny in *; simpl in *; lra.
    - rewrite Rabs_pos_eq by (simpl in *; lra). simpl. lra. }
  unfold round, F2R, scaled_mantissa, cexp. rewrite Hmag.
  change (b64 0) with (-53)%Z. cbn [Fexp Fnum].
  assert (Hn : ZnearestE ((1 - tiny) * bpow radix2 (- -53)) = 9007199254740992%Z).
  { apply Znearest_imp.
    unfold tiny. simpl. rewrite Rabs_left1; lra. }
  rewrite Hn. simpl. lra.
Qed.

(** the adjusted value of a tiny p-value is 0, below the p-value *)
Lemma sidak_float_underflow pow m : (forall k, pow 1 k = 1) ->
  sidak_float pow tiny m = 0 /\ sidak_float pow tiny m < tiny.
Proof.
  intros Hpow. assert (H : sidak_float pow tiny m = 0).
  { unfold sidak_float. rewrite round_absorbs, Hpow. replace (1 - 1) with 0 by ring.
    unfold fl. apply round_0; auto with typeclass_instances. }
  split; [exact H|]. rewrite H. apply bpow_gt_0.
Qed.
