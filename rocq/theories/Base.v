(** Common vocabulary: exceptions as values, real-valued lists, sorting, counting.
    Nothing here is specific to pysatl-criterion; it models the Python/numpy primitives the code uses. *)
From Coq Require Export Reals List Arith Lia Lra Permutation Sorted Bool.
Export ListNotations.
Open Scope R_scope.

(** ** Python exceptions as values *)
Inductive exn : Type :=
| ValueError | TypeError | IndexError | ZeroDivisionError | StopIteration
| MultipleResultsFound | ConnectionError | StructError | OverflowError | KeyError | DbError
| FitError | ModuleNotFoundError.

Inductive result (A : Type) : Type :=
| Ok (a : A)
| Raise (e : exn).
Arguments Ok {A} a.
Arguments Raise {A} e.

Definition bind {A B} (r : result A) (f : A -> result B) : result B :=
  match r with Ok a => f a | Raise e => Raise e end.

Notation "'let!' x ':=' r 'in' k" := (bind r (fun x => k))
  (at level 200, x pattern, r at level 100, k at level 200, right associativity).

(** numpy results that may be non-finite ([nan] or [inf]) *)
Inductive npval : Type :=
| Fin (x : R)
| NonFinite.

(** ** Boolean comparisons on reals (Python [<=], [<], [==] on exact numbers) *)
Definition Rleb (x y : R) : bool := if Rle_dec x y then true else false.
Definition Rltb (x y : R) : bool := if Rlt_dec x y then true else false.
Definition Reqb (x y : R) : bool := if Req_EM_T x y then true else false.

Lemma Rleb_true x y : Rleb x y = true <-> x <= y.
Proof. unfold Rleb; destruct (Rle_dec x y); split; intros; auto; try lra; discriminate. Qed.
Lemma Rleb_false x y : Rleb x y = false <-> y < x.
Proof. unfold Rleb; destruct (Rle_dec x y); split; intros; auto; try lra; discriminate. Qed.
Lemma Rltb_true x y : Rltb x y = true <-> x < y.
Proof. unfold Rltb; destruct (Rlt_dec x y); split; intros; auto; try lra; discriminate. Qed.
Lemma Rltb_false x y : Rltb x y = false <-> y <= x.
Proof. unfold Rltb; destruct (Rlt_dec x y); split; intros; auto; try lra; discriminate. Qed.
Lemma Reqb_true x y : Reqb x y = true <-> x = y.
Proof. unfold Reqb; destruct (Req_EM_T x y); split; intros; auto; try lra; discriminate. Qed.
Lemma Reqb_false x y : Reqb x y = false <-> x <> y.
Proof. unfold Reqb; destruct (Req_EM_T x y); split; intros; auto; try lra; discriminate. Qed.

Lemma Rleb_spec x y : BoolSpec (x <= y) (y < x) (Rleb x y).
Proof. unfold Rleb; destruct (Rle_dec x y); constructor; lra. Qed.
Lemma Rltb_spec x y : BoolSpec (x < y) (y <= x) (Rltb x y).
Proof. unfold Rltb; destruct (Rlt_dec x y); constructor; lra. Qed.
Lemma Reqb_spec x y : BoolSpec (x = y) (x <> y) (Reqb x y).
Proof. unfold Reqb; destruct (Req_EM_T x y); constructor; auto. Qed.

(** case analysis on the comparisons occurring in the goal, closing impossible branches *)
Ltac rcase :=
  repeat match goal with
  | |- context [Rleb ?x ?y] => destruct (Rleb_spec x y); try (exfalso; lra)
  | |- context [Rltb ?x ?y] => destruct (Rltb_spec x y); try (exfalso; lra)
  | |- context [Reqb ?x ?y] => destruct (Reqb_spec x y); try (exfalso; lra)
  end.

(** ** Sums *)
Fixpoint Rsum (l : list R) : R :=
  match l with [] => 0 | x :: l' => x + Rsum l' end.

Lemma Rsum_app l1 l2 : Rsum (l1 ++ l2) = Rsum l1 + Rsum l2.
Proof. induction l1 as [|x l1 IH]; simpl; [lra|rewrite IH; lra]. Qed.
Lemma Rsum_perm l1 l2 : Permutation l1 l2 -> Rsum l1 = Rsum l2.
Proof. induction 1; simpl; lra. Qed.
Lemma Rsum_map_scal {A} c (f : A -> R) l : Rsum (map (fun x => c * f x) l) = c * Rsum (map f l).
Proof. induction l as [|x l IH]; simpl; [lra|rewrite IH; lra]. Qed.
Lemma Rsum_map_scal_r {A} c (f : A -> R) l : Rsum (map (fun x => f x * c) l) = Rsum (map f l) * c.
Proof. induction l as [|x l IH]; simpl; [lra|rewrite IH; lra]. Qed.
Lemma Rsum_map_plus {A} (f g : A -> R) l :
  Rsum (map (fun x => f x + g x) l) = Rsum (map f l) + Rsum (map g l).
Proof. induction l as [|x l IH]; simpl; [lra|rewrite IH; lra]. Qed.
Lemma Rsum_map_minus {A} (f g : A -> R) l :
  Rsum (map (fun x => f x - g x) l) = Rsum (map f l) - Rsum (map g l).
Proof. induction l as [|x l IH]; simpl; [lra|rewrite IH; lra]. Qed.
Lemma Rsum_map_opp {A} (f : A -> R) l : Rsum (map (fun x => - f x) l) = - Rsum (map f l).
Proof. induction l as [|x l IH]; simpl; [lra|rewrite IH; lra]. Qed.
Lemma Rsum_map_const {A} c (l : list A) : Rsum (map (fun _ => c) l) = INR (length l) * c.
Proof.
  induction l as [|x l IH]; [simpl; lra|].
  cbn [map Rsum length]. rewrite IH, S_INR; lra.
Qed.
Lemma Rsum_map_ext {A} (f g : A -> R) l :
  (forall x, In x l -> f x = g x) -> Rsum (map f l) = Rsum (map g l).
Proof. intros H; f_equal; apply map_ext_in; exact H. Qed.
Lemma Rsum_map_le {A} (f g : A -> R) l :
  (forall x, In x l -> f x <= g x) -> Rsum (map f l) <= Rsum (map g l).
Proof.
  induction l as [|x l IH]; simpl; intros H; [lra|].
  assert (f x <= g x) by (apply H; auto).
  assert (Rsum (map f l) <= Rsum (map g l)) by (apply IH; auto). lra.
Qed.
Lemma Rsum_nonneg l : (forall x, In x l -> 0 <= x) -> 0 <= Rsum l.
Proof.
  induction l as [|x l IH]; simpl; intros H; [lra|].
  assert (0 <= x) by auto. assert (0 <= Rsum l) by (apply IH; auto). lra.
Qed.
Lemma Rsum_map_nonneg {A} (f : A -> R) l :
  (forall x, In x l -> 0 <= f x) -> 0 <= Rsum (map f l).
Proof.
  intros H; apply Rsum_nonneg; intros y Hy; apply in_map_iff in Hy.
  destruct Hy as [x [<- Hx]]; auto.
Qed.
Lemma Rsum_map_perm {A} (f : A -> R) l1 l2 :
  Permutation l1 l2 -> Rsum (map f l1) = Rsum (map f l2).
Proof. intros H; apply Rsum_perm, Permutation_map, H. Qed.
Lemma Rsum_zero l : (forall x, In x l -> 0 <= x) -> Rsum l = 0 -> forall x, In x l -> x = 0.
Proof.
  induction l as [|y l IH]; simpl; intros Hn Hs x Hx; [tauto|].
  assert (0 <= y) by auto. assert (0 <= Rsum l) by (apply Rsum_nonneg; auto).
  destruct Hx as [->|Hx]; [lra|]. apply IH; auto; lra.
Qed.
Lemma Rsum_in_le l x : (forall y, In y l -> 0 <= y) -> In x l -> x <= Rsum l.
Proof.
  induction l as [|y l IH]; simpl; intros Hn Hx; [tauto|].
  assert (0 <= y) by auto. assert (0 <= Rsum l) by (apply Rsum_nonneg; auto).
  destruct Hx as [->|Hx]; [lra|]. assert (x <= Rsum l) by auto. lra.
Qed.
Lemma Rsum_map_swap {A B} (f : A -> B -> R) la lb :
  Rsum (map (fun a => Rsum (map (fun b => f a b) lb)) la)
  = Rsum (map (fun b => Rsum (map (fun a => f a b) la)) lb).
Proof.
  induction la as [|a la IH]; simpl.
  - rewrite Rsum_map_const; lra.
  - rewrite IH, <- Rsum_map_plus. reflexivity.
Qed.

(** ** Means and maxima *)
Definition len {A} (l : list A) : R := INR (length l).
Definition mean (l : list R) : R := Rsum l / len l.          (* np.mean, meaningful for l <> [] *)

(** maximum / minimum of a non-empty list; [d] is returned for the empty list only *)
Fixpoint Rmaxl (d : R) (l : list R) : R :=
  match l with [] => d | [x] => x | x :: l' => Rmax x (Rmaxl d l') end.
Fixpoint Rminl (d : R) (l : list R) : R :=
  match l with [] => d | [x] => x | x :: l' => Rmin x (Rminl d l') end.

Lemma Rmaxl_cons d x y l : Rmaxl d (x :: y :: l) = Rmax x (Rmaxl d (y :: l)).
Proof. reflexivity. Qed.
Lemma Rminl_cons d x y l : Rminl d (x :: y :: l) = Rmin x (Rminl d (y :: l)).
Proof. reflexivity. Qed.

Lemma Rmaxl_ge d l x : In x l -> x <= Rmaxl d l.
Proof.
  induction l as [|y l IH]; [simpl; tauto|].
  destruct l as [|z l]; intros Hx.
  - destruct Hx as [->|[]]; simpl; lra.
  - rewrite Rmaxl_cons. destruct Hx as [->|Hx]; [apply Rmax_l|].
    eapply Rle_trans; [apply IH, Hx|apply Rmax_r].
Qed.
Lemma Rmaxl_in d l : l <> [] -> In (Rmaxl d l) l.
Proof.
  induction l as [|y l IH]; [congruence|]; intros _.
  destruct l as [|z l]; [simpl; auto|].
  rewrite Rmaxl_cons. unfold Rmax; destruct (Rle_dec y (Rmaxl d (z :: l))).
  - right; apply IH; discriminate.
  - left; reflexivity.
Qed.
Lemma Rminl_le d l x : In x l -> Rminl d l <= x.
Proof.
  induction l as [|y l IH]; [simpl; tauto|].
  destruct l as [|z l]; intros Hx.
  - destruct Hx as [->|[]]; simpl; lra.
  - rewrite Rminl_cons. destruct Hx as [->|Hx]; [apply Rmin_l|].
    eapply Rle_trans; [apply Rmin_r|apply IH, Hx].
Qed.
Lemma Rminl_in d l : l <> [] -> In (Rminl d l) l.
Proof.
  induction l as [|y l IH]; [congruence|]; intros _.
  destruct l as [|z l]; [simpl; auto|].
  rewrite Rminl_cons. unfold Rmin; destruct (Rle_dec y (Rminl d (z :: l))).
  - left; reflexivity.
  - right; apply IH; discriminate.
Qed.
(** characterisation: the maximum is the only element that bounds the list *)
Lemma Rmaxl_unique d l m : In m l -> (forall x, In x l -> x <= m) -> Rmaxl d l = m.
Proof.
  intros Hm Hb. apply Rle_antisym.
  - apply Hb, Rmaxl_in. intros ->; destruct Hm.
  - apply Rmaxl_ge, Hm.
Qed.
Lemma Rminl_unique d l m : In m l -> (forall x, In x l -> m <= x) -> Rminl d l = m.
Proof.
  intros Hm Hb. apply Rle_antisym.
  - apply Rminl_le, Hm.
  - apply Hb, Rminl_in. intros ->; destruct Hm.
Qed.
Lemma Rmaxl_le_iff d l m : l <> [] -> (Rmaxl d l <= m <-> forall x, In x l -> x <= m).
Proof.
  intros Hl; split.
  - intros H x Hx. eapply Rle_trans; [apply Rmaxl_ge, Hx|exact H].
  - intros H; apply H, Rmaxl_in, Hl.
Qed.
Lemma Rmaxl_perm d l1 l2 : Permutation l1 l2 -> Rmaxl d l1 = Rmaxl d l2.
Proof.
  intros H. destruct l1 as [|x l1].
  - apply Permutation_nil in H; subst; reflexivity.
  - symmetry. apply Rmaxl_unique.
    + eapply Permutation_in; [exact H|]. apply Rmaxl_in; discriminate.
    + intros y Hy. apply Rmaxl_ge. eapply Permutation_in; [symmetry; exact H|exact Hy].
Qed.
Lemma Rminl_perm d l1 l2 : Permutation l1 l2 -> Rminl d l1 = Rminl d l2.
Proof.
  intros H. destruct l1 as [|x l1].
  - apply Permutation_nil in H; subst; reflexivity.
  - symmetry. apply Rminl_unique.
    + eapply Permutation_in; [exact H|]. apply Rminl_in; discriminate.
    + intros y Hy. apply Rminl_le. eapply Permutation_in; [symmetry; exact H|exact Hy].
Qed.

(** ** Sorting: [np.sort] / [sorted] on numbers *)
Fixpoint rinsert (x : R) (l : list R) : list R :=
  match l with
  | [] => [x]
  | y :: l' => if Rleb x y then x :: l else y :: rinsert x l'
  end.
Fixpoint rsort (l : list R) : list R :=
  match l with [] => [] | x :: l' => rinsert x (rsort l') end.

Definition sortedR := StronglySorted Rle.

Lemma rinsert_perm x l : Permutation (rinsert x l) (x :: l).
Proof.
  induction l as [|y l IH]; simpl; [reflexivity|].
  destruct (Rleb x y); [reflexivity|].
  rewrite IH. apply perm_swap.
Qed.
Lemma rsort_perm l : Permutation (rsort l) l.
Proof.
  induction l as [|x l IH]; simpl; [reflexivity|].
  rewrite rinsert_perm. constructor; exact IH.
Qed.
Lemma rinsert_sorted x l : sortedR l -> sortedR (rinsert x l).
Proof.
  induction l as [|y l IH]; simpl; intros H.
  - repeat constructor.
  - inversion H as [|? ? Hs Hf]; subst.
    destruct (Rleb_spec x y).
    + constructor; [exact H|]. constructor; [assumption|].
      rewrite Forall_forall in Hf |- *; intros z Hz. specialize (Hf z Hz); lra.
    + constructor; [apply IH, Hs|].
      rewrite Forall_forall in Hf |- *; intros z Hz.
      apply (Permutation_in _ (rinsert_perm x l)) in Hz.
      destruct Hz as [<-|Hz]; [lra|apply Hf, Hz].
Qed.
Lemma rsort_sorted l : sortedR (rsort l).
Proof. induction l as [|x l IH]; simpl; [constructor|apply rinsert_sorted, IH]. Qed.
Lemma rsort_length l : length (rsort l) = length l.
Proof. apply Permutation_length, rsort_perm. Qed.
Lemma rsort_in l x : In x (rsort l) <-> In x l.
Proof.
  split; apply Permutation_in; [apply rsort_perm|symmetry; apply rsort_perm].
Qed.

Lemma sorted_perm_unique l1 l2 :
  sortedR l1 -> sortedR l2 -> Permutation l1 l2 -> l1 = l2.
Proof.
  revert l2; induction l1 as [|x l1 IH]; intros l2 H1 H2 HP.
  - apply Permutation_nil in HP; auto.
  - destruct l2 as [|y l2]; [symmetry in HP; apply Permutation_nil in HP; discriminate|].
    inversion H1 as [|? ? Hs1 Hf1]; inversion H2 as [|? ? Hs2 Hf2]; subst.
    rewrite Forall_forall in Hf1, Hf2.
    assert (x = y) as ->.
    { assert (Hx : In x (y :: l2)) by (eapply Permutation_in; [exact HP|left; auto]).
      assert (Hy : In y (x :: l1)) by (eapply Permutation_in; [symmetry; exact HP|left; auto]).
      destruct Hx as [->|Hx]; [reflexivity|].
      destruct Hy as [->|Hy]; [reflexivity|].
      specialize (Hf1 y Hy); specialize (Hf2 x Hx); lra. }
    f_equal. apply IH; auto. eapply Permutation_cons_inv; exact HP.
Qed.
Lemma rsort_perm_eq l1 l2 : Permutation l1 l2 -> rsort l1 = rsort l2.
Proof.
  intros H. apply sorted_perm_unique; try apply rsort_sorted.
  rewrite rsort_perm, H. symmetry; apply rsort_perm.
Qed.
Lemma rsort_id l : sortedR l -> rsort l = l.
Proof.
  intros H. apply sorted_perm_unique; [apply rsort_sorted|exact H|apply rsort_perm].
Qed.
Lemma rsort_idem l : rsort (rsort l) = rsort l.
Proof. apply rsort_id, rsort_sorted. Qed.

Lemma sorted_nth_le l i j d : sortedR l -> (i <= j < length l)%nat -> nth i l d <= nth j l d.
Proof.
  intros H; revert i j; induction H as [|x l Hs IH Hf]; intros i j Hij; simpl in *; [lia|].
  destruct i as [|i], j as [|j]; try lia; try lra.
  - rewrite Forall_forall in Hf. apply Hf, nth_In; lia.
  - apply IH; lia.
Qed.
Lemma sorted_app_inv l1 l2 : sortedR (l1 ++ l2) ->
  sortedR l1 /\ sortedR l2 /\ (forall x y, In x l1 -> In y l2 -> x <= y).
Proof.
  induction l1 as [|x l1 IH]; simpl; intros H.
  - repeat split; auto; [constructor|]; simpl; tauto.
  - inversion H as [|? ? Hs Hf]; subst. destruct (IH Hs) as (A & B & C).
    rewrite Forall_forall in Hf. repeat split; auto.
    + constructor; auto. rewrite Forall_forall; intros; apply Hf, in_or_app; auto.
    + intros a b [->|Ha] Hb; [apply Hf, in_or_app; auto|apply C; auto].
Qed.
Lemma sorted_map_mono (f : R -> R) l :
  (forall x y, x <= y -> f x <= f y) -> sortedR l -> sortedR (map f l).
Proof.
  intros Hf; induction 1 as [|x l Hs IH Hfo]; simpl; constructor; auto.
  rewrite Forall_forall in *; intros y Hy. apply in_map_iff in Hy.
  destruct Hy as [z [<- Hz]]; apply Hf, Hfo, Hz.
Qed.
Lemma rsort_map_mono (f : R -> R) l :
  (forall x y, x <= y -> f x <= f y) -> rsort (map f l) = map f (rsort l).
Proof.
  intros Hf. apply sorted_perm_unique.
  - apply rsort_sorted.
  - apply sorted_map_mono; auto. apply rsort_sorted.
  - rewrite rsort_perm. apply Permutation_map. symmetry; apply rsort_perm.
Qed.

(** ** Counting *)
Definition count {A} (P : A -> bool) (l : list A) : nat := length (filter P l).

Lemma count_nil {A} (P : A -> bool) : count P [] = 0%nat.
Proof. reflexivity. Qed.
Lemma count_cons {A} (P : A -> bool) x l :
  count P (x :: l) = ((if P x then 1 else 0) + count P l)%nat.
Proof. unfold count; simpl; destruct (P x); reflexivity. Qed.
Lemma count_app {A} (P : A -> bool) l1 l2 : count P (l1 ++ l2) = (count P l1 + count P l2)%nat.
Proof. unfold count. rewrite filter_app, app_length. reflexivity. Qed.
Lemma count_perm {A} (P : A -> bool) l1 l2 : Permutation l1 l2 -> count P l1 = count P l2.
Proof.
  induction 1; rewrite ?count_cons; auto; try lia.
Qed.
Lemma count_le_length {A} (P : A -> bool) l : (count P l <= length l)%nat.
Proof.
  induction l as [|x l IH]; [auto|]. rewrite count_cons; cbn [length]. destruct (P x); lia.
Qed.
Lemma count_mono {A} (P Q : A -> bool) l :
  (forall x, In x l -> P x = true -> Q x = true) -> (count P l <= count Q l)%nat.
Proof.
  induction l as [|x l IH]; intros H; [auto|].
  rewrite !count_cons. assert (count P l <= count Q l)%nat by (apply IH; intros; apply H; simpl; auto).
  specialize (H x (or_introl eq_refl)). destruct (P x), (Q x); try lia.
Qed.
Lemma count_ext {A} (P Q : A -> bool) l :
  (forall x, In x l -> P x = Q x) -> count P l = count Q l.
Proof.
  induction l as [|x l IH]; intros H; [auto|].
  rewrite !count_cons, IH by (intros; apply H; simpl; auto).
  rewrite (H x); simpl; auto.
Qed.
Lemma count_negb {A} (P : A -> bool) l :
  (count P l + count (fun x => negb (P x)) l = length l)%nat.
Proof.
  induction l as [|x l IH]; [auto|]. rewrite !count_cons; cbn [length]. destruct (P x); simpl; lia.
Qed.
Lemma count_zero {A} (P : A -> bool) l : (forall x, In x l -> P x = false) -> count P l = 0%nat.
Proof.
  induction l as [|x l IH]; intros H; [auto|].
  rewrite count_cons, IH by (intros; apply H; simpl; auto). rewrite H; simpl; auto.
Qed.
Lemma count_all {A} (P : A -> bool) l : (forall x, In x l -> P x = true) -> count P l = length l.
Proof.
  induction l as [|x l IH]; intros H; [auto|].
  rewrite count_cons, IH by (intros; apply H; simpl; auto). rewrite H; simpl; auto.
Qed.
Lemma count_pos {A} (P : A -> bool) l x : In x l -> P x = true -> (0 < count P l)%nat.
Proof.
  induction l as [|y l IH]; simpl; intros Hx HP; [tauto|].
  rewrite count_cons. destruct Hx as [->|Hx]; [rewrite HP; lia|]. specialize (IH Hx HP). lia.
Qed.
Lemma count_pos_inv {A} (P : A -> bool) l : (0 < count P l)%nat -> exists x, In x l /\ P x = true.
Proof.
  induction l as [|y l IH]; [unfold count; simpl; lia|].
  rewrite count_cons. destruct (P y) eqn:E; intros H.
  - exists y; simpl; auto.
  - destruct IH as [x [Hx HP]]; [lia|]. exists x; simpl; auto.
Qed.
Lemma count_map {A B} (P : B -> bool) (f : A -> B) l :
  count P (map f l) = count (fun x => P (f x)) l.
Proof. induction l as [|x l IH]; [auto|]. cbn [map]. rewrite !count_cons, IH. reflexivity. Qed.

(** ** Indexed maps: [for i, x in enumerate(l)] *)
Fixpoint imap_from {A B} (k : nat) (f : nat -> A -> B) (l : list A) : list B :=
  match l with [] => [] | x :: l' => f k x :: imap_from (S k) f l' end.
Definition imap {A B} (f : nat -> A -> B) (l : list A) : list B := imap_from 0 f l.

Lemma imap_from_length {A B} k (f : nat -> A -> B) l : length (imap_from k f l) = length l.
Proof. revert k; induction l as [|x l IH]; intros k; simpl; auto. Qed.
Lemma imap_length {A B} (f : nat -> A -> B) l : length (imap f l) = length l.
Proof. apply imap_from_length. Qed.
Lemma imap_from_nth {A B} k (f : nat -> A -> B) l i da db :
  (i < length l)%nat -> nth i (imap_from k f l) db = f (k + i)%nat (nth i l da).
Proof.
  revert k i; induction l as [|x l IH]; intros k i Hi; simpl in *; [lia|].
  destruct i as [|i]; [rewrite Nat.add_0_r; reflexivity|].
  rewrite IH by lia. f_equal; lia.
Qed.
Lemma imap_nth {A B} (f : nat -> A -> B) l i da db :
  (i < length l)%nat -> nth i (imap f l) db = f i (nth i l da).
Proof. intros H. unfold imap. rewrite (imap_from_nth _ _ _ _ da) by exact H. reflexivity. Qed.
Lemma imap_from_ext {A B} k (f g : nat -> A -> B) l :
  (forall i x, (k <= i < k + length l)%nat -> In x l -> f i x = g i x) ->
  imap_from k f l = imap_from k g l.
Proof.
  revert k; induction l as [|x l IH]; intros k H; simpl; [reflexivity|].
  f_equal; [apply H; simpl; auto; lia|]. apply IH; intros; apply H; simpl in *; auto; lia.
Qed.
Lemma imap_ext {A B} (f g : nat -> A -> B) l :
  (forall i x, (i < length l)%nat -> In x l -> f i x = g i x) -> imap f l = imap g l.
Proof. intros H; apply imap_from_ext; intros; apply H; auto; lia. Qed.
Lemma imap_from_map {A B C} k (f : nat -> B -> C) (g : A -> B) l :
  imap_from k f (map g l) = imap_from k (fun i x => f i (g x)) l.
Proof. revert k; induction l as [|x l IH]; intros k; simpl; [reflexivity|]. rewrite IH; reflexivity. Qed.
Lemma imap_map {A B C} (f : nat -> B -> C) (g : A -> B) l :
  imap f (map g l) = imap (fun i x => f i (g x)) l.
Proof. apply imap_from_map. Qed.
Lemma map_imap_from {A B C} k (g : B -> C) (f : nat -> A -> B) l :
  map g (imap_from k f l) = imap_from k (fun i x => g (f i x)) l.
Proof. revert k; induction l as [|x l IH]; intros k; simpl; [reflexivity|]. rewrite IH; reflexivity. Qed.
Lemma map_imap {A B C} (g : B -> C) (f : nat -> A -> B) l :
  map g (imap f l) = imap (fun i x => g (f i x)) l.
Proof. apply map_imap_from. Qed.
Lemma imap_from_in {A B} k (f : nat -> A -> B) l y :
  In y (imap_from k f l) <->
  exists i x, nth_error l i = Some x /\ y = f (k + i)%nat x.
Proof.
  revert k; induction l as [|x l IH]; intros k; simpl.
  - split; [tauto|]. intros (i & x & H & _). destruct i; discriminate.
  - rewrite IH. split.
    + intros [<-|(i & z & H & ->)].
      * exists 0%nat, x. rewrite Nat.add_0_r; auto.
      * exists (S i), z. split; auto. f_equal; lia.
    + intros (i & z & H & ->). destruct i as [|i]; simpl in H.
      * injection H as ->. left. rewrite Nat.add_0_r; auto.
      * right. exists i, z. split; auto. f_equal; lia.
Qed.
Lemma imap_in {A B} (f : nat -> A -> B) l y :
  In y (imap f l) <-> exists i x, nth_error l i = Some x /\ y = f i x.
Proof. apply imap_from_in. Qed.
Lemma imap_from_shift {A B} k (f : nat -> A -> B) l :
  imap_from (S k) f l = imap_from k (fun i => f (S i)) l.
Proof. revert k; induction l as [|x l IH]; intros k; simpl; [reflexivity|]. rewrite IH; reflexivity. Qed.
Lemma imap_cons {A B} (f : nat -> A -> B) x l : imap f (x :: l) = f 0%nat x :: imap (fun i => f (S i)) l.
Proof. unfold imap; simpl. rewrite imap_from_shift. reflexivity. Qed.
Lemma imap_from_app {A B} k (f : nat -> A -> B) l1 l2 :
  imap_from k f (l1 ++ l2) = imap_from k f l1 ++ imap_from (k + length l1) f l2.
Proof.
  revert k; induction l1 as [|x l1 IH]; intros k; simpl; [rewrite Nat.add_0_r; reflexivity|].
  rewrite IH. do 3 f_equal. lia.
Qed.
Lemma imap_from_seq {A B} k (f : nat -> A -> B) l d :
  imap_from k f l = map (fun i => f (k + i)%nat (nth i l d)) (seq 0 (length l)).
Proof.
  revert k; induction l as [|x l IH]; intros k; [reflexivity|].
  cbn [imap_from length seq map]. rewrite Nat.add_0_r. f_equal.
  rewrite IH, <- seq_shift, map_map. apply map_ext; intros i. simpl. f_equal; lia.
Qed.
Lemma imap_seq {A B} (f : nat -> A -> B) l d :
  imap f l = map (fun i => f i (nth i l d)) (seq 0 (length l)).
Proof. apply (imap_from_seq 0). Qed.

(** ** Lists of numbers as mutable arrays *)
Fixpoint upd {A} (l : list A) (i : nat) (v : A) : list A :=
  match l, i with
  | [], _ => []
  | _ :: l', O => v :: l'
  | x :: l', S i' => x :: upd l' i' v
  end.
Lemma upd_length {A} (l : list A) i v : length (upd l i v) = length l.
Proof. revert i; induction l as [|x l IH]; intros [|i]; simpl; auto. Qed.
Lemma upd_nth_same {A} (l : list A) i v d : (i < length l)%nat -> nth i (upd l i v) d = v.
Proof. revert i; induction l as [|x l IH]; intros [|i] H; simpl in *; try lia; auto. apply IH; lia. Qed.
Lemma upd_nth_other {A} (l : list A) i j v d : i <> j -> nth j (upd l i v) d = nth j l d.
Proof. revert i j; induction l as [|x l IH]; intros [|i] [|j] H; simpl; auto; try lia. Qed.

Lemma nth_ext_R {A} (d : A) l1 l2 : length l1 = length l2 ->
  (forall i, (i < length l1)%nat -> nth i l1 d = nth i l2 d) -> l1 = l2.
Proof. intros; eapply nth_ext; eauto. Qed.

Lemma map_nth_seq {A} (l : list A) d : map (fun i => nth i l d) (seq 0 (length l)) = l.
Proof.
  apply (nth_ext_R d); [rewrite map_length, seq_length; reflexivity|].
  intros i Hi. rewrite map_length, seq_length in Hi.
  rewrite (nth_indep _ d (nth 0 l d)) by (rewrite map_length, seq_length; lia).
  rewrite (map_nth (fun i => nth i l d) _ 0%nat), seq_nth by lia. reflexivity.
Qed.

Lemma INR_pos n : (0 < n)%nat -> 0 < INR n.
Proof. intros; apply lt_0_INR; assumption. Qed.
Lemma INR_ge1 n : (0 < n)%nat -> 1 <= INR n.
Proof. intros H. replace 1 with (INR 1) by reflexivity. apply le_INR; lia. Qed.

(** equality of explicit lists, entry by entry, closing numeric goals with [lra] *)
Ltac list_eq :=
  repeat match goal with
  | |- Ok _ = Ok _ => apply f_equal
  | |- (_, _) = (_, _) => apply f_equal2
  | |- ?a :: _ = ?b :: _ => apply f_equal2
  | |- @nil _ = @nil _ => reflexivity
  end; try reflexivity; try lra.
