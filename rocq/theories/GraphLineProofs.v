(** Proximity graphs on the line: permutation of the sample, sliding window, greedy choice, gaps. *)
From Coq Require Import ZArith FinFun.
From Verif Require Import Base GraphModel GraphSpec GraphProofs GraphConnProofs EdfModel.

(** ** Permuting the sample renames the vertices *)
Lemma perm_rename (x y : list R) : Permutation x y ->
  exists f, (forall i, (i < length x)%nat -> (f i < length x)%nat) /\
    (forall i j, (i < length x)%nat -> (j < length x)%nat -> f i = f j -> i = j) /\
    (forall i, (i < length x)%nat -> exists j, (j < length x)%nat /\ f j = i) /\
    length y = length x /\ (forall i, (i < length x)%nat -> nth i y 0 = nth (f i) x 0).
Proof.
  intros H. assert (L := Permutation_length H). apply (Permutation_nth x y 0) in H.
  destruct H as (_ & f & B & I & E). exists f. repeat split; auto.
  intros i Hi. assert (S := proj1 (bInjective_bSurjective B) I). apply S, Hi.
Qed.

Section Rename.
Variables (x y : list R) (d : R) (f : nat -> nat).
Hypothesis Hb : forall i, (i < length x)%nat -> (f i < length x)%nat.
Hypothesis Hi : forall i j, (i < length x)%nat -> (j < length x)%nat -> f i = f j -> i = j.
Hypothesis Hs : forall i, (i < length x)%nat -> exists j, (j < length x)%nat /\ f j = i.
Hypothesis Hl : length y = length x.
Hypothesis He : forall i, (i < length x)%nat -> nth i y 0 = nth (f i) x 0.

Lemma rename_adjacent i j : (i < length x)%nat -> (j < length x)%nat ->
  adjacent y d i j <-> adjacent x d (f i) (f j).
Proof.
  intros A B. unfold adjacent. rewrite Hl, (He i), (He j) by auto. split; intros (H1 & H2 & H3 & H4); repeat split; auto.
Qed.
Lemma rename_set s : vertex_set y s -> vertex_set x (map f s).
Proof.
  intros [N B]. rewrite Hl in B. split.
  - induction s as [|a s IH]; simpl; [constructor|]. inversion N; subst. constructor.
    + intros H. apply in_map_iff in H. destruct H as (b & E & H). apply Hi in E; try (apply B; simpl; auto; fail). subst; auto.
    + apply IH; auto. intros i Hin. apply B. simpl; auto.
  - intros i H. apply in_map_iff in H. destruct H as (b & <- & H). apply Hb, B, H.
Qed.
Lemma rename_clique s : is_clique y d s -> is_clique x d (map f s).
Proof.
  intros [V C]. split; [apply rename_set, V|]. intros i j H1 H2 N.
  apply in_map_iff in H1, H2. destruct H1 as (a & <- & Ha), H2 as (b & <- & Hb').
  destruct V as [_ B]. rewrite Hl in B. apply rename_adjacent; auto.
Qed.
Lemma rename_independent s : is_independent y d s -> is_independent x d (map f s).
Proof.
  intros [V C]. split; [apply rename_set, V|]. intros i j H1 H2 A.
  apply in_map_iff in H1, H2. destruct H1 as (a & <- & Ha), H2 as (b & <- & Hb').
  destruct V as [_ B]. rewrite Hl in B. apply rename_adjacent in A; auto. apply (C a b); auto.
Qed.
Lemma rename_connected i j : (i < length x)%nat -> connected y d i j -> connected x d (f i) (f j).
Proof.
  intros H C. induction C as [|i j k A C IH]; [constructor|].
  assert (H2 : (j < length x)%nat) by (rewrite <- Hl; apply A).
  econstructor; [apply rename_adjacent; eauto|auto].
Qed.
Lemma rename_connected_inv i j : connected x d i j -> forall a b, (a < length x)%nat -> (b < length x)%nat ->
  f a = i -> f b = j -> connected y d a b.
Proof.
  induction 1 as [i|i j k A C IH]; intros a b Ha Hb' E1 E2.
  - subst. apply Hi in E2; auto. subst. constructor.
  - destruct (Hs j) as (c & Hc & <-); [apply A|]. subst. econstructor; [apply rename_adjacent; eauto|].
    apply IH; auto.
Qed.
Lemma rename_components k : component_count_is y d k -> component_count_is x d k.
Proof.
  intros (reps & N & L & B & P & C). rewrite Hl in *. exists (map f reps).
  assert (V : vertex_set x (map f reps)) by (apply rename_set; split; [exact N|rewrite Hl; exact B]).
  destruct V as [V1 V2]. split; [exact V1|]. split; [rewrite map_length; exact L|]. split; [exact V2|]. split.
  - intros r s H1 H2 H. apply in_map_iff in H1, H2. destruct H1 as (a & <- & Ha), H2 as (b & <- & Hb').
    f_equal. apply P; auto. eapply rename_connected_inv; eauto.
  - intros i Hi'. destruct (Hs i Hi') as (a & Ha & <-). destruct (C a Ha) as (r & Hr & R).
    exists (f r). split; [apply in_map, Hr|]. apply rename_connected; auto.
Qed.
End Rename.

Lemma clique_number_perm x y d k : Permutation x y -> clique_number_is x d k -> clique_number_is y d k.
Proof.
  intros P [(s & C & L) M]. split.
  - destruct (perm_rename y x (Permutation_sym P)) as (f & H1 & H2 & H3 & H4 & H5).
    exists (map f s). split; [|rewrite map_length; exact L]. eapply rename_clique; eauto.
  - intros t T. destruct (perm_rename x y P) as (f & H1 & H2 & H3 & H4 & H5).
    rewrite <- (map_length f t). apply M. eapply rename_clique; eauto.
Qed.
Lemma independence_number_perm x y d k : Permutation x y ->
  independence_number_is x d k -> independence_number_is y d k.
Proof.
  intros P [(s & C & L) M]. split.
  - destruct (perm_rename y x (Permutation_sym P)) as (f & H1 & H2 & H3 & H4 & H5).
    exists (map f s). split; [|rewrite map_length; exact L]. eapply rename_independent; eauto.
  - intros t T. destruct (perm_rename x y P) as (f & H1 & H2 & H3 & H4 & H5).
    rewrite <- (map_length f t). apply M. eapply rename_independent; eauto.
Qed.
Lemma component_count_perm x y d k : Permutation x y -> component_count_is x d k -> component_count_is y d k.
Proof.
  intros P C. destruct (perm_rename y x (Permutation_sym P)) as (f & H1 & H2 & H3 & H4 & H5).
  eapply rename_components; eauto.
Qed.
Lemma largest_unique P k1 k2 : largest P k1 -> largest P k2 -> k1 = k2.
Proof.
  intros [(s1 & A1 & <-) B1] [(s2 & A2 & <-) B2]. apply Nat.le_antisymm; auto.
Qed.

(** a set of vertices in increasing order *)
Lemma vertex_set_sorted x s : vertex_set x s ->
  exists t, Permutation s t /\ StronglySorted lt t.
Proof.
  intros [N B]. exists (filter (fun i => memb i s) (seq 0 (length x))). split.
  - apply NoDup_Permutation; [exact N|apply NoDup_filter, seq_NoDup|].
    intros i. rewrite filter_In, memb_true, in_seq. split; [|tauto]. intros H. split; auto. apply B in H. lia.
  - generalize 0%nat as k. generalize (length x) as n. induction n as [|n IH]; intros k; simpl; [constructor|].
    destruct (memb k s); auto. constructor; auto. apply Forall_forall. intros j Hj.
    apply filter_In in Hj. destruct Hj as [Hj _]. apply in_seq in Hj. lia.
Qed.

(** ** Greedy independent set *)
Fixpoint greedy (rest : list R) (d last : R) : nat :=
  match rest with
  | [] => 0%nat
  | x :: rest' => if Rleb (last + d) x then S (greedy rest' d x) else greedy rest' d last
  end.
Lemma indep_for_greedy rest d last stat : indep_for rest d last stat = (stat + greedy rest d last)%nat.
Proof.
  revert last stat; induction rest as [|x rest IH]; intros last stat; simpl; [lia|].
  destruct (Rleb (last + d) x); rewrite IH; lia.
Qed.

Lemma skipn_nth (xs : list R) k : (k < length xs)%nat -> skipn k xs = nth k xs 0 :: skipn (S k) xs.
Proof. revert k; induction xs as [|x xs IH]; intros [|k] H; simpl in *; try lia; auto. apply IH. lia. Qed.

Lemma greedy_upper xs d : sortedR xs -> forall m k last s, (k + m = length xs)%nat ->
  StronglySorted lt s -> (forall i, In i s -> (k <= i < length xs)%nat) ->
  (forall i j, In i s -> In j s -> (i < j)%nat -> nth i xs 0 + d <= nth j xs 0) ->
  (forall i, In i s -> last + d <= nth i xs 0) ->
  (length s <= greedy (skipn k xs) d last)%nat.
Proof.
  intros HS. induction m as [|m IH]; intros k last s Hk Ss Hr Hsep Hlast.
  - destruct s as [|i s]; [simpl; lia|]. assert (k <= i < length xs)%nat by (apply Hr; simpl; auto). lia.
  - rewrite skipn_nth by lia. cbn [greedy].
    destruct s as [|i s]; [simpl; lia|]. inversion Ss as [|? ? Ss' F]; subst.
    rewrite Forall_forall in F.
    assert (Hi : (k <= i < length xs)%nat) by (apply Hr; simpl; auto).
    destruct (Nat.eq_dec i k) as [->|N].
    + assert (HL := Hlast k (or_introl eq_refl)). rewrite (proj2 (Rleb_true _ _) HL).
      cbn [length]. apply le_n_S. apply IH; auto; try lia.
      * intros j Hj. assert (H := F j Hj). assert (k <= j < length xs)%nat by (apply Hr; simpl; auto). lia.
      * intros a b Ha Hb. apply Hsep; simpl; auto.
      * intros j Hj. apply Hsep; simpl; auto.
    + assert (Hki : nth k xs 0 <= nth i xs 0) by (apply sorted_nth_le; auto; lia).
      destruct (Rleb (last + d) (nth k xs 0)).
      * cbn [length]. apply le_n_S. apply IH; auto; try lia.
        -- intros j Hj. assert (H := F j Hj). assert (k <= j < length xs)%nat by (apply Hr; simpl; auto). lia.
        -- intros a b Ha Hb. apply Hsep; simpl; auto.
        -- intros j Hj. assert (H := Hsep i j (or_introl eq_refl) (or_intror Hj) (F j Hj)). lra.
      * apply IH; auto; try lia. intros j [<-|Hj]; [lia|]. assert (H := F j Hj).
        assert (k <= j < length xs)%nat by (apply Hr; simpl; auto). lia.
Qed.

Lemma greedy_exists xs d : sortedR xs -> forall m k last, (k + m = length xs)%nat ->
  (forall i, (k <= i < length xs)%nat -> last <= nth i xs 0) ->
  exists s, length s = greedy (skipn k xs) d last /\ StronglySorted lt s /\
    (forall i, In i s -> (k <= i < length xs)%nat) /\
    (forall i, In i s -> last + d <= nth i xs 0) /\
    (forall i j, In i s -> In j s -> (i < j)%nat -> nth i xs 0 + d <= nth j xs 0).
Proof.
  intros HS. induction m as [|m IH]; intros k last Hk Hlast.
  - rewrite skipn_all2 by lia. exists []. simpl. repeat split; try tauto; try constructor.
  - rewrite skipn_nth by lia. cbn [greedy]. destruct (Rleb_spec (last + d) (nth k xs 0)) as [L|L].
    + destruct (IH (S k) (nth k xs 0)) as (s & E & Ss & Hr & Hl & Hsep); [lia| |].
      { intros i Hi. apply sorted_nth_le; auto; lia. }
      exists (k :: s). split; [cbn [length]; f_equal; exact E|]. split; [constructor; auto; apply Forall_forall; intros j Hj; apply Hr in Hj; lia|].
      split; [intros i [<-|Hi]; [lia|apply Hr in Hi; lia]|].
      split; [intros i [<-|Hi]; [lra|]; assert (H := Hl i Hi); assert (H2 := Hlast k); assert (k <= k < length xs)%nat by lia; specialize (H2 H0); lra|].
      intros i j [<-|Hi] [<-|Hj] Hij; try lia; auto.
      apply Hr in Hi. lia.
    + destruct (IH (S k) last) as (s & E & Ss & Hr & Hl & Hsep); [lia| |].
      { intros i Hi. apply Hlast. lia. }
      exists s. split; [exact E|]. split; [exact Ss|]. split; [|auto]. intros i Hi. apply Hr in Hi. lia.
Qed.

Lemma sorted_gap xs i j : sortedR xs -> (i < j < length xs)%nat ->
  Rabs (nth i xs 0 - nth j xs 0) = nth j xs 0 - nth i xs 0.
Proof.
  intros HS H. assert (nth i xs 0 <= nth j xs 0) by (apply sorted_nth_le; auto; lia).
  rewrite Rabs_minus_sym, Rabs_right by lra. reflexivity.
Qed.

Lemma strongly_sorted_nodup s : StronglySorted lt s -> NoDup s.
Proof.
  induction 1 as [|a s S IH F]; constructor; auto. intros H. rewrite Forall_forall in F. apply F in H. lia.
Qed.

Lemma independence_sorted xs d : sortedR xs -> independence_number_is xs d (independence_of xs d).
Proof.
  intros HS. destruct xs as [|x0 rest] eqn:E.
  - simpl. split.
    + exists []. split; [|reflexivity]. split; [split; [constructor|intros i []]|intros i j []].
    + intros s [[N B] _]. destruct s as [|a s]; [simpl; lia|]. assert (H := B a (or_introl eq_refl)). simpl in H. lia.
  - assert (EI : independence_of (x0 :: rest) d = S (greedy (skipn 1 (x0 :: rest)) d (nth 0 (x0 :: rest) 0))).
    { simpl. rewrite indep_for_greedy. lia. }
    rewrite EI. rewrite <- E in *. assert (Hlen : (1 <= length xs)%nat) by (rewrite E; simpl; lia). clear EI E x0 rest.
    split.
    + destruct (greedy_exists xs d HS (length xs - 1) 1 (nth 0 xs 0)) as (s & L & Ss & Hr & Hl & Hsep); [lia| |].
      { intros i Hi. apply sorted_nth_le; auto; lia. }
      exists (0%nat :: s). split; [|cbn [length]; f_equal; exact L].
      assert (Sep : forall i j, In i (0%nat :: s) -> In j (0%nat :: s) -> (i < j)%nat -> nth i xs 0 + d <= nth j xs 0).
      { intros i j [<-|H1] [<-|H2] Hij; auto; try lia. }
      assert (B : forall i, In i (0%nat :: s) -> (i < length xs)%nat).
      { intros i [<-|Hi]; [lia|apply Hr in Hi; lia]. }
      split; [split; [|exact B]|].
      * constructor; [|apply strongly_sorted_nodup, Ss]. intros H. apply Hr in H. lia.
      * intros i j H1 H2 (_ & _ & N & A). destruct (Nat.lt_trichotomy i j) as [C|[C|C]]; [|auto|].
        -- rewrite sorted_gap in A by (auto; split; auto). assert (H := Sep i j H1 H2 C). lra.
        -- rewrite Rabs_minus_sym, sorted_gap in A by (auto; split; auto). assert (H := Sep j i H2 H1 C). lra.
    + intros s [V I]. destruct (vertex_set_sorted xs s V) as (t & P & St).
      rewrite (Permutation_length P). destruct t as [|i t]; [simpl; lia|].
      inversion St as [|? ? St' F]; subst. rewrite Forall_forall in F. cbn [length]. apply le_n_S.
      assert (B : forall j, In j (i :: t) -> (j < length xs)%nat).
      { intros j Hj. apply V. apply (Permutation_in j (Permutation_sym P)), Hj. }
      assert (Sep : forall a b, In a (i :: t) -> In b (i :: t) -> (a < b)%nat -> nth a xs 0 + d <= nth b xs 0).
      { intros a b Ha Hb Hab. assert (NA : ~ adjacent xs d a b).
        { apply I; apply (Permutation_in _ (Permutation_sym P)); auto. }
        apply Rnot_lt_le. intros C. apply NA. unfold adjacent. rewrite sorted_gap by (auto; split; auto).
        repeat split; auto; try lia. lra. }
      apply (greedy_upper xs d HS (length xs - 1) 1); auto; try lia.
      * intros j Hj. assert (H := F j Hj). assert (j < length xs)%nat by (apply B; simpl; auto). lia.
      * intros a b Ha Hb. apply Sep; simpl; auto.
      * intros j Hj. assert (H := Sep i j (or_introl eq_refl) (or_intror Hj) (F j Hj)).
        assert (nth 0 xs 0 <= nth i xs 0); [|lra]. apply sorted_nth_le; auto. split; [lia|]. apply B; simpl; auto.
Qed.

Lemma independence_correct x d : independence_number_is x d (independence_of (rsort x) d).
Proof.
  apply (independence_number_perm (rsort x)); [apply rsort_perm|]. apply independence_sorted, rsort_sorted.
Qed.

(** ** Sliding window *)
(** number of observations below t; on a sorted list these are the first positions *)
Definition below (xs : list R) (t : R) : nat := count (fun y => Rltb y t) xs.
Lemma below_nth xs t j : sortedR xs -> (j < length xs)%nat -> ((j < below xs t)%nat <-> nth j xs 0 < t).
Proof.
  unfold below. revert j; induction xs as [|x xs IH]; intros j HS Hj; [simpl in Hj; lia|].
  inversion HS as [|? ? HS' F]; subst. rewrite Forall_forall in F. rewrite count_cons.
  destruct (Rltb_spec x t) as [L|L].
  - destruct j as [|j]; [simpl; split; [auto|lia]|]. simpl nth. rewrite <- IH by (auto; simpl in Hj; lia). lia.
  - assert (Z : count (fun y => Rltb y t) xs = 0%nat).
    { apply count_zero. intros y Hy. apply Rltb_false. apply F in Hy. lra. }
    rewrite Z. split; [lia|]. intros H. exfalso. destruct j as [|j]; [simpl in H; lra|].
    simpl in H. assert (x <= nth j xs 0) by (apply F, nth_In; simpl in Hj; lia). lra.
Qed.
Lemma below_le xs t : (below xs t <= length xs)%nat.
Proof. apply count_le_length. Qed.
Lemma below_mono xs s t : s <= t -> (below xs s <= below xs t)%nat.
Proof. intros H. apply count_mono. intros y _. rewrite !Rltb_true. lra. Qed.

Lemma clique_while_spec xs (d : R) left : sortedR xs -> forall fuel right,
  (fuel = length xs - right)%nat -> (right <= below xs (nth left xs 0%R + d))%nat ->
  clique_while fuel xs d left right = below xs (nth left xs 0%R + d).
Proof.
  intros HS. induction fuel as [|fuel IH]; intros right Hf Hr; simpl.
  - assert (H := below_le xs (nth left xs 0 + d)). lia.
  - destruct (Nat.ltb_spec right (length xs)) as [L|L]; [|lia]. simpl.
    destruct (Rltb_spec (nth right xs 0) (nth left xs 0 + d)) as [C|C].
    + apply IH; [lia|]. apply below_nth in C; auto.
    + destruct (Nat.eq_dec right (below xs (nth left xs 0%R + d))) as [|N]; auto.
      assert (right < below xs (nth left xs 0%R + d))%nat by lia. apply below_nth in H; auto. lra.
Qed.

Definition window (xs : list R) (d : R) (l : nat) : Z := (Z.of_nat (below xs (nth l xs 0%R + d)) - Z.of_nat l)%Z.
Fixpoint maxZ (l : list Z) : Z := match l with [] => 0%Z | a :: l' => Z.max a (maxZ l') end.
Lemma maxZ_ge l a : In a l -> (a <= maxZ l)%Z.
Proof. induction l as [|b l IH]; simpl; [tauto|]. intros [->|H]; [lia|]. apply IH in H. lia. Qed.
Lemma maxZ_le l m : (0 <= m)%Z -> (forall a, In a l -> (a <= m)%Z) -> (maxZ l <= m)%Z.
Proof.
  intros Hm. induction l as [|b l IH]; simpl; intros H; [lia|].
  assert (b <= m)%Z by auto. assert (maxZ l <= m)%Z by auto. lia.
Qed.
Lemma maxZ_nonneg l : (0 <= maxZ l)%Z.
Proof. induction l; simpl; lia. Qed.
Lemma maxZ_in l : (0 < maxZ l)%Z -> In (maxZ l) l.
Proof.
  induction l as [|b l IH]; simpl; [lia|]. intros H. destruct (Z.max_spec b (maxZ l)) as [[A ->]|[A ->]]; [|auto].
  right. apply IH. lia.
Qed.

(** observations closer to the largest one than d *)
Definition top (xs : list R) (d : R) : nat := count (fun y => Rltb (Rmaxl 0 xs - d) y) xs.
Lemma below_compl xs t : sortedR xs -> forall l, (l < length xs)%nat -> nth l xs 0 <= t ->
  (forall j, (j < length xs)%nat -> (j <= l)%nat \/ t < nth j xs 0) ->
  count (fun y => Rltb t y) xs = (length xs - S l)%nat.
Proof.
  intros HS l Hl H1 H2. rewrite <- (map_nth_seq xs 0) at 1. rewrite count_map. 
  replace (length xs) with (S l + (length xs - S l))%nat at 1 by lia.
  rewrite seq_app, count_app, count_zero, count_all; [rewrite seq_length; lia| |].
  - intros j Hj. apply in_seq in Hj. apply Rltb_true. destruct (H2 j); [lia|lia|auto].
  - intros j Hj. apply in_seq in Hj. apply Rltb_false.
    assert (nth j xs 0 <= nth l xs 0) by (apply sorted_nth_le; auto; lia). lra.
Qed.
Lemma sorted_max xs : sortedR xs -> xs <> [] -> Rmaxl 0 xs = nth (length xs - 1) xs 0.
Proof.
  intros HS H. assert (0 < length xs)%nat by (destruct xs; [congruence|simpl; lia]).
  apply Rmaxl_unique; [apply nth_In; lia|]. intros y Hy. apply (In_nth _ _ 0) in Hy.
  destruct Hy as (j & Hj & <-). apply sorted_nth_le; auto; lia.
Qed.

(** for the first window that reaches the end, its width is [top] *)
Lemma window_reaches xs d l : sortedR xs -> (l < length xs)%nat ->
  (below xs (nth l xs 0%R + d) = length xs <-> Rmaxl 0 xs - d < nth l xs 0).
Proof.
  intros HS Hl. rewrite sorted_max by (auto; intros ->; simpl in Hl; lia). split; intros H.
  - assert (C : (length xs - 1 < below xs (nth l xs 0%R + d))%nat) by lia. apply below_nth in C; auto; [lra|lia].
  - assert (C : nth (length xs - 1) xs 0 < nth l xs 0 + d) by lra. apply below_nth in C; auto; [|lia].
    assert (B := below_le xs (nth l xs 0 + d)). lia.
Qed.
Lemma top_nth xs d l : sortedR xs -> (l < length xs)%nat ->
  (Rmaxl 0 xs - d < nth l xs 0 <-> (length xs - top xs d <= l)%nat).
Proof.
  intros HS. unfold top. set (t := Rmaxl 0 xs - d). clearbody t. revert l.
  induction xs as [|x xs IH]; intros l Hl; [simpl in Hl; lia|].
  inversion HS as [|? ? HS' F]; subst. rewrite Forall_forall in F. rewrite count_cons.
  assert (C := count_le_length (fun y => Rltb t y) xs).
  destruct (Rltb_spec t x) as [L|L].
  - assert (A : count (fun y => Rltb t y) xs = length xs).
    { apply count_all. intros y Hy. apply Rltb_true. apply F in Hy. lra. }
    rewrite A. simpl length. split; [lia|]. intros _. destruct l as [|l]; [simpl; lra|].
    simpl. assert (x <= nth l xs 0) by (apply F, nth_In; simpl in Hl; lia). lra.
  - cbn [length]. destruct l as [|l]; [cbn [nth]; split; [lra|lia]|].
    cbn [nth]. rewrite IH by (auto; simpl in Hl; lia). lia.
Qed.

Lemma clique_for_spec xs d : sortedR xs -> 0 < d -> forall todo left right c,
  (left + todo = length xs)%nat -> (left <= length xs - top xs d)%nat -> (0 < top xs d)%nat ->
  (right <= below xs (nth left xs 0%R + d))%nat ->
  clique_for todo xs d left right c =
    Z.max c (Z.max (maxZ (map (window xs d) (seq left todo))) (Z.of_nat (top xs d) + 1)).
Proof.
  intros HS Hd. induction todo as [|todo IH]; intros left right c Ht Hl Htop Hr.
  - assert (T := count_le_length (fun y => Rltb (Rmaxl 0 xs - d) y) xs). fold (top xs d) in T. lia.
  - cbn [clique_for]. rewrite clique_while_spec by auto.
    destruct (Nat.eqb_spec (below xs (nth left xs 0%R + d)) (length xs)) as [E|N].
    + assert (Hlt : (left < length xs)%nat) by lia.
      assert (E' := E). apply window_reaches in E'; auto. apply top_nth in E'; auto.
      assert (left = length xs - top xs d)%nat by lia.
      assert (T := count_le_length (fun y => Rltb (Rmaxl 0 xs - d) y) xs). fold (top xs d) in T.
      assert (M : (maxZ (map (window xs d) (seq left (S todo))) <= Z.of_nat (top xs d) + 1)%Z).
      { apply maxZ_le; [lia|]. intros a Ha. apply in_map_iff in Ha. destruct Ha as (l & <- & Hin).
        apply in_seq in Hin. unfold window. assert (B := below_le xs (nth l xs 0 + d)). lia. }
      rewrite E. lia.
    + assert (Hlt : (left < length xs - top xs d)%nat).
      { destruct (Nat.lt_ge_cases left (length xs - top xs d)) as [|G]; auto. exfalso. apply N.
        apply window_reaches; auto; [lia|]. apply top_nth; auto; lia. }
      rewrite IH; auto; try lia.
      * cbn [seq map maxZ]. unfold window at 2. lia.
      * apply below_mono. assert (nth left xs 0 <= nth (S left) xs 0) by (apply sorted_nth_le; auto; lia). lra.
Qed.

(** the largest window is the clique number *)
Definition omega (xs : list R) (d : R) : nat := Z.to_nat (maxZ (map (window xs d) (seq 0 (length xs)))).

Lemma window_clique xs d l : sortedR xs -> (l < length xs)%nat -> 0 < d ->
  is_clique xs d (seq l (below xs (nth l xs 0%R + d) - l)) /\ (l < below xs (nth l xs 0%R + d))%nat.
Proof.
  intros HS Hl Hd. assert (B := below_le xs (nth l xs 0 + d)).
  assert (G : (l < below xs (nth l xs 0%R + d))%nat) by (apply below_nth; auto; lra).
  split; [|exact G]. split; [split; [apply seq_NoDup|intros i Hi; apply in_seq in Hi; lia]|].
  assert (A : forall i j, (l <= i < j)%nat -> (j < below xs (nth l xs 0%R + d))%nat -> adjacent xs d i j).
  { intros i j H1 H2. unfold adjacent. rewrite sorted_gap by (auto; lia). repeat split; try lia.
    assert (nth l xs 0 <= nth i xs 0) by (apply sorted_nth_le; auto; lia).
    apply below_nth in H2; auto; [lra|lia]. }
  intros i j Hi Hj N. apply in_seq in Hi, Hj.
  destruct (Nat.lt_trichotomy i j) as [C|[C|C]]; [apply A; lia|lia|apply adjacent_sym, A; lia].
Qed.

Lemma omega_correct xs d : sortedR xs -> 0 < d -> clique_number_is xs d (omega xs d).
Proof.
  intros HS Hd. unfold omega. split.
  - destruct (Z.eq_dec (maxZ (map (window xs d) (seq 0 (length xs)))) 0) as [E|N].
    + rewrite E. exists []. split; [|reflexivity]. split; [split; [constructor|intros i []]|intros i j []].
    + assert (P : (0 < maxZ (map (window xs d) (seq 0 (length xs))))%Z).
      { assert (H := maxZ_nonneg (map (window xs d) (seq 0 (length xs)))). lia. }
      apply maxZ_in in P. apply in_map_iff in P. destruct P as (l & E & Hin). apply in_seq in Hin. rewrite <- E.
      destruct (window_clique xs d l) as [C G]; auto; try lia.
      exists (seq l (below xs (nth l xs 0%R + d) - l)). split; auto. rewrite seq_length. unfold window. lia.
  - intros s [V C]. destruct (vertex_set_sorted xs s V) as (t & P & St). rewrite (Permutation_length P).
    assert (B : forall j, In j t -> (j < length xs)%nat).
    { intros j Hj. apply V. apply (Permutation_in j (Permutation_sym P)), Hj. }
    assert (C' : forall i j, In i t -> In j t -> i <> j -> adjacent xs d i j).
    { intros i j H1 H2. apply C; apply (Permutation_in _ (Permutation_sym P)); auto. }
    destruct t as [|l t]; [simpl; lia|]. inversion St as [|? ? St' F]; subst. rewrite Forall_forall in F.
    assert (Hl : (l < length xs)%nat) by (apply B; simpl; auto).
    assert (W : (window xs d l <= maxZ (map (window xs d) (seq 0 (length xs))))%Z).
    { apply maxZ_ge, in_map, in_seq. lia. }
    assert (I : incl (l :: t) (seq l (below xs (nth l xs 0%R + d) - l))).
    { intros j Hj. assert (Hjl : (l <= j)%nat) by (destruct Hj as [<-|Hj]; [lia|apply F in Hj; lia]).
      apply in_seq. split; auto. assert (j < below xs (nth l xs 0%R + d))%nat; [|lia].
      apply below_nth; auto. destruct (Nat.eq_dec l j) as [->|N]; [lra|].
      assert (A : adjacent xs d l j) by (apply C'; simpl; auto).
      destruct A as (_ & _ & _ & A). assert (j < length xs)%nat by (apply B, Hj). rewrite sorted_gap in A by (auto; lia). lra. }
    apply NoDup_incl_length in I; [|apply strongly_sorted_nodup, St]. rewrite seq_length in I.
    destruct (window_clique xs d l) as [_ G]; auto. unfold window at 1 in W. lia.
Qed.

Lemma top_pos xs d : sortedR xs -> xs <> [] -> 0 < d -> (0 < top xs d)%nat.
Proof.
  intros HS H Hd. unfold top. apply (count_pos _ _ (Rmaxl 0 xs)); [apply Rmaxl_in, H|]. apply Rltb_true. lra.
Qed.
(** what the loop returns for a positive threshold *)
Lemma clique_for_value xs d : sortedR xs -> xs <> [] -> 0 < d ->
  clique_for (length xs) xs d 0 0 0%Z = Z.of_nat (Nat.max (omega xs d) (S (top xs d))).
Proof.
  intros HS H Hd. rewrite clique_for_spec; auto; try lia.
  - unfold omega. assert (M := maxZ_nonneg (map (window xs d) (seq 0 (length xs)))). lia.
  - apply top_pos; auto.
Qed.
(** the top window is a clique *)
Lemma top_le_omega xs d : sortedR xs -> xs <> [] -> 0 < d -> (top xs d <= omega xs d)%nat.
Proof.
  intros HS H Hd. assert (T := count_le_length (fun y => Rltb (Rmaxl 0 xs - d) y) xs). fold (top xs d) in T.
  assert (P := top_pos xs d HS H Hd). set (l := (length xs - top xs d)%nat).
  assert (Hl : (l < length xs)%nat) by (unfold l; lia).
  assert (E : below xs (nth l xs 0%R + d) = length xs).
  { apply window_reaches; auto. apply top_nth; auto. }
  assert (W : (window xs d l <= maxZ (map (window xs d) (seq 0 (length xs))))%Z).
  { apply maxZ_ge, in_map, in_seq. lia. }
  unfold window at 1 in W. rewrite E in W. unfold omega. unfold l in W. lia.
Qed.

(** non-positive thresholds: the loop returns 0 *)
Lemma clique_while_low xs d left : sortedR xs -> d <= 0 -> (left < length xs)%nat -> forall fuel right,
  (right <= left)%nat -> (clique_while fuel xs d left right <= left)%nat.
Proof.
  intros HS Hd Hl. induction fuel as [|fuel IH]; intros right Hr; simpl; auto.
  destruct (Nat.ltb_spec right (length xs)) as [L|L]; simpl; auto.
  destruct (Rltb_spec (nth right xs 0) (nth left xs 0 + d)) as [C|C]; auto.
  apply IH. destruct (Nat.eq_dec right left) as [->|]; [lra|lia].
Qed.
Lemma clique_for_low xs d : sortedR xs -> d <= 0 -> forall todo left right,
  (left + todo = length xs)%nat -> (right <= left)%nat -> clique_for todo xs d left right 0%Z = 0%Z.
Proof.
  intros HS Hd. induction todo as [|todo IH]; intros left right Ht Hr; [reflexivity|].
  cbn [clique_for]. assert (L := clique_while_low xs d left HS Hd ltac:(lia) (length xs - right) right Hr).
  destruct (Nat.eqb_spec (clique_while (length xs - right) xs d left right) (length xs)); [lia|].
  replace (Z.max 0 _) with 0%Z by lia. apply IH; lia.
Qed.

(** ** Components are separated by large gaps *)
Definition is_start (xs : list R) (d : R) (i : nat) : bool :=
  match i with O => true | S k => Rleb d (nth (S k) xs 0 - nth k xs 0) end.
Definition starts (xs : list R) (d : R) : list nat := filter (is_start xs d) (seq 0 (length xs)).

Lemma no_crossing xs d s : sortedR xs -> (s < length xs)%nat -> is_start xs d s = true -> (0 < s)%nat ->
  forall i j, adjacent xs d i j -> ((i < s)%nat <-> (j < s)%nat).
Proof.
  intros HS Hs St Hp.
  destruct s as [|k]; [lia|]. simpl in St. apply Rleb_true in St.
  assert (A : forall i j, (i < S k)%nat -> (S k <= j)%nat -> ~ adjacent xs d i j).
  { intros i j Hi Hj (Hi' & Hj' & _ & H). rewrite sorted_gap in H by (auto; lia).
    assert (nth i xs 0 <= nth k xs 0) by (apply sorted_nth_le; auto; lia).
    assert (nth (S k) xs 0 <= nth j xs 0) by (apply sorted_nth_le; auto; lia). lra. }
  intros i j H. split; intros L.
  - destruct (Nat.lt_ge_cases j (S k)); auto. exfalso. apply (A i j); auto.
  - destruct (Nat.lt_ge_cases i (S k)); auto. exfalso. apply (A j i); auto. apply adjacent_sym, H.
Qed.
Lemma no_crossing_connected xs d s : sortedR xs -> (s < length xs)%nat -> is_start xs d s = true -> (0 < s)%nat ->
  forall i j, connected xs d i j -> ((i < s)%nat <-> (j < s)%nat).
Proof.
  intros HS Hs St Hp i j C. induction C as [|i j k A C IH]; [tauto|].
  rewrite (no_crossing xs d s HS Hs St Hp i j A). exact IH.
Qed.
Lemma starts_components xs d : sortedR xs -> component_count_is xs d (length (starts xs d)).
Proof.
  intros HS. exists (starts xs d). split; [apply NoDup_filter, seq_NoDup|]. split; [reflexivity|].
  assert (B : forall r, In r (starts xs d) <-> (r < length xs)%nat /\ is_start xs d r = true).
  { intros r. unfold starts. rewrite filter_In, in_seq. intuition lia. }
  split; [intros r Hr; apply B, Hr|]. split.
  - intros r s Hr Hs C. apply B in Hr, Hs.
    destruct (Nat.lt_trichotomy r s) as [L|[L|L]]; auto; exfalso.
    + apply (no_crossing_connected xs d s) in C; try tauto; try lia.
    + apply (no_crossing_connected xs d r) in C; try tauto; try lia.
  - induction i as [|i IH]; intros Hi.
    + exists 0%nat. split; [apply B; auto|constructor].
    + destruct (is_start xs d (S i)) eqn:E.
      * exists (S i). split; [apply B; auto|constructor].
      * destruct IH as (r & Hr & C); [lia|]. exists r. split; auto.
        econstructor; [|exact C]. simpl in E. apply Rleb_false in E.
        unfold adjacent. rewrite Rabs_minus_sym, sorted_gap by (auto; lia). repeat split; auto; lia.
Qed.
Lemma diff_length l : length (diff l) = (length l - 1)%nat.
Proof.
  induction l as [|a l IH]; [reflexivity|]. destruct l as [|b l]; [reflexivity|].
  change (diff (a :: b :: l)) with ((b - a) :: diff (b :: l)). simpl length in *. lia.
Qed.
Lemma diff_nth_gap l i : (S i < length l)%nat -> nth i (diff l) 0 = nth (S i) l 0 - nth i l 0.
Proof.
  revert i; induction l as [|a l IH]; intros i H; [simpl in H; lia|]. destruct l as [|b l]; [simpl in H; lia|].
  change (diff (a :: b :: l)) with ((b - a) :: diff (b :: l)). destruct i as [|i]; [reflexivity|].
  cbn [nth]. rewrite IH by (simpl in *; lia). reflexivity.
Qed.
Lemma starts_length xs d : xs <> [] -> length (starts xs d) = S (count (Rleb d) (diff xs)).
Proof.
  intros H. unfold starts. assert (L : length xs = S (length xs - 1)) by (destruct xs; [congruence|simpl; lia]).
  rewrite L. cbn [seq filter is_start length]. f_equal.
  rewrite <- (map_nth_seq (diff xs) 0), diff_length, count_map. unfold count.
  rewrite <- seq_shift. assert (B : (length xs - 1 <= length xs - 1)%nat) by lia. revert B.
  generalize (length xs - 1)%nat at 1 3 4 as n. intros n B.
  assert (F : forall s, (forall i, In i s -> (i < length xs - 1)%nat) ->
    length (filter (is_start xs d) (map S s)) = length (filter (fun a => Rleb d (nth a (diff xs) 0)) s)).
  { induction s as [|i s IH]; intros Hs; [reflexivity|]. cbn [map filter is_start].
    rewrite diff_nth_gap by (assert (i < length xs - 1)%nat by (apply Hs; simpl; auto); lia).
    destruct (Rleb d _); simpl; rewrite IH; auto; intros j Hj; apply Hs; simpl; auto. }
  apply F. intros i Hi. apply in_seq in Hi. lia.
Qed.
Lemma components_gaps x d : x <> [] ->
  connected_components (make_adjacency_list x d) = Some (S (count (Rleb d) (diff (rsort x)))).
Proof.
  intros H. destruct (connected_components_correct x d) as (k & E & C). rewrite E. f_equal.
  apply (component_count_unique x d); auto.
  apply (component_count_perm (rsort x)); [apply rsort_perm|].
  rewrite <- starts_length; [apply starts_components, rsort_sorted|].
  intros E'. apply H. apply Permutation_nil. rewrite <- E'. apply rsort_perm.
Qed.
