(** Lemmas about the registries. *)
From Coq Require Import String Ascii.
From Verif Require Import Base DecModel RegistryModel RegistrySpec.
Local Open Scope string_scope.

Lemma type_eqb_true : forall a b, type_eqb a b = true <-> a = b.
Proof. intros a b. unfold type_eqb. destruct (type_dec a b); split; congruence. Qed.
Lemma all_types_complete : forall t, In t all_types.
Proof. destruct t; simpl; tauto. Qed.

(** ** find over a permutation of a list without repeated keys *)
Section FindPerm.
Context {A : Type} (key : A -> distribution_type).
Lemma find_key_in : forall l t x, find (fun a => type_eqb (key a) t) l = Some x -> In x l /\ key x = t.
Proof. intros l t x H. apply find_some in H. destruct H as [H1 H2]. apply type_eqb_true in H2. auto. Qed.
Lemma nodup_key_eq : forall l x y, NoDup (map key l) -> In x l -> In y l -> key x = key y -> x = y.
Proof.
  induction l as [|a l IH]; intros x y ND Hx Hy E; [destruct Hx|].
  simpl in ND. inversion ND as [|? ? Hn Hl]; subst.
  destruct Hx as [->|Hx], Hy as [->|Hy]; auto.
  - exfalso. apply Hn. rewrite E. now apply in_map.
  - exfalso. apply Hn. rewrite <- E. now apply in_map.
Qed.
Lemma find_key_perm : forall l order t x, Permutation l order -> NoDup (map key l) -> In x l -> key x = t ->
  find (fun a => type_eqb (key a) t) order = Some x.
Proof.
  intros l order t x P ND Hx E.
  destruct (find (fun a => type_eqb (key a) t) order) as [y|] eqn:F.
  - apply find_key_in in F. destruct F as [F1 F2]. f_equal.
    apply (nodup_key_eq l); auto; [|congruence]. apply (Permutation_in _ (Permutation_sym P)). auto.
  - exfalso.
    assert (In x order) by now apply (Permutation_in _ P).
    apply (find_none _ _ F) in H. apply (proj2 (type_eqb_true (key x) t)) in E. congruence.
Qed.
End FindPerm.

Fixpoint nodupb {A} (eqb : A -> A -> bool) (l : list A) : bool :=
  match l with [] => true | x :: l' => negb (existsb (eqb x) l') && nodupb eqb l' end.
Lemma nodupb_NoDup : forall A (eqb : A -> A -> bool) (l : list A), (forall a b, a = b -> eqb a b = true) -> nodupb eqb l = true -> NoDup l.
Proof.
  intros A eqb l R. induction l as [|x l IH]; simpl; intros H; constructor.
  - apply andb_true_iff in H. destruct H as [H _]. apply negb_true_iff in H. intros Hin.
    assert (E : existsb (eqb x) l = true) by (apply existsb_exists; exists x; auto). congruence.
  - apply andb_true_iff in H. tauto.
Qed.
Lemma descriptors_nodup : NoDup (map d_type descriptors).
Proof. apply (nodupb_NoDup _ type_eqb); [intros; now apply type_eqb_true|reflexivity]. Qed.
Lemma generators_nodup : NoDup (map g_type generator_classes).
Proof. apply (nodupb_NoDup _ type_eqb); [intros; now apply type_eqb_true|reflexivity]. Qed.
Lemma descriptor_exists : forall t, exists d, In d descriptors /\ d_type d = t.
Proof.
  intros t. assert (H : In t (map d_type descriptors)) by (destruct t; simpl; tauto).
  apply in_map_iff in H. destruct H as [d [E H]]. eauto.
Qed.
Lemma generator_exists : forall t, exists g, In g generator_classes /\ g_type g = t.
Proof.
  intros t. assert (H : In t (map g_type generator_classes)) by (destruct t; simpl; tauto).
  apply in_map_iff in H. destruct H as [d [E H]]. eauto.
Qed.

(** ** constructor calls *)
Lemma dict_get_in : forall d k v, is_dict d -> In (k, v) d -> dict_get d k = Some v.
Proof.
  unfold is_dict, dict_get. induction d as [|[k' v'] d IH]; intros k v ND H; [destruct H|].
  simpl in ND. inversion ND as [|? ? Hn Hl]; subst. simpl.
  destruct H as [H|H].
  - injection H as -> ->. rewrite String.eqb_refl. reflexivity.
  - destruct (String.eqb k' k) eqn:E; [|now apply IH].
    apply String.eqb_eq in E. subst. exfalso. apply Hn. change k with (fst (k, v)). now apply in_map.
Qed.
Lemma bind_args_all : forall sg params,
  (forall name, In name (map fst sg) -> exists v, dict_get params name = Some v) ->
  exists ps, bind_args sg params = Ok ps /\ map fst ps = map fst sg /\
    forall k v, In (k, v) ps -> dict_get params k = Some v.
Proof.
  induction sg as [|[name d] sg IH]; intros params H; simpl.
  - exists []. repeat (split; [reflexivity|]). intros k v [].
  - destruct (H name) as [v Hv]; [simpl; auto|].
    destruct (IH params) as [ps [E [Hm Hps]]]; [intros; apply H; simpl; auto|].
    rewrite Hv, E. cbn [bind]. exists ((name, v) :: ps). simpl. rewrite Hm.
    repeat (split; [reflexivity|]). intros k w [Hk|Hk]; [congruence|auto].
Qed.

(** ** underscore-separated texts *)
Definition no_underscore (s : string) : Prop := chars (fun c => c <> "_"%char) s.
Lemma chars_impl : forall (P Q : ascii -> Prop) s, (forall c, P c -> Q c) -> chars P s -> chars Q s.
Proof. induction s; simpl; intros; tauto || (destruct H0; split; auto). Qed.
Lemma numeric_no_underscore : forall s, numeric s -> no_underscore s.
Proof.
  intros s. apply chars_impl. intros c Hc E. subst. unfold numeric_char in Hc. simpl in Hc.
  repeat (destruct Hc as [Hc|Hc]; [discriminate Hc|]). destruct Hc.
Qed.
Lemma join_cons : forall x l, l <> [] -> join "_" (x :: l) = x ++ "_" ++ join "_" l.
Proof. intros x [|y l] H; [congruence|reflexivity]. Qed.
Lemma app_head_inj : forall x y r s, no_underscore x -> no_underscore y ->
  x ++ String "_" r = y ++ String "_" s -> x = y /\ r = s.
Proof.
  induction x as [|c x IH]; intros [|c' y] r s Hx Hy E; simpl in *.
  - injection E. auto.
  - injection E as E1 E2. subst. destruct Hy. congruence.
  - injection E as E1 E2. subst. destruct Hx. congruence.
  - injection E as E1 E2. subst. destruct Hx as [_ Hx], Hy as [_ Hy].
    destruct (IH y r s Hx Hy E2) as [-> ->]. auto.
Qed.
Lemma app_head_end : forall x y s, no_underscore x -> no_underscore y -> x = y ++ String "_" s -> False.
Proof.
  induction x as [|c x IH]; intros [|c' y] s Hx Hy E; simpl in *; try discriminate.
  - injection E as E1 E2. subst. destruct Hx. congruence.
  - injection E as E1 E2. destruct Hx, Hy. eapply IH; eauto.
Qed.
Lemma join_inj : forall l1 l2, l1 <> [] -> l2 <> [] -> Forall no_underscore l1 -> Forall no_underscore l2 ->
  join "_" l1 = join "_" l2 -> l1 = l2.
Proof.
  induction l1 as [|x l1 IH]; intros l2 N1 N2 F1 F2 E; [congruence|].
  destruct l2 as [|y l2]; [congruence|].
  inversion F1 as [|? ? Hx F1']; inversion F2 as [|? ? Hy F2']; subst.
  destruct l1 as [|x' l1], l2 as [|y' l2].
  - simpl in E. now subst.
  - rewrite (join_cons y) in E by congruence. exfalso. apply (app_head_end x y (join "_" (y' :: l2))); auto.
  - rewrite (join_cons x) in E by congruence. exfalso. apply (app_head_end y x (join "_" (x' :: l1))); auto.
  - rewrite !join_cons in E by congruence.
    change ("_" ++ ?s) with (String "_" s) in E.
    apply app_head_inj in E; auto. destruct E as [-> E]. f_equal. apply IH; auto; congruence.
Qed.

(** the pieces between the underscores of the name of a type *)
Definition type_tokens (t : distribution_type) : list string :=
  match t with
  | LOG_NORMAL => ["DistributionType.LOG"; "NORMAL"]
  | CHI_2 => ["DistributionType.CHI"; "2"]
  | INV_GAUSS => ["DistributionType.INV"; "GAUSS"]
  | LO_CON_NORMAL => ["DistributionType.LO"; "CON"; "NORMAL"]
  | MIX_CON_NORMAL => ["DistributionType.MIX"; "CON"; "NORMAL"]
  | SCALE_CON_NORMAL => ["DistributionType.SCALE"; "CON"; "NORMAL"]
  | TRUNC_NORMAL => ["DistributionType.TRUNC"; "NORMAL"]
  | _ => [type_str t]
  end.
Lemma type_tokens_join : forall t, join "_" (type_tokens t) = type_str t.
Proof. destruct t; reflexivity. Qed.
Lemma type_tokens_ok : forall t, Forall no_underscore (type_tokens t).
Proof. destruct t; repeat constructor; discriminate. Qed.
Lemma type_tokens_nil : forall t, type_tokens t <> [].
Proof. destruct t; discriminate. Qed.
Lemma type_tokens_head : forall t1 t2 l1 l2, (type_tokens t1 ++ l1 = type_tokens t2 ++ l2)%list -> t1 = t2 /\ l1 = l2.
Proof.
  intros t1 t2 l1 l2 H.
  destruct t1; destruct t2; cbv [type_tokens List.app] in H; try discriminate H; injection H; auto.
Qed.
Lemma append_assoc_s : forall a b c : string, (a ++ b) ++ c = a ++ (b ++ c).
Proof. induction a; intros; simpl; [reflexivity|now rewrite IHa]. Qed.
Lemma join_app : forall l1 l2, l1 <> [] -> l2 <> [] -> join "_" (l1 ++ l2)%list = join "_" l1 ++ "_" ++ join "_" l2.
Proof.
  induction l1 as [|x l1 IH]; intros l2 N1 N2; [congruence|].
  destruct l1 as [|y l1].
  - change ([x] ++ l2)%list with (x :: l2). now apply join_cons.
  - change ((x :: y :: l1) ++ l2)%list with (x :: ((y :: l1) ++ l2)%list).
    rewrite !join_cons by (simpl; congruence). rewrite IH by congruence.
    rewrite append_assoc_s. f_equal.
Qed.
Lemma generator_code_tokens : forall t texts, generator_code t texts = join "_" (type_tokens t ++ texts)%list.
Proof.
  intros t texts. unfold generator_code. destruct texts as [|x texts].
  - rewrite app_nil_r, type_tokens_join. reflexivity.
  - rewrite join_app by (apply type_tokens_nil || congruence).
    rewrite type_tokens_join. now rewrite join_cons by congruence.
Qed.
Lemma generator_code_inj : forall t1 t2 l1 l2, Forall no_underscore l1 -> Forall no_underscore l2 ->
  generator_code t1 l1 = generator_code t2 l2 -> t1 = t2 /\ l1 = l2.
Proof.
  intros t1 t2 l1 l2 F1 F2 E. rewrite !generator_code_tokens in E.
  apply join_inj in E.
  - now apply type_tokens_head.
  - destruct (type_tokens t1) eqn:T; [now apply type_tokens_nil in T|discriminate].
  - destruct (type_tokens t2) eqn:T; [now apply type_tokens_nil in T|discriminate].
  - apply Forall_app. auto using type_tokens_ok.
  - apply Forall_app. auto using type_tokens_ok.
Qed.

(** ** statistic codes: a computation over the table *)
Definition codes_ok (l : list stat_class) : bool :=
  forallb (fun c1 => forallb (fun c2 =>
    implb (String.eqb (sc_code c1) (sc_code c2))
          (String.eqb (sc_name c1) (sc_name c2)
           || (String.eqb (sc_code c1) "SB_WEIBULL_GOODNESS_OF_FIT"))) l) l.
Lemma codes_ok_all : codes_ok stat_classes = true.
Proof. vm_compute. reflexivity. Qed.
Definition names_ok (l : list stat_class) : bool := nodupb String.eqb (map sc_name l).
Lemma names_ok_all : names_ok stat_classes = true.
Proof. vm_compute. reflexivity. Qed.
Lemma filter_perm : forall A (f : A -> bool) l1 l2, Permutation l1 l2 -> Permutation (filter f l1) (filter f l2).
Proof.
  intros A f l1 l2 P. induction P; simpl.
  - constructor.
  - destruct (f x); auto.
  - destruct (f x), (f y); auto; constructor.
  - eapply perm_trans; eauto.
Qed.
