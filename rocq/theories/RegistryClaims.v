(** Properties of the registries: C42-C46, C75-C77, C79. *)
From Coq Require Import String Ascii.
From Verif Require Import Base DecModel RegistryModel RegistrySpec RegistryProofs.
Local Open Scope string_scope.

(** ** C42: statistic codes *)
Lemma C42_codes_distinct_partial_holds : forall c1 c2, In c1 stat_classes -> In c2 stat_classes ->
  sc_code c1 = sc_code c2 ->
  sc_name c1 = sc_name c2 \/ sc_code c1 = "SB_WEIBULL_GOODNESS_OF_FIT".
Proof.
  intros c1 c2 H1 H2 E. pose proof codes_ok_all as H. unfold codes_ok in H.
  rewrite forallb_forall in H. specialize (H c1 H1). rewrite forallb_forall in H. specialize (H c2 H2).
  rewrite E, String.eqb_refl in H. simpl in H. apply orb_true_iff in H.
  destruct H as [H|H]; apply String.eqb_eq in H; [left|right]; congruence.
Qed.
(** class names are distinct, so a name stands for a class *)
Lemma C42_names_distinct_holds : NoDup (map sc_name stat_classes).
Proof. apply (nodupb_NoDup _ String.eqb); [intros; now apply String.eqb_eq|exact names_ok_all]. Qed.
Lemma C42_sb_codes_refuted_holds : exists c1 c2, In c1 stat_classes /\ In c2 stat_classes /\
  sc_name c1 <> sc_name c2 /\ sc_code c1 = sc_code c2.
Proof.
  exists (stat "SbWeibullGofStatistic" WEIBULL "SB" weibull_base (Fixed LEFT)),
         (stat "SBWeibullGofStatistic" WEIBULL "SB" weibull_base (Fixed LEFT)).
  split; [|split; [|split; [discriminate|reflexivity]]];
    unfold stat_classes; apply in_or_app; right; apply in_or_app; right; apply in_or_app; left;
    unfold weibull_classes; simpl; tauto.
Qed.
(** equal codes belong to the same family *)
Lemma C42_code_determines_family_holds : forall c1 c2, In c1 stat_classes -> In c2 stat_classes ->
  sc_code c1 = sc_code c2 -> sc_dist c1 = sc_dist c2.
Proof.
  assert (H : forallb (fun c1 => forallb (fun c2 =>
     implb (String.eqb (sc_code c1) (sc_code c2)) (type_eqb (sc_dist c1) (sc_dist c2))) stat_classes) stat_classes = true)
    by (vm_compute; reflexivity).
  intros c1 c2 H1 H2 E.
  rewrite forallb_forall in H. specialize (H c1 H1). rewrite forallb_forall in H. specialize (H c2 H2).
  rewrite E, String.eqb_refl in H. simpl in H. now apply type_eqb_true.
Qed.
Lemma C42_nonvacuous_holds : List.length stat_classes = 195%nat /\
  In (StatClass "AndersonDarlingLogNormalGofStatistic" LOG_NORMAL "AD" "AD_LOGNORMAL_GOODNESS_OF_FIT" (Fixed RIGHT)) stat_classes.
Proof. split; [vm_compute; reflexivity|]. apply nth_error_In with (n := 159%nat). vm_compute. reflexivity. Qed.

(** ** C43: validators *)
Lemma C43_validators_exact_holds : forall v x, validate v x = true <-> in_range v x.
Proof.
  intros [] x; simpl.
  - apply Rltb_true.
  - apply Rleb_true.
  - rewrite andb_true_iff, !Rleb_true. tauto.
Qed.
Lemma C43_nonvacuous_holds : validate PositiveNumber 0 = false /\ validate NonNegativeNumber 0 = true /\
  validate Probability 1 = true /\ validate Probability 1.5 = false.
Proof.
  pose proof C43_validators_exact_holds as H. split; [|split; [|split]].
  - apply not_true_iff_false. rewrite H. simpl. lra.
  - apply H. simpl. lra.
  - apply H. simpl. lra.
  - apply not_true_iff_false. rewrite H. simpl. lra.
Qed.

(** ** C44: defaults pass their validators *)
Lemma C44_defaults_valid_partial_holds : forall d p, In d descriptors -> In p (d_params d) ->
  (d_type d, p_name p) <> (INV_GAUSS, "mu") -> accepts p (p_default p) = true.
Proof.
  intros d p Hd Hp Hne. unfold descriptors in Hd. simpl in Hd.
  repeat (destruct Hd as [<-|Hd];
    [simpl in Hp; repeat (destruct Hp as [<-|Hp];
       [cbn [d_type p_name pos prob free] in Hne; unfold accepts; cbn [p_validator p_default pos prob free];
        try reflexivity; try (apply C43_validators_exact_holds; simpl; lra); now elim Hne|]);
     destruct Hp|]).
  destruct Hd.
Qed.
Lemma C44_inverse_gaussian_refuted_holds : exists d p, In d descriptors /\ In p (d_params d) /\
  d_type d = INV_GAUSS /\ p_name p = "mu" /\ accepts p (p_default p) = false.
Proof.
  exists (Desc INV_GAUSS [pos "mu" 0; pos "lam" 1]), (pos "mu" 0).
  split; [unfold descriptors; simpl; tauto|]. split; [simpl; auto|].
  split; [reflexivity|]. split; [reflexivity|].
  apply not_true_iff_false. unfold accepts. cbn [p_validator p_default pos]. rewrite C43_validators_exact_holds. simpl. lra.
Qed.
Lemma C44_nonvacuous_holds : In (Desc NORMAL [free "mean" 0; pos "var" 1]) descriptors.
Proof. unfold descriptors. simpl. auto. Qed.

(** ** C45: lookups return the class of the requested type, whatever the iteration order *)
Lemma C45_descriptor_holds : forall order t, Permutation descriptors order ->
  exists d, get_descriptor order t = Ok d /\ In d descriptors /\ d_type d = t.
Proof.
  intros order t P. destruct (descriptor_exists t) as [d [Hd E]].
  exists d. unfold get_descriptor. rewrite (find_key_perm d_type descriptors order t d P descriptors_nodup Hd E). auto.
Qed.
Lemma C45_descriptor_unique_holds : forall d1 d2, In d1 descriptors -> In d2 descriptors -> d_type d1 = d_type d2 -> d1 = d2.
Proof. intros d1 d2. apply nodup_key_eq, descriptors_nodup. Qed.
(** with a value for every constructor parameter the generator of the type is built and holds exactly these values *)
Lemma C45_generator_holds : forall order t params g, Permutation generator_classes order -> is_dict params ->
  In g generator_classes -> g_type g = t ->
  (forall name, In name (map fst (g_sig g)) -> In name (map fst params)) ->
  exists i, get_available_generator order t (Some params) = Ok i /\ i_type i = t /\
    map fst (i_params i) = map fst (g_sig g) /\ incl (i_params i) params.
Proof.
  intros order t params g P D Hg E Hn.
  unfold get_available_generator. rewrite (find_key_perm g_type _ order t g P generators_nodup Hg E).
  destruct (bind_args_all (g_sig g) params) as [ps [Eb [Em Hps]]].
  - intros name Hin. apply Hn in Hin. apply in_map_iff in Hin. destruct Hin as [[k v] [<- Hin]].
    exists v. now apply dict_get_in.
  - exists (Instance (g_type g) ps). unfold construct. rewrite Eb. cbn [bind i_type i_params].
    split; [reflexivity|]. split; [exact E|]. split; [exact Em|].
    intros [k v] Hin. apply Hps in Hin. unfold dict_get in Hin.
    destruct (find (fun kv => String.eqb (fst kv) k) params) as [[k' v']|] eqn:F; [|discriminate].
    simpl in Hin. injection Hin as ->. apply find_some in F. destruct F as [F1 F2].
    apply String.eqb_eq in F2. simpl in F2. now subst.
Qed.
(** any result at all is of the requested type *)
Lemma C45_never_another_holds : forall order t params i,
  get_available_generator order t params = Ok i -> i_type i = t.
Proof.
  intros order t params i. unfold get_available_generator.
  destruct (find _ order) as [g|] eqn:F; [|discriminate]. apply find_key_in in F. destruct F as [_ F].
  unfold construct. destruct (bind_args _ _); cbn [bind]; [|discriminate]. intros H. injection H as <-. exact F.
Qed.
(** without parameters (None or {}) the call succeeds exactly for the families whose constructor has defaults *)
Lemma C45_without_parameters_holds : forall order t, Permutation generator_classes order ->
  if in_dec type_dec t [CAUCHY; LAPLACE; LOGISTIC; STUDENT; TUKEY]
  then get_available_generator order t None = Raise TypeError
  else exists i, get_available_generator order t None = Ok i /\ i_type i = t.
Proof.
  intros order t P. destruct (generator_exists t) as [g [Hg E]].
  unfold get_available_generator. rewrite (find_key_perm g_type _ order t g P generators_nodup Hg E).
  simpl in Hg.
  repeat (destruct Hg as [<-|Hg]; [subst t; simpl; try reflexivity; eexists; split; reflexivity|]). destruct Hg.
Qed.
Lemma C45_without_parameters_refuted_holds : exists t, needs_parameters t /\
  forall order, Permutation generator_classes order -> get_available_generator order t None = Raise TypeError.
Proof.
  exists CAUCHY. split; [unfold needs_parameters; simpl; auto|].
  intros order P. exact (C45_without_parameters_holds order CAUCHY P).
Qed.
Lemma C45_nonvacuous_holds : get_available_generator (rev generator_classes) WEIBULL (Some [("k", 3); ("a", 2)])
  = Ok (Instance WEIBULL [("a", 2); ("k", 3)]).
Proof. reflexivity. Qed.

(** ** C46: generator codes *)
Lemma C46_codes_injective_holds : forall t1 t2 texts1 texts2, Forall numeric texts1 -> Forall numeric texts2 ->
  generator_code t1 texts1 = generator_code t2 texts2 -> t1 = t2 /\ texts1 = texts2.
Proof.
  intros t1 t2 l1 l2 F1 F2. apply generator_code_inj.
  - eapply Forall_impl; [exact numeric_no_underscore|exact F1].
  - eapply Forall_impl; [exact numeric_no_underscore|exact F2].
Qed.
Lemma C46_nonvacuous_holds : generator_code CHI_2 ["2"] = "DistributionType.CHI_2_2" /\ numeric "-1.5e+17" /\ numeric "inf".
Proof. split; [reflexivity|]. unfold numeric, numeric_char. simpl. tauto. Qed.

(** ** C75: parameters named as in the descriptor reach the generator *)
Lemma C75_parameters_reach_generator_partial_holds : forall order d value, Permutation generator_classes order ->
  In d descriptors -> d_type d <> LOG_NORMAL ->
  exists i, get_available_generator order (d_type d) (Some (assignment d value)) = Ok i /\
    same_dict (i_params i) (assignment d value).
Proof.
  intros order d value P Hd Hne. destruct (generator_exists (d_type d)) as [g [Hg E]].
  unfold get_available_generator. rewrite (find_key_perm g_type _ order _ g P generators_nodup Hg E).
  assert (Eg : Some g = find (fun a => type_eqb (g_type a) (d_type d)) generator_classes)
    by (symmetry; apply (find_key_perm g_type generator_classes); auto using generators_nodup).
  simpl in Hd.
  repeat (destruct Hd as [<-|Hd];
    [first [now elim Hne |
     cbv [find generator_classes type_eqb type_dec g_type d_type] in Eg; simpl in Eg; injection Eg as ->;
     eexists; split; [reflexivity|]; unfold same_dict; intros k v; simpl; tauto]|]).
  destruct Hd.
Qed.
(** the log-normal generator drops the values given under the descriptor's names *)
Lemma C75_lognormal_refuted_holds : forall order d value, Permutation generator_classes order ->
  In d descriptors -> d_type d = LOG_NORMAL ->
  get_available_generator order LOG_NORMAL (Some (assignment d value)) = Ok (Instance LOG_NORMAL [("s", 1); ("mu", 0)]).
Proof.
  intros order d value P Hd E.
  rewrite (C45_descriptor_unique_holds d (Desc LOG_NORMAL [free "mean" 0; pos "var" 1])) by (auto; unfold descriptors; simpl; tauto).
  unfold get_available_generator.
  rewrite (find_key_perm g_type _ order LOG_NORMAL (Gen LOG_NORMAL [("s", Some 1); ("mu", Some 0)]) P generators_nodup)
    by (reflexivity || (unfold generator_classes; simpl; tauto)).
  reflexivity.
Qed.
Lemma C75_nonvacuous_holds : get_available_generator generator_classes NORMAL (Some [("mean", 3); ("var", 4)])
  = Ok (Instance NORMAL [("mean", 3); ("var", 4)]).
Proof. reflexivity. Qed.

(** ** C76: the generator built without parameters has the descriptor's defaults *)
Lemma C76_defaults_agree_partial_holds : forall order d i, Permutation generator_classes order -> In d descriptors ->
  ~ In (d_type d) [EXPONENTIAL; GOMPERTZ; LOG_NORMAL] ->
  get_available_generator order (d_type d) None = Ok i -> same_dict (i_params i) (default_assignment d).
Proof.
  intros order d i P Hd Hne. destruct (generator_exists (d_type d)) as [g [Hg E]].
  unfold get_available_generator. rewrite (find_key_perm g_type _ order _ g P generators_nodup Hg E).
  assert (Eg : Some g = find (fun a => type_eqb (g_type a) (d_type d)) generator_classes)
    by (symmetry; apply (find_key_perm g_type generator_classes); auto using generators_nodup).
  simpl in Hd.
  repeat (destruct Hd as [<-|Hd];
    [first [exfalso; apply Hne; simpl; tauto |
     cbv [find generator_classes type_eqb type_dec g_type d_type] in Eg; simpl in Eg; injection Eg as ->;
     intros H; first [discriminate H | injection H as <-; unfold same_dict; intros k v; simpl; tauto]]|]).
  destruct Hd.
Qed.
Lemma C76_exponential_refuted_holds : forall order, Permutation generator_classes order ->
  get_available_generator order EXPONENTIAL None = Ok (Instance EXPONENTIAL [("lam", 0.5)]) /\
  exists d, In d descriptors /\ d_type d = EXPONENTIAL /\ default_assignment d = [("lam", 1)].
Proof.
  intros order P. split.
  - unfold get_available_generator.
    rewrite (find_key_perm g_type _ order EXPONENTIAL (Gen EXPONENTIAL [("lam", Some 0.5)]) P generators_nodup)
      by (reflexivity || (unfold generator_classes; simpl; tauto)). reflexivity.
  - exists (Desc EXPONENTIAL [pos "lam" 1]). split; [unfold descriptors; simpl; tauto|]. split; reflexivity.
Qed.
(** the default of the Gompertz generator is outside the range its own descriptor prescribes *)
Lemma C76_gompertz_refuted_holds : forall order, Permutation generator_classes order ->
  get_available_generator order GOMPERTZ None = Ok (Instance GOMPERTZ [("eta", 0); ("b", 1)]) /\
  exists d p, In d descriptors /\ d_type d = GOMPERTZ /\ In p (d_params d) /\ p_name p = "eta" /\
    p_default p = 1 /\ accepts p 0 = false.
Proof.
  intros order P. split.
  - unfold get_available_generator.
    rewrite (find_key_perm g_type _ order GOMPERTZ (Gen GOMPERTZ [("eta", Some 0); ("b", Some 1)]) P generators_nodup)
      by (reflexivity || (unfold generator_classes; simpl; tauto)). reflexivity.
  - exists (Desc GOMPERTZ [pos "eta" 1; pos "b" 1]), (pos "eta" 1).
    split; [unfold descriptors; simpl; tauto|]. split; [reflexivity|]. split; [simpl; auto|].
    split; [reflexivity|]. split; [reflexivity|].
    apply not_true_iff_false. unfold accepts. cbn [p_validator pos]. rewrite C43_validators_exact_holds. simpl. lra.
Qed.
Lemma C76_nonvacuous_holds : get_available_generator generator_classes WEIBULL None = Ok (Instance WEIBULL [("a", 1); ("k", 5)]).
Proof. reflexivity. Qed.

(** ** C77: the list of available criteria *)
(** when every statistic module is loaded, the list holds exactly the short codes of the family *)
Lemma C77_complete_holds : forall order t s, Permutation stat_classes order ->
  (In s (get_available_criteria order t) <-> exists c, In c stat_classes /\ sc_dist c = t /\ sc_short c = s).
Proof.
  intros order t s P. unfold get_available_criteria. rewrite in_map_iff. split.
  - intros [c [E H]]. apply filter_In in H. destruct H as [H T]. apply type_eqb_true in T.
    exists c. split; [|auto]. now apply (Permutation_in _ (Permutation_sym P)).
  - intros [c [H [T E]]]. exists c. split; [exact E|]. apply filter_In. split.
    + now apply (Permutation_in _ P).
    + now apply type_eqb_true.
Qed.
Lemma C77_no_repetition_partial_holds : forall order t, Permutation stat_classes order -> t <> WEIBULL ->
  NoDup (get_available_criteria order t).
Proof.
  intros order t P Hne.
  apply (Permutation_NoDup (l := get_available_criteria stat_classes t)).
  - unfold get_available_criteria. apply Permutation_map. now apply filter_perm.
  - apply (nodupb_NoDup _ String.eqb); [intros; now apply String.eqb_eq|].
    destruct t; first [exact (False_ind _ (Hne eq_refl)) | vm_cast_no_check (eq_refl true)].
Qed.
Lemma C77_weibull_repeats_refuted_holds : forall order, Permutation stat_classes order ->
  ~ NoDup (get_available_criteria order WEIBULL).
Proof.
  intros order P H.
  assert (H' : NoDup (get_available_criteria stat_classes WEIBULL)).
  { apply (Permutation_NoDup (l := get_available_criteria order WEIBULL)); [|exact H].
    unfold get_available_criteria. apply Permutation_map, filter_perm. now apply Permutation_sym. }
  assert (E : get_available_criteria stat_classes WEIBULL =
    ((firstn 6 (get_available_criteria stat_classes WEIBULL)) ++ "SB" :: (skipn 7 (get_available_criteria stat_classes WEIBULL)))%list)
    by (vm_compute; reflexivity).
  rewrite E in H'. apply NoDup_remove_2 in H'. apply H'. vm_compute. tauto.
Qed.
(** importing the function does not load any statistic: the list is empty for every distribution *)
Lemma C77_not_imported_refuted_holds : (forall t, get_available_criteria [] t = []) /\
  forall t, In t [NORMAL; EXPONENTIAL; WEIBULL; UNIFORM; GAMMA; BETA; STUDENT; LOG_NORMAL] -> ~ listed [] t.
Proof.
  split; [reflexivity|]. intros t Ht H. unfold listed, get_available_criteria in H. simpl in H.
  assert (E : existsb (fun c => type_eqb (sc_dist c) t) stat_classes = true).
  { simpl in Ht. repeat (destruct Ht as [<-|Ht]; [vm_compute; reflexivity|]). destruct Ht. }
  apply existsb_exists in E. destruct E as [c [Hc T]]. apply type_eqb_true in T. exact (H c Hc T).
Qed.
Lemma C77_nonvacuous_holds : List.length (get_available_criteria stat_classes LOG_NORMAL) = 41%nat /\
  get_available_criteria stat_classes CAUCHY = [].
Proof. split; vm_compute; reflexivity. Qed.

(** ** C79: the validator of a parameter accepts exactly the documented range *)
Lemma C79_documented_ranges_partial_holds : forall d p v, In d descriptors -> In p (d_params d) ->
  p_documented p = Some v -> (d_type d, p_name p) <> (RICE, "nu") ->
  forall x, accepts p x = true <-> in_range v x.
Proof.
  intros d p v Hd Hp E Hne x. unfold descriptors in Hd. simpl in Hd.
  repeat (destruct Hd as [<-|Hd];
    [simpl in Hp; repeat (destruct Hp as [<-|Hp];
       [cbn [p_documented pos prob free] in E; try discriminate E; injection E as <-;
        first [now elim Hne | unfold accepts; cbn [p_validator pos prob free]; apply C43_validators_exact_holds]|]);
     destruct Hp|]).
  destruct Hd.
Qed.
Lemma C79_rice_refuted_holds : exists d p, In d descriptors /\ In p (d_params d) /\ d_type d = RICE /\ p_name p = "nu" /\
  p_documented p = Some NonNegativeNumber /\ forall x, accepts p x = true.
Proof.
  exists (Desc RICE [Par "nu" 0 None (Some NonNegativeNumber);
             Par "sigma" 1 (Some NonNegativeNumber) (Some NonNegativeNumber)]), (Par "nu" 0 None (Some NonNegativeNumber)).
  split; [unfold descriptors; simpl; tauto|]. split; [simpl; auto|].
  repeat (split; [reflexivity|]). reflexivity.
Qed.
Lemma C79_nonvacuous_holds : In (Desc GOMPERTZ [pos "eta" 1; pos "b" 1]) descriptors.
Proof. unfold descriptors. simpl. tauto. Qed.
