(** Property C123: composite tests do not depend on the unknown parameters. *)
From Coq Require Import String.
From Verif Require Import Base DecModel EdfModel GraphModel RegistryModel NormalLaw ExpModel ExpSpec ExpClaims NormModel NormSpec NormClaims ProbSpec ProbProofs DecSpec DecProofs SizeSpec SizeClaims ConvSpec PowerSpec PowerClaims ExpProofs ExpRangeProofs CompSpec.
From Coq Require Import Permutation Lra Lia List.
Import ListNotations.
Local Open Scope list_scope.
Local Open Scope R_scope.

(** a statistic that ignores a transformation of the sample *)
Definition ignores (st : statistic) (g : list R -> list R) : Prop := forall l, st_execute st (g l) = st_execute st l /\ length (g l) = length l.
Lemma run_ignores st meth level gs g sims obs : ignores st g -> length gs = length sims -> (forall h, In h gs -> ignores st h) ->
  run_rejects meth st level (map (fun q => fst q (snd q)) (combine gs sims)) (g obs) = run_rejects meth st level sims obs.
Proof.
  intros Hg HL Hgs. unfold run_rejects, gof_test. destruct (Hg obs) as [-> ->]. rewrite map_map.
  replace (map (fun q : (list R -> list R) * list R => outcome (st_execute st (fst q (snd q)))) (combine gs sims)) with (map (fun s => outcome (st_execute st s)) sims); [reflexivity|].
  revert sims HL. induction gs as [|h gs IH]; intros [|s sims] HL; try discriminate; [reflexivity|]. simpl. rewrite (proj1 (Hgs h (or_introl eq_refl) s)). f_equal. apply IH; [|simpl in HL; lia].
  intros h' Hh'. apply Hgs. now right.
Qed.
Lemma values_exchangeable (Om : Type) (E : (Om -> R) -> R) m (T : list R -> R) S : exchangeable_samples E m S -> exchangeable E m (fun w => map T (S w)).
Proof.
  intros [HL HX]. split; [intros w; rewrite map_length; apply HL|]. intros pi HP f [M HM].
  rewrite <- (HX pi HP (fun z => f (map T z))) by (exists M; intros; apply HM).
  f_equal. apply FunctionalExtensionality.functional_extensionality. intros w. f_equal. rewrite map_map. apply map_ext_in. intros i Hi.
  assert (Hi' : (i < length (S w))%nat). { rewrite HL. apply (Permutation_in _ HP) in Hi. apply in_seq in Hi. lia. }
  rewrite (nth_indep _ 0 (T [])) by (rewrite map_length; exact Hi'). apply map_nth.
Qed.
Lemma values_NoDup st samples : different_values st samples -> NoDup (map (fun s => outcome (st_execute st s)) samples).
Proof.
  intros [HO HD]. apply (NoDup_nth _ 0). intros i j Hi Hj Eq. rewrite map_length in Hi, Hj.
  rewrite (nth_indep _ 0 ((fun s => outcome (st_execute st s)) [])) in Eq by (rewrite map_length; exact Hi).
  rewrite (nth_indep (map _ _) 0 ((fun s => outcome (st_execute st s)) []) (n := j)) in Eq by (rewrite map_length; exact Hj).
  rewrite !(map_nth (fun s => outcome (st_execute st s))) in Eq. apply HD; [exact Hi|exact Hj|].
  destruct (HO (nth i samples []) (nth_In _ _ Hi)) as (v & Ev). destruct (HO (nth j samples []) (nth_In _ _ Hj)) as (u & Eu). rewrite Ev, Eu in *. simpl in Eq. now subst.
Qed.
Lemma test_length meth st level k k' sim obs : meth = PValueMethod \/ meth = CriticalValueMethod -> test_rejects meth st level k sim obs = test_rejects meth st level k' sim obs.
Proof. intros [-> | ->]; reflexivity. Qed.
Lemma size_both (Om : Type) (E : (Om -> R) -> R) n Z st level k meth : meth = PValueMethod \/ meth = CriticalValueMethod ->
  is_expectation E -> exchangeable E (S n) Z -> (0 < n)%nat -> (forall w, NoDup (Z w)) -> 0 <= level <= 1 ->
  Rabs (size_of_test E Z meth st level k - level) <= 4 / INR (S n).
Proof.
  intros Hm HE HX Hn HD Hl. assert (P : 0 < INR (S n)) by (apply INR_pos; lia). assert (I : 0 < / INR (S n)) by (now apply Rinv_0_lt_compat).
  destruct Hm as [-> | ->].
  - destruct (C117_p_value_size_holds Om E n Z st level k HE HX Hn HD Hl) as [A B]. unfold Rdiv in *.
    destruct (st_alternative st) eqn:Ea; [destruct (A ltac:(unfold one_sided; rewrite Ea; discriminate))|destruct (A ltac:(unfold one_sided; rewrite Ea; discriminate))|destruct (B Ea)]; apply Rabs_le; nra.
  - unfold Rdiv in *. destruct (st_alternative st) eqn:Ea.
    + destruct (C117_critical_value_size_holds Om E n Z st level k HE HX Hn HD Hl ltac:(unfold one_sided; rewrite Ea; discriminate)). unfold Rdiv in *. apply Rabs_le; nra.
    + destruct (C117_critical_value_size_holds Om E n Z st level k HE HX Hn HD Hl ltac:(unfold one_sided; rewrite Ea; discriminate)). unfold Rdiv in *. apply Rabs_le; nra.
    + destruct (C117_critical_value_two_sided_size_holds Om E n Z st level k HE HX Hn HD Hl Ea). unfold Rdiv in *. apply Rabs_le; nra.
Qed.
Lemma size_ignores (Om : Type) (E : (Om -> R) -> R) n S st g level meth : meth = PValueMethod \/ meth = CriticalValueMethod ->
  is_expectation E -> exchangeable_samples E (Datatypes.S n) S -> (0 < n)%nat -> (forall w, different_values st (S w)) -> 0 <= level <= 1 -> ignores st g ->
  Rabs (Pr E (fun w => run_rejects meth st level (tl (S w)) (g (hd [] (S w)))) - level) <= 4 / INR (Datatypes.S n).
Proof.
  intros Hm HE HX Hn HD Hl Hg.
  pose proof (size_both Om E n (fun w => map (fun s => outcome (st_execute st s)) (S w)) st level 0 meth Hm HE (values_exchangeable Om E _ _ S HX) Hn (fun w => values_NoDup st (S w) (HD w)) Hl) as B.
  replace (Pr E (fun w => run_rejects meth st level (tl (S w)) (g (hd [] (S w))))) with (size_of_test E (fun w => map (fun s => outcome (st_execute st s)) (S w)) meth st level 0); [exact B|].
  unfold size_of_test, Pr. f_equal. apply FunctionalExtensionality.functional_extensionality. intros w. f_equal.
  destruct HX as [HL _]. specialize (HL w). destruct (HD w) as [HO _]. destruct (S w) as [|s0 r]; [discriminate|]. cbn [map hd tl].
  unfold run_rejects, gof_test. destruct (Hg s0) as [-> ->]. destruct (HO s0 (or_introl eq_refl)) as (v & Ev). rewrite Ev. cbn [bind outcome].
  rewrite (test_length meth st level 0 (length s0) _ _ Hm). reflexivity.
Qed.
Lemma ignores_normality A name f alt a b : In (name, f) (normality_statistics A) -> ~ In name simple_normal -> 0 < b -> ignores (statistic_with alt (fun l => nvalue (f l))) (affine a b).
Proof. intros H1 H2 Hb l. split; [cbn [statistic_with st_execute]; unfold affine; rewrite (C60_normality_holds A name f a b l H1 H2 Hb); reflexivity|apply map_length]. Qed.
Lemma ignores_exponentiality A name f alt c : In (name, f) (exponentiality_statistics A) -> ~ In name unit_dependent -> 0 < a_p_atk A -> 0 < c ->
  ignores (statistic_with alt (fun l => let! v := value (f l) in Ok (Some v))) (rescaled c).
Proof. intros H1 H2 Ha Hc l. split; [cbn [statistic_with st_execute]; rewrite (C59_exponentiality_scale_free_holds A name f c l H1 H2 Ha Hc); reflexivity|apply map_length]. Qed.
(** the decision of a composite normality test is the same for every origin and unit of the observed and of the simulated samples *)
Lemma C123_normality_decision_holds : forall A name f alt meth level a b params simulated observed,
  In (name, f) (normality_statistics A) -> ~ In name simple_normal -> 0 < b -> length params = length simulated -> (forall p, In p params -> 0 < snd p) ->
  let st := statistic_with alt (fun l => nvalue (f l)) in
  run_rejects meth st level (map (fun q => affine (fst (fst q)) (snd (fst q)) (snd q)) (combine params simulated)) (affine a b observed) = run_rejects meth st level simulated observed.
Proof.
  intros A name f alt meth level a b params sims obs H1 H2 Hb HL HP st.
  rewrite <- (run_ignores st meth level (map (fun p : R * R => affine (fst p) (snd p)) params) (affine a b) sims obs).
  - f_equal. clear HL. revert sims. induction params as [|p params IH]; intros [|s sims]; try reflexivity. simpl. f_equal. apply IH. intros q Hq. apply HP. now right.
  - apply (ignores_normality A name); assumption.
  - rewrite map_length. exact HL.
  - intros h Hh. apply in_map_iff in Hh. destruct Hh as (p & <- & Hp). apply (ignores_normality A name); auto.
Qed.
(** the same for the unit in exponentiality tests *)
Lemma C123_exponentiality_decision_holds : forall A name f alt meth level c units simulated observed,
  In (name, f) (exponentiality_statistics A) -> ~ In name unit_dependent -> 0 < a_p_atk A -> 0 < c -> length units = length simulated -> (forall u, In u units -> 0 < u) ->
  let st := statistic_with alt (fun l => let! v := value (f l) in Ok (Some v)) in
  run_rejects meth st level (map (fun q => rescaled (fst q) (snd q)) (combine units simulated)) (rescaled c observed) = run_rejects meth st level simulated observed.
Proof.
  intros A name f alt meth level c units sims obs H1 H2 Ha Hc HL HP st.
  rewrite <- (run_ignores st meth level (map rescaled units) (rescaled c) sims obs).
  - f_equal. clear HL. revert sims. induction units as [|p units IH]; intros [|s sims]; try reflexivity. simpl. f_equal. apply IH. intros q Hq. apply HP. now right.
  - apply (ignores_exponentiality A name); assumption.
  - rewrite map_length. exact HL.
  - intros h Hh. apply in_map_iff in Hh. destruct Hh as (p & <- & Hp). apply (ignores_exponentiality A name); auto.
Qed.
(** so the size of the test is near its level for every law of the family: the observed sample is a + b * (a sample of the simulated law) *)
Lemma C123_normality_size_holds : forall (Om : Type) (E : (Om -> R) -> R) n S A name f alt meth level a b,
  In (name, f) (normality_statistics A) -> ~ In name simple_normal -> 0 < b -> meth = PValueMethod \/ meth = CriticalValueMethod ->
  is_expectation E -> exchangeable_samples E (Datatypes.S n) S -> (0 < n)%nat -> 0 <= level <= 1 ->
  let st := statistic_with alt (fun l => nvalue (f l)) in (forall w, different_values st (S w)) ->
  Rabs (Pr E (fun w => run_rejects meth st level (tl (S w)) (affine a b (hd [] (S w)))) - level) <= 4 / INR (Datatypes.S n).
Proof.
  intros Om E n S A name f alt meth level a b H1 H2 Hb Hm HE HX Hn Hl st HD. apply size_ignores; auto. apply (ignores_normality A name); assumption.
Qed.
Lemma C123_exponentiality_size_holds : forall (Om : Type) (E : (Om -> R) -> R) n S A name f alt meth level c,
  In (name, f) (exponentiality_statistics A) -> ~ In name unit_dependent -> 0 < a_p_atk A -> 0 < c -> meth = PValueMethod \/ meth = CriticalValueMethod ->
  is_expectation E -> exchangeable_samples E (Datatypes.S n) S -> (0 < n)%nat -> 0 <= level <= 1 ->
  let st := statistic_with alt (fun l => let! v := value (f l) in Ok (Some v)) in (forall w, different_values st (S w)) ->
  Rabs (Pr E (fun w => run_rejects meth st level (tl (S w)) (rescaled c (hd [] (S w)))) - level) <= 4 / INR (Datatypes.S n).
Proof.
  intros Om E n S A name f alt meth level c H1 H2 Ha Hc Hm HE HX Hn Hl st HD. apply size_ignores; auto. apply (ignores_exponentiality A name); assumption.
Qed.
Lemma abs_sum_lower (x y : list R) : length x = length y -> Rsum x - Rsum y <= Rsum (map (fun p => Rabs (fst p - snd p)) (combine x y)).
Proof.
  revert y. induction x as [|a x IH]; intros [|b y] H; try discriminate; simpl; [lra|]. specialize (IH y ltac:(simpl in H; lia)). pose proof (Rle_abs (a - b)). lra.
Qed.
Lemma hg1_large c l : l <> [] -> exists v, hg1 (rescaled c l) = Ok (Fin v) /\ / len l * (c * Rsum l - Rsum (exp_scores (length l))) <= v.
Proof.
  intros Ne. assert (Ne' : rescaled c l <> []) by (destruct l; [contradiction|discriminate]). assert (LL : length (rescaled c l) = length l) by (unfold rescaled; apply map_length).
  eexists. split. { unfold hg1. rewrite match_ne by exact Ne'. reflexivity. }
  unfold len. rewrite LL. apply Rmult_le_compat_l; [left; apply Rinv_0_lt_compat, INR_pos; destruct l; [contradiction|simpl; lia]|].
  eapply Rle_trans; [|apply abs_sum_lower; rewrite rsort_length, exp_scores_length; exact LL].
  rewrite (Rsum_perm (rsort (rescaled c l)) (rescaled c l)) by (apply rsort_perm). unfold rescaled. change (map (Rmult c) l) with (map (fun x => c * (fun y => y) x) l). rewrite Rsum_map_scal, map_id. lra.
Qed.
Lemma bounded_list (l : list R) : exists M, forall y, In y l -> y < M.
Proof. induction l as [|a l [M HM]]; [exists 0; intros y []|]. exists (Rmax M (a + 1)). intros y [<-|Hy]; [pose proof (Rmax_r M (a + 1)); lra|]. specialize (HM y Hy). pose proof (Rmax_l M (a + 1)). lra. Qed.
(** the Hegazy-Green statistic keeps the unit: whatever was simulated, a test at a level below 1 rejects no observed sample once its unit is small enough *)
Lemma C123_hegazy_green_refuted_holds : declares "HegazyGreen1ExponentialityGofStatistic" LEFT /\
  forall meth simulated observed level, meth = PValueMethod \/ meth = CriticalValueMethod -> simulated <> [] -> observed <> [] -> positive observed -> 0 <= level < 1 ->
  exists c0, forall c, c0 <= c ->
    run_rejects meth (statistic_with LEFT (fun l => let! v := value (reads hg1 l) in Ok (Some v))) level simulated (rescaled c observed) = false.
Proof.
  split; [exact (proj1 (proj2 (proj2 (proj2 C65_hegazy_green_refuted_holds))))|]. intros meth sims obs level Hm Hs Ho Hp Hl.
  set (st := statistic_with LEFT (fun l => let! v := value (reads hg1 l) in Ok (Some v))).
  destruct (bounded_list (map (fun s => outcome (st_execute st s)) sims)) as (M & HM).
  assert (PL : 0 < len obs) by (unfold len; apply INR_pos; destruct obs; [contradiction|simpl; lia]).
  assert (PS : 0 < Rsum obs). { destruct obs as [|x obs]; [contradiction|]. simpl. assert (0 <= Rsum obs) by (apply Rsum_nonneg; intros y Hy; left; apply Hp; now right). specialize (Hp x (or_introl eq_refl)). lra. }
  exists ((len obs * M + Rsum (exp_scores (length obs))) / Rsum obs). intros c Hc.
  destruct (hg1_large c obs Ho) as (v & Ev & Lv).
  assert (MV : M <= v).
  { eapply Rle_trans; [|exact Lv]. apply (Rmult_le_reg_l (len obs)); [exact PL|]. rewrite <- Rmult_assoc, Rinv_r, Rmult_1_l by lra.
    assert ((len obs * M + Rsum (exp_scores (length obs))) / Rsum obs * Rsum obs <= c * Rsum obs) by (apply Rmult_le_compat_r; lra).
    unfold Rdiv in *. rewrite Rmult_assoc, Rinv_l in * by lra. lra. }
  unfold run_rejects, gof_test. assert (EV : st_execute st (rescaled c obs) = Ok v) by (cbn [st statistic_with st_execute value reads]; rewrite Ev; reflexivity). rewrite EV. cbn [bind].
  pose proof (proj2 (above_all meth (fun _ => 0) LEFT level (length (rescaled c obs)) (map (fun s => outcome (st_execute st s)) sims) v Hm ltac:(destruct sims; [contradiction|discriminate]) ltac:(intros y Hy; specialize (HM y Hy); lra) ltac:(lra)) eq_refl ltac:(lra)) as T.
  destruct Hm as [-> | ->]; exact T.
Qed.
Definition two_samples (w : bool) : list (list R) := if w then [[1; 3]; [1; 2]] else [[1; 2]; [1; 3]].
Definition two_law : list (R * bool) := [(1 / 2, true); (1 / 2, false)].
Lemma pt_two a : 0 < a -> pt [1; 1 + a] = Ok (Fin (a / (4 * (1 + a / 2)))).
Proof.
  intros Ha. unfold pt, fin_if, mean, len. cbn [nonempty length Rsum map INR]. rewrite (proj2 (Reqb_false _ _)) by lra. cbn [negb andb].
  rewrite (Rabs_left (1 - _)) by lra. rewrite (Rabs_right (1 + a - _)) by lra. change (nonempty [1; 1 + a] && true) with true. cbv iota. match goal with |- Ok (Fin ?u) = Ok (Fin ?v) => replace u with v; [reflexivity|] end. field. lra.
Qed.
(** the hypotheses can be met: two exchanged samples whose Pietra statistics are 1/4 and 1/6 *)
Lemma C123_nonvacuous_samples_holds : is_expectation (finite_expectation two_law) /\ exchangeable_samples (finite_expectation two_law) 2 two_samples /\
  forall w, different_values (statistic_with TWO_TAILED (fun l => let! v := value (reads pt l) in Ok (Some v))) (two_samples w).
Proof.
  split; [|split].
  - apply finite_is_expectation. split; [|simpl; lra]. intros p [<-|[<-|[]]]; simpl; lra.
  - split; [intros [|]; reflexivity|]. intros pi HP f _.
    assert (C : pi = [0; 1]%nat \/ pi = [1; 0]%nat).
    { apply Permutation_sym in HP. change (seq 0 2) with [0; 1]%nat in HP. apply Permutation_length_2_inv in HP. destruct HP; auto. }
    destruct C as [-> | ->]; unfold finite_expectation, two_law; simpl; lra.
  - set (st := statistic_with _ _).
    assert (E1 : st_execute st [1; 2] = Ok (1 / 6)). { cbn [st statistic_with st_execute value reads]. replace 2 with (1 + 1) by lra. rewrite pt_two by lra. cbn [bind measured]. f_equal. lra. }
    assert (E2 : st_execute st [1; 3] = Ok (1 / 4)). { cbn [st statistic_with st_execute value reads]. replace 3 with (1 + 2) by lra. rewrite pt_two by lra. cbn [bind measured]. f_equal. lra. }
    clearbody st. intros [|]; (split; [intros s [<-|[<-|[]]]; eauto|]); intros [|[|i]] [|[|j]] Hi Hj; cbn [two_samples nth length] in *; try lia; rewrite E1, E2; intros X; injection X; intros; lra.
Qed.
