(** Property C123 for the Weibull and log-normal statistics. *)
From Coq Require Import String.
From Verif Require Import Base DecModel EdfModel GraphModel RegistryModel NormalLaw ExpModel ExpSpec NormModel LognormModel LognormSpec LognormClaims WeibullModel WeibullSpec WeibullClaims ProbSpec ProbProofs DecSpec DecProofs SizeSpec SizeClaims ConvSpec PowerSpec CompSpec CompClaims.
From Coq Require Import Permutation Lra Lia List.
Import ListNotations.
Local Open Scope list_scope.
Local Open Scope R_scope.

(** a statistic that ignores a transformation of the samples of a kind *)
Definition ignores_on (P : list R -> Prop) (st : statistic) (g : list R -> list R) : Prop := forall l, P l -> st_execute st (g l) = st_execute st l /\ length (g l) = length l.
Lemma run_ignores_on P st meth level gs g sims obs : ignores_on P st g -> P obs -> (forall s, In s sims -> P s) -> length gs = length sims -> (forall h, In h gs -> ignores_on P st h) ->
  run_rejects meth st level (map (fun q => fst q (snd q)) (combine gs sims)) (g obs) = run_rejects meth st level sims obs.
Proof.
  intros Hg Ho Hs HL Hgs. unfold run_rejects, gof_test. destruct (Hg obs Ho) as [-> ->]. rewrite map_map.
  replace (map (fun q : (list R -> list R) * list R => outcome (st_execute st (fst q (snd q)))) (combine gs sims)) with (map (fun s => outcome (st_execute st s)) sims); [reflexivity|].
  revert sims Hs HL. induction gs as [|h gs IH]; intros [|s sims] Hs HL; try discriminate; [reflexivity|]. simpl. rewrite (proj1 (Hgs h (or_introl eq_refl) s (Hs s (or_introl eq_refl)))). f_equal.
  apply IH; [|intros; apply Hs; now right|simpl in HL; lia]. intros h' Hh'. apply Hgs. now right.
Qed.
Lemma size_ignores_on (Om : Type) (E : (Om -> R) -> R) n S P st g level meth : meth = PValueMethod \/ meth = CriticalValueMethod ->
  is_expectation E -> exchangeable_samples E (Datatypes.S n) S -> (0 < n)%nat -> (forall w, different_values st (S w)) -> 0 <= level <= 1 -> ignores_on P st g -> (forall w s, In s (S w) -> P s) ->
  Rabs (Pr E (fun w => run_rejects meth st level (tl (S w)) (g (hd [] (S w)))) - level) <= 4 / INR (Datatypes.S n).
Proof.
  intros Hm HE HX Hn HD Hl Hg HP.
  pose proof (size_ignores Om E n S st (fun l => l) level meth Hm HE HX Hn HD Hl ltac:(intros l; auto)) as B.
  replace (Pr E (fun w => run_rejects meth st level (tl (S w)) (g (hd [] (S w))))) with (Pr E (fun w => run_rejects meth st level (tl (S w)) (hd [] (S w)))); [exact B|].
  unfold Pr. f_equal. apply FunctionalExtensionality.functional_extensionality. intros w. f_equal.
  unfold run_rejects, gof_test. destruct (Hg (hd [] (S w))) as [-> ->]; [|reflexivity]. apply (HP w). destruct HX as [HL _]. specialize (HL w). destruct (S w); [discriminate|now left].
Qed.
Lemma ignores_weibull minimise Gam gumbel_fit A name f alt c b : in_bounds minimise -> 0 < c -> 0 < b -> In name composite_weibull -> In (name, f) (weibull_statistics minimise Gam gumbel_fit A) ->
  ignores_on all_positive (statistic_with alt (fun l => nvalue (f l))) (powered c b).
Proof. intros H0 Hc Hb H1 H2 l Hl. split; [cbn [statistic_with st_execute]; rewrite (C89_weibull_invariant_holds minimise Gam gumbel_fit A name f c b l H0 Hc Hb Hl H1 H2); reflexivity|apply map_length]. Qed.
Lemma ignores_lognormal s scale alt name f alt' c b : 0 < s -> 0 < scale -> 0 < c -> 0 < b -> In (name, f) (lognormal_statistics s scale alt) -> ~ In name simple_lognormal ->
  ignores_on (fun l => LognormSpec.all_positive l /\ kl_sigma_hat l <> 0) (statistic_with alt' (fun l => nvalue (f l))) (power_change c b).
Proof.
  intros Hs Hc' Hc Hb H1 H2 l [Hl Hk]. split; [cbn [statistic_with st_execute]; rewrite (C68_unit_and_exponent_free_holds s scale alt name f c b l Hs Hc' Hc Hb Hl H1 H2 Hk); reflexivity|apply map_length].
Qed.
(** Weibull: any scale c and shape b of the observed and of the simulated samples, x -> c x^b *)
Lemma C123_weibull_decision_holds : forall minimise Gam gumbel_fit A name f alt meth level c b params simulated observed,
  in_bounds minimise -> In name composite_weibull -> In (name, f) (weibull_statistics minimise Gam gumbel_fit A) -> 0 < c -> 0 < b ->
  all_positive observed -> (forall s, In s simulated -> all_positive s) -> length params = length simulated -> (forall p, In p params -> 0 < fst p /\ 0 < snd p) ->
  let st := statistic_with alt (fun l => nvalue (f l)) in
  run_rejects meth st level (map (fun q => powered (fst (fst q)) (snd (fst q)) (snd q)) (combine params simulated)) (powered c b observed) = run_rejects meth st level simulated observed.
Proof.
  intros minimise Gam gumbel_fit A name f alt meth level c b params sims obs H0 H1 H2 Hc Hb Ho Hs HL HP st.
  rewrite <- (run_ignores_on all_positive st meth level (map (fun p : R * R => powered (fst p) (snd p)) params) (powered c b) sims obs).
  - f_equal. clear HL Hs. revert sims. induction params as [|p params IH]; intros [|s sims]; try reflexivity. simpl. f_equal. apply IH. intros q Hq. apply HP. now right.
  - apply (ignores_weibull minimise Gam gumbel_fit A name); assumption.
  - exact Ho.
  - exact Hs.
  - rewrite map_length. exact HL.
  - intros h Hh. apply in_map_iff in Hh. destruct Hh as (p & <- & Hp). destruct (HP p Hp). apply (ignores_weibull minimise Gam gumbel_fit A name); auto.
Qed.
Lemma C123_weibull_size_holds : forall (Om : Type) (E : (Om -> R) -> R) n S minimise Gam gumbel_fit A name f alt meth level c b,
  in_bounds minimise -> In name composite_weibull -> In (name, f) (weibull_statistics minimise Gam gumbel_fit A) -> 0 < c -> 0 < b -> meth = PValueMethod \/ meth = CriticalValueMethod ->
  is_expectation E -> exchangeable_samples E (Datatypes.S n) S -> (0 < n)%nat -> 0 <= level <= 1 -> (forall w s, In s (S w) -> all_positive s) ->
  let st := statistic_with alt (fun l => nvalue (f l)) in (forall w, different_values st (S w)) ->
  Rabs (Pr E (fun w => run_rejects meth st level (tl (S w)) (powered c b (hd [] (S w)))) - level) <= 4 / INR (Datatypes.S n).
Proof.
  intros Om E n S minimise Gam gumbel_fit A name f alt meth level c b H0 H1 H2 Hc Hb Hm HE HX Hn Hl HP st HD. apply (size_ignores_on Om E n S all_positive); auto. apply (ignores_weibull minimise Gam gumbel_fit A name); assumption.
Qed.
(** log-normal: the same for samples whose logarithms are not all alike *)
Lemma C123_lognormal_decision_holds : forall s scale alt name f alt' meth level c b params simulated observed,
  0 < s -> 0 < scale -> In (name, f) (lognormal_statistics s scale alt) -> ~ In name simple_lognormal -> 0 < c -> 0 < b ->
  (forall l, l = observed \/ In l simulated -> all_positive l /\ kl_sigma_hat l <> 0) -> length params = length simulated -> (forall p, In p params -> 0 < fst p /\ 0 < snd p) ->
  let st := statistic_with alt' (fun l => nvalue (f l)) in
  run_rejects meth st level (map (fun q => power_change (fst (fst q)) (snd (fst q)) (snd q)) (combine params simulated)) (power_change c b observed) = run_rejects meth st level simulated observed.
Proof.
  intros s scale alt name f alt' meth level c b params sims obs Hs Hsc H1 H2 Hc Hb Hall HL HP st.
  rewrite <- (run_ignores_on (fun l => LognormSpec.all_positive l /\ kl_sigma_hat l <> 0) st meth level (map (fun p : R * R => power_change (fst p) (snd p)) params) (power_change c b) sims obs).
  - f_equal. clear HL Hall. revert sims. induction params as [|p params IH]; intros [|x sims]; try reflexivity. simpl. f_equal. apply IH. intros q Hq. apply HP. now right.
  - apply (ignores_lognormal s scale alt name); assumption.
  - apply Hall. now left.
  - intros x Hx. apply Hall. now right.
  - rewrite map_length. exact HL.
  - intros h Hh. apply in_map_iff in Hh. destruct Hh as (p & <- & Hp). destruct (HP p Hp). apply (ignores_lognormal s scale alt name); auto.
Qed.
Lemma C123_lognormal_size_holds : forall (Om : Type) (E : (Om -> R) -> R) n S s scale alt name f alt' meth level c b,
  0 < s -> 0 < scale -> In (name, f) (lognormal_statistics s scale alt) -> ~ In name simple_lognormal -> 0 < c -> 0 < b -> meth = PValueMethod \/ meth = CriticalValueMethod ->
  is_expectation E -> exchangeable_samples E (Datatypes.S n) S -> (0 < n)%nat -> 0 <= level <= 1 -> (forall w l, In l (S w) -> all_positive l /\ kl_sigma_hat l <> 0) ->
  let st := statistic_with alt' (fun l => nvalue (f l)) in (forall w, different_values st (S w)) ->
  Rabs (Pr E (fun w => run_rejects meth st level (tl (S w)) (power_change c b (hd [] (S w)))) - level) <= 4 / INR (Datatypes.S n).
Proof.
  intros Om E n S s scale alt name f alt' meth level c b Hs Hsc H1 H2 Hc Hb Hm HE HX Hn Hl HP st HD. apply (size_ignores_on Om E n S (fun l => LognormSpec.all_positive l /\ kl_sigma_hat l <> 0)); auto. apply (ignores_lognormal s scale alt name); assumption.
Qed.
(** the conditions on the samples can be met, and the change of parameters is a real one *)
Lemma C123_nonvacuous_positive_holds : (forall w l, In l (two_samples w) -> all_positive l /\ kl_sigma_hat l <> 0) /\ exchangeable_samples (finite_expectation two_law) 2 two_samples /\ powered 2 3 [1; 2] = [2; 16] /\ In "ST1WeibullGofStatistic"%string composite_weibull.
Proof.
  split; [|split; [apply C123_nonvacuous_samples_holds|split; [|now left]]].
  - assert (A : forall a, 1 < a -> all_positive [1; a] /\ kl_sigma_hat [1; a] <> 0).
    { intros a Ha. split; [intros x [<-|[<-|[]]]; lra|]. assert (L := ln_increasing 1 a ltac:(lra) Ha). rewrite ln_1 in L. unfold kl_sigma_hat. apply Rgt_not_eq, sqrt_lt_R0.
      unfold np_var, mean, len. cbn [map length Rsum INR]. rewrite ln_1. replace (((0 - (0 + (ln a + 0)) / (1 + 1)) ^ 2 + ((ln a - (0 + (ln a + 0)) / (1 + 1)) ^ 2 + 0)) / (1 + 1)) with (ln a * ln a / 4) by field. nra. }
    intros [|] l [<-|[<-|[]]]; apply A; lra.
  - unfold powered. cbn [map]. replace 3 with (INR 3) by (simpl; lra). rewrite !Rpower_pow by lra. simpl. f_equal; [lra|f_equal; lra].
Qed.
