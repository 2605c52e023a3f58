(** Property C126: the tests with the statistics of the uniform module, which refuse values outside [a, b]. *)
From Verif Require Import Base ProbSpec ProbProofs DecModel DecSpec DecProofs DecMoreProofs EdfModel EdfSpec EdfProofs EdfClaims SizeSpec SizeClaims ConvSpec ConvClaims Conv2Spec Conv2Claims PowerSpec PowerClaims Power2Claims Power3Claims Power4Claims Power5Claims.
From Coq Require Import Lra Lia.

Lemma validate_inside a b l : (forall x, In x l -> a <= x <= b) -> uniform_validate a b l = Ok l.
Proof.
  intros H. unfold uniform_validate. replace (existsb (fun x => Rltb x a || Rltb b x) l) with false; [reflexivity|].
  symmetry. destruct (existsb _ l) eqn:E; auto. apply existsb_exists in E. destruct E as (x & Hx & Hb). specialize (H x Hx). rewrite orb_true_iff, !Rltb_true in Hb. lra.
Qed.
Lemma validate_outside a b l x : In x l -> x < a \/ b < x -> uniform_validate a b l = Raise ValueError.
Proof.
  intros Hx Ho. unfold uniform_validate. replace (existsb (fun x => Rltb x a || Rltb b x) l) with true; [reflexivity|].
  symmetry. apply existsb_exists. exists x. split; [exact Hx|]. rewrite orb_true_iff, !Rltb_true. exact Ho.
Qed.
(** inside the interval the classes compute the statistics of the uniform distribution function *)
Lemma C126_values_inside_holds : forall a b l, a < b -> (forall x, In x l -> a <= x <= b) ->
  (forall alt, ks_uniform a b alt l = ks_stat (uniform_cdf a b) alt l) /\ cvm_uniform a b l = cvm_stat (uniform_cdf a b) l /\ kuiper_uniform a b l = kuiper_stat (uniform_cdf a b) l.
Proof.
  intros a b l Hab H. unfold ks_uniform, cvm_uniform, kuiper_uniform. rewrite (validate_inside a b l H). cbn [bind].
  split; [reflexivity|]. split; [reflexivity|]. unfold kuiper_stat, cdf_vals. f_equal.
  assert (E : map (uniform_cdf a b) (rsort l) = uniform_std a b (rsort l)) by (apply map_ext_in; intros x Hx; apply uniform_cdf_inside, H, rsort_in, Hx).
  rewrite E. destruct (Reqb_spec a 0) as [->|]; [|reflexivity]. destruct (Reqb_spec b 1) as [->|]; [|reflexivity]. cbn [negb orb].
  unfold uniform_std. rewrite <- (map_id (rsort l)) at 1. apply map_ext. intros x. field.
Qed.
(** with an observation outside the interval every such test ends in ValueError, at every level: it never rejects *)
Lemma C126_outside_raises_holds : forall a b l x alt alt' meth level limits, In x l -> x < a \/ b < x ->
  (forall f, In f [ks_uniform a b alt; cvm_uniform a b; kuiper_uniform a b; watson_uniform a b] ->
   gof_test (meth limits) {| st_alternative := alt'; st_execute := f |} l level = Raise ValueError /\
   forall simulated, run_rejects meth {| st_alternative := alt'; st_execute := f |} level simulated l = false).
Proof.
  intros a b l x alt alt' meth level limits Hx Ho f Hf.
  assert (V : f l = Raise ValueError).
  { pose proof (validate_outside a b l x Hx Ho) as E. simpl in Hf. destruct Hf as [<-|[<-|[<-|[<-|[]]]]]; unfold ks_uniform, cvm_uniform, kuiper_uniform, watson_uniform; rewrite E; reflexivity. }
  unfold run_rejects, gof_test. cbn [st_execute]. rewrite V. split; [|intros simulated]; reflexivity.
Qed.
(** so against a law with all its mass outside, at distance 1 from the uniform law, the power is 0 for every number of draws *)
Lemma C126_power_outside_holds : forall (Om : Type) (E : (Om -> R) -> R) n m X Y a b alt alt' level meth, is_expectation E -> (0 < n)%nat -> (forall w, X 0%nat w < a \/ b < X 0%nat w) ->
  forall f, In f [ks_uniform a b alt; cvm_uniform a b; kuiper_uniform a b; watson_uniform a b] ->
  Pr E (fun w => run_rejects meth {| st_alternative := alt'; st_execute := f |} level (simulated_samples m n Y w) (draws n X w)) = 0.
Proof.
  intros Om E n m X Y a b alt alt' level meth HE Hn Ho f Hf.
  rewrite (Pr_same E _ (fun _ => false)).
  - unfold Pr. simpl. apply (E_const _ HE).
  - intros w. apply (proj2 (C126_outside_raises_holds a b (draws n X w) (X 0%nat w) alt alt' meth level (limit_is []) ltac:(unfold draws; apply in_map_iff; exists 0%nat; split; [reflexivity|apply in_seq; lia]) (Ho w) f Hf)).
Qed.
Lemma inside_draws {Om} n (S : nat -> Om -> R) a b w : (forall i w, a <= S i w <= b) -> forall x, In x (draws n S w) -> a <= x <= b.
Proof. intros H x I. unfold draws in I. apply in_map_iff in I. destruct I as (i & <- & _). apply H. Qed.
(** for values inside the interval the tests are consistent *)
Lemma C126_uniform_consistent_holds : forall m gap eta delta, (0 < m)%nat -> 0 < gap <= 1 -> 0 <= eta <= gap ^ 2 / 16 -> 0 < delta -> exists N, forall n, (N <= n)%nat ->
  forall (Om : Type) (E : (Om -> R) -> R) X Y a b H0 H alt level meth,
  is_expectation E -> a < b -> meth = PValueMethod \/ meth = CriticalValueMethod -> alt <> LEFT -> 0 <= level <= 1 ->
  (forall i w, a <= X i w <= b) -> (forall i j w, a <= Y i j w <= b) ->
  independent_draws E n X H -> laws_apart gap TWO_TAILED H (uniform_cdf a b) -> (forall i, (i < m)%nat -> independent_draws E n (Y i) H0) -> laws_within eta H0 (uniform_cdf a b) ->
  forall f, In f [cvm_uniform a b; kuiper_uniform a b] ->
  1 - delta <= Pr E (fun w => run_rejects meth {| st_alternative := alt; st_execute := f |} level (simulated_samples m n Y w) (draws n X w)).
Proof.
  intros m gap eta delta Hm Hg He Hd. destruct (C121_cvm_consistent_holds m gap eta delta Hm Hg He Hd) as (N1 & H1).
  assert (G2 : 2 * eta < gap) by nra. destruct (C121_kuiper_consistent_holds m gap eta delta Hm G2 Hd) as (N2 & H2). exists (N1 + N2)%nat.
  intros n Hn Om E X Y a b H0 H alt level meth HE Hab Hmeth Halt Hl RX RY HX Hap HY Hwi f Hf.
  assert (K : forall g, (forall l, (forall x, In x l -> a <= x <= b) -> f l = g l) ->
    Pr E (fun w => run_rejects meth {| st_alternative := alt; st_execute := f |} level (simulated_samples m n Y w) (draws n X w)) =
    Pr E (fun w => run_rejects meth {| st_alternative := alt; st_execute := g |} level (simulated_samples m n Y w) (draws n X w))).
  { intros g Q. apply Pr_same. intros w. apply run_rejects_ext; [exact Hmeth|reflexivity| |cbn [st_execute]; apply Q, inside_draws, RX].
    intros s I. unfold simulated_samples in I. apply in_map_iff in I. destruct I as (i & <- & _). cbn [st_execute]. apply Q, inside_draws. intros; apply RY. }
  destruct Hf as [<-|[<-|[]]].
  - rewrite (K (cvm_stat (uniform_cdf a b))) by (intros l Q; apply (C126_values_inside_holds a b l Hab Q)). apply (H1 n ltac:(lia) Om E X Y (uniform_cdf a b) H0 H); auto. now apply uniform_full.
  - rewrite (K (kuiper_stat (uniform_cdf a b))) by (intros l Q; apply (C126_values_inside_holds a b l Hab Q)). apply (H2 n ltac:(lia) Om E X Y (uniform_cdf a b) H0 H); auto. now apply uniform_full.
Qed.
(** and the Kolmogorov-Smirnov test *)
Lemma C126_ks_consistent_holds : forall m gap eta delta, (0 < m)%nat -> eta < gap -> 0 < delta -> exists N, forall n, (N <= n)%nat ->
  forall (Om : Type) (E : (Om -> R) -> R) X Y a b H0 H alt level meth,
  is_expectation E -> a < b -> meth = PValueMethod \/ meth = CriticalValueMethod -> alt <> LEFT -> 0 <= level <= 1 ->
  (forall i w, a <= X i w <= b) -> (forall i j w, a <= Y i j w <= b) ->
  independent_draws E n X H -> laws_apart gap alt H (uniform_cdf a b) -> (forall i, (i < m)%nat -> independent_draws E n (Y i) H0) -> laws_within eta H0 (uniform_cdf a b) ->
  1 - delta <= Pr E (fun w => run_rejects meth {| st_alternative := alt; st_execute := ks_uniform a b alt |} level (simulated_samples m n Y w) (draws n X w)).
Proof.
  intros m gap eta delta Hm Hg Hd. destruct (C119_consistent_holds m gap eta delta Hm Hg Hd) as (N & HN). exists N.
  intros n Hn Om E X Y a b H0 H alt level meth HE Hab Hmeth Halt Hl RX RY HX Hap HY Hwi.
  erewrite Pr_same; [apply (HN n Hn Om E X Y (uniform_cdf a b) H0 H alt level meth); auto; now apply uniform_full|].
  intros w. cbn beta. change (ks_test_rejects meth (uniform_cdf a b) alt level (simulated_samples m n Y w) (draws n X w)) with (run_rejects meth (ks_statistic (uniform_cdf a b) alt) level (simulated_samples m n Y w) (draws n X w)).
  apply run_rejects_ext; [exact Hmeth|reflexivity| |].
  - intros s I. unfold simulated_samples in I. apply in_map_iff in I. destruct I as (i & <- & _). apply (proj1 (C126_values_inside_holds a b (draws n (Y i) w) Hab (inside_draws n (Y i) a b w (RY i)))).
  - apply (proj1 (C126_values_inside_holds a b (draws n X w) Hab (inside_draws n X a b w RX))).
Qed.
(** both cases occur *)
Lemma C126_nonvacuous_holds : (forall x, In x [2; 3] -> 2 <= x <= 5) /\ In 6 [3; 6] /\ (6 < 2 \/ 5 < 6).
Proof. split; [intros x [<-|[<-|[]]]; lra|]. split; [right; left; reflexivity|lra]. Qed.
(** the law of the constant 5 is at distance 1 from the uniform law on [0,1] *)
Lemma C126_nonvacuous_outside_holds : laws_apart 1 TWO_TAILED five_law (uniform_cdf 0 1) /\ forall w : bool * bool, five 0 w < 0 \/ 1 < five 0 w.
Proof. split; [apply C119_nonvacuous_holds|]. intros w. unfold five. lra. Qed.
