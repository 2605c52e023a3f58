(** C103 and C104: the form of the exponentiality statistics and their extreme values. *)
From Coq Require Import String.
From Verif Require Import Base Analysis DecModel EdfModel GraphModel ExpModel ExpSpec ExpFormSpec EdfProofs ExpProofs ExpRangeProofs ExpFormProofs ExpForm2Proofs ExpForm3Proofs ExpClaims.
From Coquelicot Require Coquelicot.
From Coq Require Import Lra Lia.
Local Open Scope string_scope.
Local Open Scope R_scope.

(** the class of this name returns the number v on the sample l *)
Definition returns (A : exp_args) (name : string) (l : list R) (v : R) : Prop :=
  exists f, In (name, f) (exponentiality_statistics A) /\ value (f l) = Ok (Fin v).
Ltac look H := destruct H as (f & I & E); repeat (destruct I as [I|I]; [try discriminate I; injection I as <-; cbn [value reads sorts] in E|]); [..|destruct I].

(** *** C103 *)
(** counts over pairs and triples: Ahsanullah, Deshpande, Hollander-Proshan and Rossberg *)
Lemma dsp_form b l v : dsp b l = Ok (Fin v) -> v = (share (fun p => Rltb (b * snd p) (fst p)) (twos l) + share (fun p => Rltb (b * fst p) (snd p)) (twos l)) / 2.
Proof.
  unfold dsp. destruct (Nat.leb_spec (length l) 1) as [|L]; [discriminate|]. intros H. apply ok_inj in H as ->. pose proof (len_ge2 l ltac:(lia)).
  rewrite (sum_others_pairs (fun x y => ind (Rltb (b * y) x))), sum_pairs_plus, !sum_pairs_twos, !share_sum, twos_length. field. lra.
Qed.
Lemma C103_counting_holds : forall A l v,
  (returns A "AhsanullahExponentialityGofStatistic" l v ->
     v = share (fun p => Rltb (Rabs (fst (snd p) - snd (snd p))) (fst p)) (list_prod l (list_prod l l))
         - share (fun p => Rltb (2 * Rmin (fst (snd p)) (snd (snd p))) (fst p)) (list_prod l (list_prod l l))) /\
  (returns A "DeshpandeExponentialityGofStatistic" l v ->
     v = (share (fun p => Rltb (a_b_dsp A * snd p) (fst p)) (twos l) + share (fun p => Rltb (a_b_dsp A * fst p) (snd p)) (twos l)) / 2) /\
  (positive l -> returns A "HollanderProshanExponentialityGofStatistic" l v ->
     v = / 3 * share (fun p => Rltb (fst p + fst (snd p) + snd (snd p)) (2 * largest (fst p) (fst (snd p)) (snd (snd p)))) (threes l)) /\
  (returns A "RossbergExponentialityGofStatistic" l v ->
     v = mean (map (fun x => share (fun p => Rltb (middle (fst p) (fst (snd p)) (snd (snd p)) - least (fst p) (fst (snd p)) (snd (snd p))) x) (threes l)
                             - share (fun p => Rltb (Rmin (fst p) (snd p)) x) (twos l)) l)).
Proof.
  intros A l v. split; [|split; [|split]].
  - intros H. look H. now apply ahs_form.
  - intros H. look H. now apply dsp_form.
  - intros P H. look H. now apply hp_form.
  - intros H. look H. now apply rs_form.
Qed.
(** the Lorenz curve: the Lorenz statistic is its value at the fraction p, Gini's the average and Pietra's the largest distance
    from the diagonal *)
Lemma C103_lorenz_curve_holds : forall A l v, positive l ->
  (0 <= a_p_lz A -> returns A "LorenzExponentialityGofStatistic" l v -> exists k, INR k <= len l * a_p_lz A < INR k + 1 /\ v = lorenz l k) /\
  ((2 <= length l)%nat -> returns A "GiniExponentialityGofStatistic" l v ->
     v = 2 / (len l - 1) * Rsum (map (fun k => INR k / len l - lorenz l k) (seq 0 (S (length l))))) /\
  (returns A "PietraExponentialityGofStatistic" l v -> maximum v (fun w => exists k, (k <= length l)%nat /\ w = INR k / len l - lorenz l k)).
Proof.
  intros A l v P. split; [|split].
  - intros Hp H. look H. now apply lz_form.
  - intros L H. look H. now apply gini_lorenz.
  - intros H. look H. now apply pt_lorenz.
Qed.
(** normalised spacings: Gnedenko and Harris divide the mean of some spacings by the mean of the others, Epstein compares the
    likelihood of an own mean for each spacing with that of a common mean *)
Lemma C103_spacings_holds : forall A l v, positive l ->
  (returns A "GnedenkoExponentialityGofStatistic" l v -> exists k, match a_r_gd A with Some k' => k = k' | None => nearest k (INR (length l) / 2) end /\
     ((k < length l)%nat -> v = mean (firstn k (spacings l)) / mean (skipn k (spacings l)))) /\
  (returns A "HarrisExponentialityGofStatistic" l v -> exists k, match a_r_hm A with Some k' => k = k' | None => nearest k (INR (length l) / 4) end /\ (1 <= k)%nat /\ (2 * k < length l)%nat /\
     v = mean (firstn k (spacings l) ++ skipn (length l - k) (spacings l)) / mean (firstn (length l - 2 * k) (skipn k (spacings l)))) /\
  (returns A "EpsteinExponentialityGofStatistic" l v -> exists a b, maximum a (separate (spacings l)) /\ maximum b (common (spacings l)) /\
     v = 2 * (a - b) / (1 + (len l + 1) / (6 * len l))).
Proof.
  intros A l v P. split; [|split].
  - intros H. look H. now apply gd_form.
  - intros H. look H. now apply hm_form.
  - intros H. look H. apply eps_form in E as (D & N & ->); trivial. exists (- Rsum (map ln (spacings l)) - len (spacings l)), (- len (spacings l) * ln (mean (spacings l)) - len (spacings l)).
    assert (LS : len (spacings l) = len l) by (unfold len; now rewrite spacings_length). split; [now apply separate_max|]. split; [apply common_max; trivial|].
    + intros Z. apply N, length_zero_iff_nil. now rewrite <- spacings_length, Z.
    + rewrite LS. f_equal. ring.
Qed.
(** scores: Cox and Oakes' statistic is the derivative at shape 1 of the Weibull likelihood, Moran's of the gamma likelihood *)
Lemma C103_scores_holds : forall A l v, positive l ->
  (returns A "CoxOakesExponentialityGofStatistic" l v -> derivable_pt_lim (fun k => Rsum (map (weibull_log k) (relative l))) 1 v) /\
  (returns A "MoranExponentialityGofStatistic" l v ->
     v = - a_digamma1 A + Rsum (map ln l) / len l - ln (mean l) /\
     (derivable_pt_lim (fun a => ln (a_Gamma A a)) 1 (a_digamma1 A) -> derivable_pt_lim (fun a => mean (map (gamma_log (a_Gamma A) a) (relative l))) 1 v)).
Proof.
  intros A l v P. split.
  - intros H. look H. now apply co_score.
  - intros H. look H. split; [now apply mn_form|]. intros D. eapply mn_score; eauto.
Qed.
(** distances of the fitted exponential distribution function from the plotting positions: Frozini and Kimber-Michael; distances
    of the order statistics from the exponential quantiles: Hegazy-Green *)
Lemma combine_scores (g : R -> R -> R) l : Rsum (map (fun p => g (fst p) (snd p)) (combine (rsort l) (exp_scores (length l))))
  = Rsum (map (fun i => g (order l (S i)) (- ln (1 - INR (S i) / (len l + 1)))) (seq 0 (length l))).
Proof.
  assert (Q : forall h (s : list R) k, map (fun p => g (fst p) (snd p)) (combine s (map h (seq k (length s)))) = map (fun i => g (nth (i - k) s 0) (h i)) (seq k (length s))).
  { intros h s. induction s as [|x s IH]; intros k; [reflexivity|]. cbn [length seq map combine fst snd]. rewrite Nat.sub_diag. cbn [nth]. f_equal. rewrite IH. apply map_ext_in. intros i Hi. apply in_seq in Hi. replace (i - k)%nat with (S (i - S k)) by lia. reflexivity. }
  specialize (Q (fun i => - ln (1 - INR (S i) / (len l + 1))) (rsort l) 0%nat). rewrite rsort_length in Q. unfold exp_scores. fold (len l). rewrite Q. f_equal. apply map_ext. intros i. now rewrite Nat.sub_0_r.
Qed.
Lemma C103_distances_holds : forall A l v, positive l ->
  (returns A "FroziniExponentialityGofStatistic" l v ->
     v = / sqrt (len l) * Rsum (map (fun i => Rabs (fitted_exponential l (S i) - (INR i + 1 / 2) / len l)) (seq 0 (length l)))) /\
  (returns A "KimberMichaelExponentialityGofStatistic" l v ->
     maximum v (fun w => exists i, (i < length l)%nat /\ w = Rabs (stabilised ((INR i + 1 / 2) / len l) - stabilised (fitted_exponential l (S i))))) /\
  (returns A "HegazyGreen1ExponentialityGofStatistic" l v ->
     v = / len l * Rsum (map (fun i => Rabs (order l (S i) - - ln (1 - INR (S i) / (len l + 1)))) (seq 0 (length l)))) /\
  (returns A "HegazyGreen2ExponentialityGofStatistic" l v ->
     v = / len l * Rsum (map (fun i => (order l (S i) - - ln (1 - INR (S i) / (len l + 1))) ^ 2) (seq 0 (length l)))).
Proof.
  intros A l v P. split; [|split; [|split]].
  - intros H. look H. now apply fz_form.
  - intros H. look H. now apply km_form.
  - intros H. look H. unfold hg1 in E. destruct l as [|x l]; [discriminate|]. apply ok_inj in E as ->. f_equal. apply (combine_scores (fun a b => Rabs (a - b))).
  - intros H. look H. assert (N : l <> []) by (intros ->; discriminate). unfold hg2_sorted in E. rewrite match_ne in E by (now apply rsort_ne). apply ok_inj in E as ->. rewrite len_rsort, rsort_length. f_equal. apply (combine_scores (fun a b => (a - b) ^ 2)).
Qed.
(** moments and linear functions: Epps-Pulley compares the empirical Laplace transform at 1 with 1/2, Atkinson the power mean with
    that of the exponential law, Shapiro-Wilk the distance of mean and minimum with the spread, Wong-Wong takes the largest ratio *)
Lemma C103_moments_holds : forall A l v, positive l ->
  (returns A "EppsPulleyExponentialityGofStatistic" l v -> v = sqrt (48 * len l) * (mean (map (fun y => exp (- y)) (relative l)) - 1 / 2)) /\
  (0 < a_Gamma A (1 + a_p_atk A) -> returns A "AtkinsonExponentialityGofStatistic" l v ->
     v = sqrt (len l) * Rabs (power_mean (a_p_atk A) l / mean l - Rpower (a_Gamma A (1 + a_p_atk A)) (1 / a_p_atk A))) /\
  (forall m, smallest_in m l -> returns A "ShapiroWilkExponentialityGofStatistic" l v ->
     v = len l * (mean l - m) ^ 2 / ((len l - 1) * Rsum (map (fun x => (x - mean l) ^ 2) l))) /\
  (returns A "WongWongExponentialityGofStatistic" l v -> maximum v (fun w => exists x y, In x l /\ In y l /\ w = x / y)).
Proof.
  intros A l v P. split; [|split; [|split]].
  - intros H. look H. now apply ep_form.
  - intros G H. look H. now apply atk_form.
  - intros m S H. look H. now apply sw_form.
  - intros H. look H. now apply ww_form.
Qed.
(** Kochar's statistic weighs the order statistics with scores that are uncorrelated with the exponential quantiles *)
Lemma C103_kochar_holds : (forall A l v, returns A "KocharExponentialityGofStatistic" l v ->
    v = sqrt (108 * len l / 17) * Rsum (map (fun i => kochar_score (INR (S i) / (len l + 1)) * order l (S i)) (seq 0 (length l))) / Rsum l) /\
  (forall e, 0 < e -> exists d, 0 < d /\ forall t, 0 < t < 1 -> 1 - d < t -> Rabs (@Coquelicot.RInt.RInt Coquelicot.Hierarchy.R_CompleteNormedModule (fun u => kochar_score u * - ln (1 - u)) 0 t) < e).
Proof.
  split.
  - intros A l v H. look H. now apply kc_form.
  - intros e He. exists ((e / 9) ^ 2). split; [apply pow_lt; lra|]. intros t Ht Hd. rewrite kochar_integral by lra. rewrite Rabs_Ropp. eapply Rle_lt_trans; [apply kochar_primitive_bound; lra|].
    assert (sqrt (1 - t) < e / 9) by (rewrite <- (sqrt_pow2 (e / 9)) by lra; apply sqrt_lt_1_alt; lra). lra.
Qed.
(** the published WE statistic is the sum of squared deviations over the square of the sum; the class divides the sum of squares
    by the sample size once more and returns (n-1)/n of it *)
Lemma C103_we_partial_holds : forall A l v, positive l -> returns A "WeExponentialityGofStatistic" l v ->
  v = (len l - 1) / len l * (Rsum (map (fun x => (x - mean l) ^ 2) l) / Rsum l ^ 2).
Proof. intros A l v P H. look H. now apply we_form. Qed.
Lemma C103_we_refuted_holds : forall A, exists l v, positive l /\ returns A "WeExponentialityGofStatistic" l v /\ v <> Rsum (map (fun x => (x - mean l) ^ 2) l) / Rsum l ^ 2.
Proof.
  intros A. assert (P : positive [1; 2; 3]) by (intros x [<-|[<-|[<-|[]]]]; lra). destruct (we_range [1; 2; 3] ltac:(discriminate) P) as (v & E & _). exists [1; 2; 3], v. split; [exact P|]. split.
  - exists (reads we). split; [|exact E]. cbn [exponentiality_statistics In]. repeat (first [left; reflexivity|right]).
  - rewrite (we_form _ _ P E). unfold mean, len. cbn [map Rsum length]. simpl INR. intros Q. lra.
Qed.
(** with the default arguments every class returns a number on three different positive values *)
Lemma C103_nonvacuous_holds : forall Gamma digamma1 lam alt name, lam <> 0 -> In name (map fst (exponentiality_statistics (default_exp_args Gamma digamma1 lam alt))) ->
  exists l v, positive l /\ length l = 3%nat /\ returns (default_exp_args Gamma digamma1 lam alt) name l v.
Proof.
  intros Gamma g lam alt name L H. apply in_map_iff in H as ([nm f] & <- & I). assert (P : positive [1; 2; 3]) by (intros x [<-|[<-|[<-|[]]]]; lra).
  assert (D : NoDup [1; 2; 3]) by (repeat constructor; cbn [In]; lra). destruct (C63_exponentiality_holds Gamma g lam alt nm f [1; 2; 3] L I ltac:(cbn [length]; lia) D P) as (v & E). exists [1; 2; 3], v. split; [exact P|]. split; [reflexivity|]. exists f. split; assumption.
Qed.

(** *** C104 *)
(** the measures of inequality vanish exactly on samples of equal values *)
Lemma C104_equal_values_holds : forall A l v, positive l ->
  ((2 <= length l)%nat -> returns A "GiniExponentialityGofStatistic" l v -> (v = 0 <-> constant l)) /\
  (returns A "PietraExponentialityGofStatistic" l v -> (v = 0 <-> constant l)) /\
  ((2 <= length l)%nat -> returns A "WeExponentialityGofStatistic" l v -> (v = 0 <-> constant l)) /\
  (returns A "WongWongExponentialityGofStatistic" l v -> 1 <= v /\ (v = 1 <-> constant l)) /\
  (returns A "MoranExponentialityGofStatistic" l v -> v <= - a_digamma1 A /\ (v = - a_digamma1 A <-> constant l)) /\
  (returns A "EppsPulleyExponentialityGofStatistic" l v ->
     sqrt (48 * len l) * (exp (- 1) - 1 / 2) <= v /\ (v = sqrt (48 * len l) * (exp (- 1) - 1 / 2) <-> constant l)).
Proof.
  intros A l v P. split; [|split; [|split; [|split; [|split]]]].
  - intros L H. look H. now apply gini_zero.
  - intros H. look H. now apply pt_zero.
  - intros L H. look H. now apply we_zero.
  - intros H. look H. now apply ww_one.
  - intros H. look H. now apply mn_max.
  - intros H. look H. now apply ep_least.
Qed.
(** the distances vanish exactly at a perfect fit *)
Lemma C104_perfect_fit_holds : forall A l v, positive l ->
  (returns A "EpsteinExponentialityGofStatistic" l v -> 0 <= v /\ (v = 0 <-> constant (spacings l))) /\
  (returns A "FroziniExponentialityGofStatistic" l v -> 0 <= v /\ (v = 0 <-> forall i, (i < length l)%nat -> fitted_exponential l (S i) = (INR i + 1 / 2) / len l)) /\
  (0 < a_Gamma A (1 + a_p_atk A) -> returns A "AtkinsonExponentialityGofStatistic" l v ->
     0 <= v /\ (v = 0 <-> power_mean (a_p_atk A) l / mean l = Rpower (a_Gamma A (1 + a_p_atk A)) (1 / a_p_atk A))).
Proof.
  intros A l v P. split; [|split].
  - intros H. look H. now apply eps_zero.
  - intros H. look H. now apply fz_zero.
  - intros G H. look H. now apply atk_zero.
Qed.
(** the Shapiro-Wilk statistic is 1 exactly when all values except one smaller value are equal *)
Lemma C104_shapiro_wilk_holds : forall A l v, returns A "ShapiroWilkExponentialityGofStatistic" l v ->
  v <= 1 /\ (v = 1 <-> exists m x, Permutation l (m :: repeat x (length l - 1)) /\ m < x).
Proof. intros A l v H. look H. now apply sw_one. Qed.
(** the extreme values occur *)
Lemma C104_nonvacuous_holds : forall A, (exists v, returns A "GiniExponentialityGofStatistic" [2; 2; 2] v /\ constant [2; 2; 2]) /\
  (exists v, returns A "EpsteinExponentialityGofStatistic" [1 / 2; 3 / 2] v /\ constant (spacings [1 / 2; 3 / 2])) /\
  (exists v, returns A "ShapiroWilkExponentialityGofStatistic" [2; 1; 2] v /\ Permutation [2; 1; 2] (1 :: repeat 2 2)).
Proof.
  intros A. split; [|split].
  - assert (P : positive [2; 2; 2]) by (intros x [<-|[<-|[<-|[]]]]; lra). destruct (gini_range [2; 2; 2] ltac:(cbn [length]; lia) P) as (v & E & _). exists v. split.
    + exists (reads gini). split; [|exact E]. cbn [exponentiality_statistics In]. repeat (first [left; reflexivity|right]).
    + intros x y [<-|[<-|[<-|[]]]] [<-|[<-|[<-|[]]]]; reflexivity.
  - assert (P : positive [1 / 2; 3 / 2]) by (intros x [<-|[<-|[]]]; lra). assert (D : NoDup [1 / 2; 3 / 2]) by (repeat constructor; cbn [In]; lra). destruct (eps_range [1 / 2; 3 / 2] ltac:(discriminate) P D) as (v & E & _). exists v. split.
    + exists (sorts eps_sorted). split; [|exact E]. cbn [exponentiality_statistics In]. repeat (first [left; reflexivity|right]).
    + assert (S : rsort [1 / 2; 3 / 2] = [1 / 2; 3 / 2]) by (apply rsort_id; repeat constructor; lra).
      unfold spacings, order. rewrite S. cbn [length seq map nth]. intros x y [<-|[<-|[]]] [<-|[<-|[]]]; simpl; lra.
  - destruct (sw_range [2; 1; 2] ltac:(cbn [length]; lia) ltac:(exists 2, 1; cbn [In]; repeat split; [tauto|tauto|lra])) as (v & E & _). exists v. split.
    + exists (sorts sw_sorted). split; [|exact E]. cbn [exponentiality_statistics In]. repeat (first [left; reflexivity|right]).
    + apply perm_swap.
Qed.
