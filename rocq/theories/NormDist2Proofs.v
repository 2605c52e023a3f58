(** The normality statistics as distances: binomial tails, moments, Hermite polynomials and the quadratic form. *)
From Verif Require Import Base DecModel EdfModel EdfSpec GraphModel RegistryModel NormalLaw ExpModel ExpSpec NormModel NormRangeSpec NormFormSpec UniformModel UniformSpec EdfProofs ExpProofs ExpRangeProofs NormProofs NormSymProofs NormAffProofs NormReflProofs NormRangeProofs NormFiniteProofs NormBoundProofs NormFormProofs EdfRotProofs UniformStatProofs NormDistProofs.
From Coq Require Import Lra Lia.
Local Open Scope R_scope.

(** ** Glen-Leemis-Barr *)
Lemma sorted_map_on (f : R -> R) l : (forall x y, In x l -> In y l -> x <= y -> f x <= f y) -> sortedR l -> sortedR (map f l).
Proof.
  induction l as [|a l IH]; intros H S; [constructor|]. apply sorted_cons_inv in S as [S A]. cbn [map]. constructor.
  - apply IH; [|trivial]. intros x y Hx Hy. apply H; now right.
  - apply Forall_forall. intros y Hy. apply in_map_iff in Hy as (x & <- & Hx). apply H; [now left|now right|now apply A].
Qed.
Lemma choose_C n : forall k, (k <= n)%nat -> INR (choose n k) = C n k.
Proof.
  assert (F : forall m, INR (fact m) <> 0) by (intros; apply INR_fact_neq_0).
  induction n as [|n IH]; intros [|k] H; try lia.
  - unfold C. simpl. field.
  - rewrite choose_0. unfold C. rewrite Nat.sub_0_r. simpl (fact 0). simpl (INR 1). field. apply F.
  - rewrite choose_SS, plus_INR. destruct (Nat.eq_dec k n) as [->|Hk].
    + rewrite (choose_gt n (S n)), IH by lia. unfold C. rewrite !Nat.sub_diag. simpl (fact 0). simpl (INR 0). simpl (INR 1). field. repeat split; apply F.
    + rewrite !IH by lia. apply pascal. lia.
Qed.
Lemma beta_at_least n i p : (1 <= i <= n)%nat -> beta_cdf n i p = at_least i n p.
Proof.
  intros H. unfold beta_cdf, at_least. replace (n + 1 - i)%nat with (S n - i)%nat by lia. apply Rsum_map_ext. intros k Hk. apply in_seq in Hk. rewrite choose_C by lia. reflexivity.
Qed.
Lemma choose_pos n : forall k, (k <= n)%nat -> (1 <= choose n k)%nat.
Proof. induction n as [|n IH]; intros [|k] H; try lia; [rewrite choose_0; lia|rewrite choose_0; lia|]. rewrite choose_SS. specialize (IH k ltac:(lia)). lia. Qed.
Lemma Rsum_map_pos {A} (f : A -> R) l : l <> [] -> (forall x, In x l -> 0 < f x) -> 0 < Rsum (map f l).
Proof.
  intros N H. destruct l as [|a l]; [easy|]. cbn [map Rsum]. assert (0 <= Rsum (map f l)) by (apply Rsum_nonneg; intros y Hy; apply in_map_iff in Hy as (x & <- & Hx); left; apply H; now right).
  specialize (H a (or_introl eq_refl)). lra.
Qed.
Lemma beta_cdf_pos n i p : (i <= n)%nat -> 0 < p < 1 -> 0 < beta_cdf n i p.
Proof.
  intros Hi Hp. unfold beta_cdf. apply Rsum_map_pos.
  - replace (S n - i)%nat with (S (n - i)) by lia. discriminate.
  - intros k Hk. apply in_seq in Hk. apply Rmult_lt_0_compat; [apply Rmult_lt_0_compat|]; try (apply pow_lt; lra).
    apply lt_0_INR. pose proof (choose_pos n k ltac:(lia)). lia.
Qed.
Lemma beta_cdf_01 n i p : (1 <= i <= n)%nat -> 0 < p < 1 -> 0 < beta_cdf n i p < 1.
Proof.
  intros Hi Hp. split; [apply beta_cdf_pos; lia || lra|]. pose proof (beta_cdf_flip n (S n - i) p ltac:(lia)) as F. replace (S n - (S n - i))%nat with i in F by lia.
  pose proof (beta_cdf_pos n (S n - i) (1 - p) ltac:(lia) ltac:(lra)). lra.
Qed.
Lemma half_ln p : 0 < p < 1 -> ln p + ln (1 - p) <= - 2 * ln 2 /\ (ln p + ln (1 - p) = - 2 * ln 2 -> p = 1 / 2).
Proof.
  intros H. assert (L2 : ln (1 / 2) = - ln 2) by (unfold Rdiv; rewrite Rmult_1_l; apply ln_Rinv; lra).
  destruct (Req_dec p (1 / 2)) as [->|N].
  - replace (1 - 1 / 2) with (1 / 2) by lra. rewrite L2. split; [lra|trivial].
  - pose proof (gibbs_strict (1 / 2) p ltac:(lra) H N) as G. replace (1 - 1 / 2) with (1 / 2) in G by lra. rewrite L2 in G. split; lra.
Qed.
Lemma Rsum_idx (f : nat -> R) (g : R -> R) b : Rsum (imap (fun i p => f i * g p) b) = dot (map f (seq 0 (length b))) (map g b).
Proof. rewrite <- (map_length g b). rewrite <- imap_dot, imap_map. reflexivity. Qed.
Lemma Rsum_le_eq (f g : R -> R) b : (forall x, In x b -> f x <= g x) -> Rsum (map f b) = Rsum (map g b) -> forall x, In x b -> f x = g x.
Proof.
  intros H E x Hx. destruct (Rsum_imap_le_eq (fun _ => f) (fun _ => g) b) as [_ B]; [intros i y Hy; apply H; eapply nth_error_In; eauto|].
  rewrite !Rsum_imap_val in B. apply In_nth_error in Hx as (i & Hi). apply (B E i x Hi).
Qed.
Lemma odd_sum n : Rsum (map (fun i => 2 * INR (S i) - 1) (seq 0 n)) = INR n ^ 2.
Proof. induction n as [|n IH]; [simpl; ring|]. rewrite seq_S, map_app, Rsum_app, IH. cbn [map Rsum plus]. rewrite S_INR. ring. Qed.
Lemma odd_sum_rev n : Rsum (map (fun i => - (2 * INR n + 1 - 2 * INR (S i))) (seq 0 n)) = - INR n ^ 2.
Proof.
  assert (E : Rsum (map (fun i => - (2 * INR n + 1 - 2 * INR (S i))) (seq 0 n)) = Rsum (map (fun i => 2 * INR (S i) - 1) (seq 0 n)) + Rsum (map (fun _ : nat => - (2 * INR n)) (seq 0 n))).
  { rewrite <- Rsum_map_plus. apply Rsum_map_ext. intros. ring. }
  rewrite E, odd_sum, Rsum_map_const, seq_length. ring.
Qed.
Lemma glb_value_min b : sortedR b -> b <> [] -> (forall p, In p b -> 0 < p < 1) -> let n := INR (length b) in
  let v := - n - Rsum (imap (fun i p => (2 * n + 1 - 2 * INR (S i)) * ln p + (2 * INR (S i) - 1) * ln (1 - p)) b) / n in
  n * (2 * ln 2 - 1) <= v /\ (v = n * (2 * ln 2 - 1) <-> forall p, In p b -> p = 1 / 2).
Proof.
  intros Hs Hn H01 n v. assert (Pn : 0 < n) by (apply lt_0_INR; destruct b; [easy|simpl; lia]).
  set (A := Rsum (imap (fun i p => (2 * n + 1 - 2 * INR (S i)) * ln p) b)). set (B := Rsum (imap (fun i p => (2 * INR (S i) - 1) * ln (1 - p)) b)).
  assert (V : v = - n - (A + B) / n) by (unfold v, A, B; now rewrite Rsum_imap_plus).
  assert (HA : A <= n * Rsum (map ln b)).
  { assert (EA : - A = dot (map (fun i => - (2 * n + 1 - 2 * INR (S i))) (seq 0 (length b))) (map ln b)).
    { rewrite <- (Rsum_idx (fun i => - (2 * n + 1 - 2 * INR (S i)))). unfold A. rewrite <- Rsum_opp, map_imap. f_equal. unfold imap. apply imap_from_ext. intros. ring. }
    pose proof (chebyshev (map (fun i => - (2 * n + 1 - 2 * INR (S i))) (seq 0 (length b))) (map ln b)) as Ch.
    rewrite !map_length, seq_length in Ch. fold n in Ch. rewrite <- EA in Ch. pose proof (odd_sum_rev (length b)) as OR. fold n in OR. rewrite OR in Ch.
    assert (- n ^ 2 * Rsum (map ln b) <= n * - A).
    { apply Ch; trivial.
      - apply sorted_seq. intros i j Hij. assert (INR (S i) <= INR (S j)) by (apply le_INR; lia). lra.
      - apply sorted_map_on; trivial. intros x y Hx Hy [L | ->]; [left; apply ln_increasing; [apply H01|]; trivial|lra]. }
    nra. }
  assert (HB : B <= n * Rsum (map (fun p => ln (1 - p)) b)).
  { assert (EB : - B = dot (map (fun i => 2 * INR (S i) - 1) (seq 0 (length b))) (map (fun p => - ln (1 - p)) b)).
    { rewrite <- (Rsum_idx (fun i => 2 * INR (S i) - 1)). unfold B. rewrite <- Rsum_opp, map_imap. f_equal. unfold imap. apply imap_from_ext. intros. ring. }
    pose proof (chebyshev (map (fun i => 2 * INR (S i) - 1) (seq 0 (length b))) (map (fun p => - ln (1 - p)) b)) as Ch.
    rewrite !map_length, seq_length in Ch. fold n in Ch. rewrite <- EB, odd_sum in Ch. fold n in Ch. rewrite Rsum_map_opp in Ch.
    assert (n ^ 2 * - Rsum (map (fun p => ln (1 - p)) b) <= n * - B).
    { apply Ch; trivial.
      - apply sorted_seq. intros i j Hij. assert (INR (S i) <= INR (S j)) by (apply le_INR; lia). lra.
      - apply sorted_map_on; trivial. intros x y Hx Hy [L | ->]; [left; apply Ropp_lt_contravar, ln_increasing; [|lra]|lra]. specialize (H01 y Hy). lra. }
    nra. }
  assert (HC : Rsum (map (fun p => ln p + ln (1 - p)) b) <= n * (- 2 * ln 2)).
  { pose proof (Rsum_map_const (- 2 * ln 2) b) as K. fold n in K. rewrite <- K. apply Rsum_map_le. intros p Hp. now apply half_ln, H01. }
  rewrite Rsum_map_plus in HC.
  assert (HD : A + B <= n * (n * (- 2 * ln 2))) by nra.
  assert (HE : (A + B) / n <= n * (- 2 * ln 2)).
  { apply (Rmult_le_reg_r n); trivial. unfold Rdiv. rewrite Rmult_assoc, Rinv_l by lra. lra. }
  split; [rewrite V; lra|]. split.
  - intros E. assert (EQ : (A + B) / n = n * (- 2 * ln 2)) by (rewrite V in E; lra).
    assert (EQ2 : A + B = n * (n * (- 2 * ln 2))) by (rewrite <- EQ; field; lra).
    assert (EQ3 : Rsum (map (fun p => ln p + ln (1 - p)) b) = Rsum (map (fun _ => - 2 * ln 2) b)).
    { rewrite Rsum_map_const, Rsum_map_plus. fold n. nra. }
    intros p Hp. apply half_ln; [now apply H01|]. apply (Rsum_le_eq (fun p => ln p + ln (1 - p)) (fun _ => - 2 * ln 2) b); trivial. intros x Hx. now apply half_ln, H01.
  - intros E. assert (L2 : ln (1 / 2) = - ln 2) by (unfold Rdiv; rewrite Rmult_1_l; apply ln_Rinv; lra).
    assert (S2 : Rsum (imap (fun i p => (2 * n + 1 - 2 * INR (S i)) * ln p + (2 * INR (S i) - 1) * ln (1 - p)) b) = n * (- 2 * n * ln 2)).
    { pose proof (Rsum_map_const (- 2 * n * ln 2) b) as K. fold n in K. rewrite <- K. rewrite <- (imap_perm_const (fun _ : R => - 2 * n * ln 2) b). f_equal. apply imap_ext. intros i p _ Hp.
      rewrite (E p Hp). replace (1 - 1 / 2) with (1 / 2) by lra. rewrite L2. ring. }
    unfold v. rewrite S2. field. lra.
Qed.
Lemma phiz_beta_01 l p : In p (imap (fun i p => beta_cdf (length l) (S i) p) (phiz l)) -> 0 < p < 1.
Proof.
  intros H. unfold imap in H. apply imap_from_in in H as (i & q & Hi & ->). assert (i < length l)%nat by (rewrite <- phiz_length; apply nth_error_Some; congruence). apply beta_cdf_01; [lia|apply phiz_01 with (l := l); now apply nth_error_In in Hi].
Qed.
Lemma glb_min l v : glb l = Ok (Some (Fin v)) -> len l * (2 * ln 2 - 1) <= v /\
  (v = len l * (2 * ln 2 - 1) <-> forall i, (i < length l)%nat -> at_least (S i) (length l) (fitted_normal l (nth i (rsort l) 0)) = 1 / 2).
Proof.
  unfold glb. cbv zeta. intros H. apply gt3_inv in H as [Hn H]. apply num_inv in H as [V ->]. pose proof (sd1_pos l V ltac:(lia)) as Hs.
  set (b := imap (fun i p => beta_cdf (length l) (S i) p) (phiz l)).
  assert (Lb : length (rsort b) = length l) by (unfold b; now rewrite rsort_length, imap_length, phiz_length).
  assert (Ib : forall p, In p (rsort b) <-> In p b) by (intros p; split; apply Permutation_in; [apply rsort_perm|apply Permutation_sym, rsort_perm]).
  pose proof (glb_value_min (rsort b) (rsort_sorted b)) as G. rewrite Lb in G. destruct G as [G1 G2].
  - intros E. apply (f_equal (@length R)) in E. rewrite Lb in E. simpl in E. lia.
  - intros p Hp. apply Ib in Hp. now apply phiz_beta_01 with (l := l).
  - split; [exact G1|]. etransitivity; [exact G2|].
    rewrite <- (phiz_all (fun i p => at_least (S i) (length l) p = 1 / 2) l Hs).
    split.
    + intros K i p E. assert (Hi : (i < length l)%nat) by (rewrite <- phiz_length; apply nth_error_Some; congruence).
      rewrite <- beta_at_least by lia. apply K, Ib. unfold b. assert (E' : p = nth i (phiz l) 0) by (symmetry; now apply nth_error_nth).
      rewrite E'. rewrite <- (imap_nth (fun i p => beta_cdf (length l) (S i) p) (phiz l) i 0 0) by (now rewrite phiz_length).
      apply nth_In. now rewrite imap_length, phiz_length.
    + intros K p Hp. apply Ib in Hp. unfold b in Hp. apply (In_nth _ _ 0) in Hp as (i & Hi & <-). rewrite imap_length, phiz_length in Hi.
      rewrite (imap_nth _ _ _ 0) by (now rewrite phiz_length). rewrite beta_at_least by lia. apply K. apply nth_error_nth'. now rewrite phiz_length.
Qed.

(** ** moments *)
Lemma sqrt_cube m : 0 < m -> sqrt m ^ 3 = Rpower m (3 / 2).
Proof.
  intros H. rewrite <- Rpower_pow by (now apply sqrt_lt_R0). rewrite <- Rpower_sqrt, Rpower_mult by trivial. f_equal. simpl. lra.
Qed.
Lemma skewness_sample l : l <> [] -> 0 < ssq l -> skewness l = sample_skewness l.
Proof. intros N H. unfold skewness, sample_skewness. rewrite sqrt_cube by (now apply moment2_pos). reflexivity. Qed.
Lemma kurt_sample l : kurt l = sample_kurtosis l. Proof. reflexivity. Qed.
Lemma central2_ssq l : central 2 l = ssq l / len l. Proof. apply moment2_ssq. Qed.
Lemma jb_form l v : jb_norm l = Ok (Some (Fin v)) -> v = len l / 6 * (sample_skewness l ^ 2 + (sample_kurtosis l - 3) ^ 2 / 4).
Proof.
  unfold jb_norm. destruct l as [|x l0] eqn:El; [discriminate|]. rewrite <- El in *. assert (N : l <> []) by (rewrite El; discriminate). intros H. apply num_inv in H as [V ->].
  apply varying_iff in V. assert (E : map (fun x => x - mean l) l = aff (- mean l) 1 l) by (apply map_ext; intros; ring).
  rewrite E, skewness_aff, kurt_aff, skewness_sample by (trivial; lra). reflexivity.
Qed.
Lemma median_value m l : is_median m l -> Rsum (map (fun x => Rabs (x - median l)) l) = Rsum (map (fun x => Rabs (x - m)) l).
Proof. intros H. specialize (H (median l)). pose proof (median_minimises l m). lra. Qed.
Lemma mad_median m l : is_median m l -> mean_abs_dev (median l) l = mean (map (fun x => Rabs (x - m)) l).
Proof. intros H. unfold mean_abs_dev, mean, len. rewrite !map_length. now rewrite (median_value m l H). Qed.

(** ** Hermite polynomials *)
Lemma sqrt_square_mult k m : 0 <= k -> 0 <= m -> sqrt (k * k * m) = k * sqrt m.
Proof. intros Hk Hm. rewrite sqrt_mult by nra. now rewrite sqrt_square. Qed.
Lemma fact_values : INR (fact 2) = 2 /\ INR (fact 3) = 6 /\ INR (fact 4) = 2 * 2 * 6 /\ INR (fact 5) = 2 * 2 * 30 /\ INR (fact 6) = 12 * 12 * 5 /\ INR (fact 7) = 12 * 12 * 35 /\ INR (fact 8) = 24 * 24 * 70.
Proof. repeat split; rewrite INR_IZR_INZ; match goal with |- IZR (Z.of_nat (fact ?k)) = _ => let c := eval vm_compute in (Z.of_nat (fact k)) in replace (Z.of_nat (fact k)) with c by (vm_compute; reflexivity) end; lra. Qed.
Lemma hermite_0 z : hermite 0 z = 1. Proof. unfold hermite. simpl. rewrite sqrt_1. field. Qed.
Lemma hermite_1 z : hermite 1 z = z. Proof. unfold hermite. simpl. rewrite sqrt_1. field. Qed.
Lemma hermite_2 z : hermite 2 z = h2 z.
Proof. unfold hermite. rewrite (proj1 fact_values). unfold h2. f_equal. cbn [hermite_pair fst]. simpl (INR 1). ring. Qed.
Lemma hermite_3 z : hermite 3 z = h3 z.
Proof. destruct fact_values as (_ & F & _). unfold h3, hermite. rewrite F. f_equal. cbn [hermite_pair fst]. repeat rewrite S_INR. simpl (INR 0). ring. Qed.
Lemma hermite_4 z : hermite 4 z = h4 z.
Proof. destruct fact_values as (_ & _ & F & _). unfold h4, hermite. rewrite F, sqrt_square_mult by lra. f_equal. cbn [hermite_pair fst]. repeat rewrite S_INR. simpl (INR 0). ring. Qed.
Lemma hermite_5 z : hermite 5 z = h5 z.
Proof. destruct fact_values as (_ & _ & _ & F & _). unfold h5, hermite. rewrite F, sqrt_square_mult by lra. f_equal. cbn [hermite_pair fst]. repeat rewrite S_INR. simpl (INR 0). ring. Qed.
Lemma hermite_6 z : hermite 6 z = h6 z.
Proof. destruct fact_values as (_ & _ & _ & _ & F & _). unfold h6, hermite. rewrite F, sqrt_square_mult by lra. f_equal. cbn [hermite_pair fst]. repeat rewrite S_INR. simpl (INR 0). ring. Qed.
Lemma hermite_7 z : hermite 7 z = h7 z.
Proof. destruct fact_values as (_ & _ & _ & _ & _ & F & _). unfold h7, hermite. rewrite F, sqrt_square_mult by lra. f_equal. cbn [hermite_pair fst]. repeat rewrite S_INR. simpl (INR 0). ring. Qed.
Lemma hermite_8 z : hermite 8 z = h8 z.
Proof. destruct fact_values as (_ & _ & _ & _ & _ & _ & F). unfold h8, hermite. rewrite F, sqrt_square_mult by lra. f_equal. cbn [hermite_pair fst]. repeat rewrite S_INR. simpl (INR 0). ring. Qed.
Lemma hermite_mean_is k h l : (forall z, hermite k z = h z) -> Rsum (map h (zscores (sd1 l) l)) / sqrt (len l) = hermite_mean k l.
Proof. intros H. unfold hermite_mean. f_equal. rewrite standardised_zscores. apply Rsum_map_ext. intros z _. now rewrite H. Qed.
Lemma hermite_mean_sq k h l : (1 <= length l)%nat -> (forall z, hermite k z = h z) -> Rsum (map h (zscores (sd1 l) l)) ^ 2 = hermite_mean k l ^ 2 * len l.
Proof.
  intros N H. rewrite <- (hermite_mean_is k h l H). pose proof (len_ge l 1 N) as P. simpl in P.
  unfold Rdiv. rewrite Rpow_mult_distr. replace ((/ sqrt (len l)) ^ 2) with (/ (sqrt (len l) * sqrt (len l))) by (field; apply Rgt_not_eq, sqrt_lt_R0; lra).
  rewrite sqrt_sqrt by lra. field. lra.
Qed.
Lemma largest_Rmaxl (f g : R -> R) l : l <> [] -> (forall x, Rabs (g x) = Rabs (f x)) -> largest_deviation (Rmaxl 0 (map (fun v => Rabs (g v)) l)) f l.
Proof.
  intros N E. rewrite (map_ext _ (fun v => Rabs (f v))) by (intros; apply E). split.
  - assert (K : In (Rmaxl 0 (map (fun v => Rabs (f v)) l)) (map (fun v => Rabs (f v)) l)) by (apply Rmaxl_in; destruct l; [easy|discriminate]).
    apply in_map_iff in K as (x & Hx & I). now exists x.
  - intros x Hx. apply Rmaxl_ge. now apply (in_map (fun v => Rabs (f v))).
Qed.

(** ** the weights of Shapiro and Wilk *)
Lemma blom_score n i : (i < n)%nat -> nth i (scores (3 / 8) n) 0 = blom n i.
Proof. intros H. replace (3 / 8) with 0.375 by lra. now apply scores_blom. Qed.
Lemma blom_scores_scores n : blom_scores n = scores (3 / 8) n.
Proof.
  rewrite (map_seq_nth (scores (3 / 8) n)). unfold blom_scores. assert (L : length (scores (3 / 8) n) = n) by (unfold scores, plotting; now rewrite !map_length, seq_length).
  rewrite L. apply map_ext_in. intros i Hi. apply in_seq in Hi. now rewrite blom_score by lia.
Qed.
Lemma polyval_polynomial a b c d e f u : polyval [a; b; c; d; e; f] u = polynomial [f; e; d; c; b; a] u.
Proof. unfold polyval, polynomial. cbn [fold_left fold_right]. ring. Qed.
Lemma sw_royston n a : (3 <= n)%nat -> sw_coefficients n = Ok (Some a) -> royston_weights n a.
Proof.
  intros Hn E. destruct (sw_coefficients_cases n Hn) as [Ec | (w & Ec & Hw & As)]; rewrite Ec in E; [discriminate|]. injection E as ->.
  split; [trivial|]. split; [symmetry; exact As|]. split; [now apply (sw_weights_norm n)|].
  unfold sw_coefficients in Ec. destruct n as [|[|[|[|n']]]]; try lia; [injection Ec as <-; reflexivity|].
  set (n := S (S (S (S n')))) in *. change (n =? 3)%nat with false. cbv iota.
  assert (W1 : nth (n - 1) (scores (3 / 8) n) 0 = blom n (n - 1)) by (apply blom_score; unfold n; lia).
  assert (W2 : nth (n - 2) (scores (3 / 8) n) 0 = blom n (n - 2)) by (apply blom_score; unfold n; lia).
  assert (U : 1 / sqrt (INR n) = / sqrt (INR n)) by (unfold Rdiv; ring).
  unfold sw_wn, sw_wn1 in Ec. rewrite !polyval_polynomial, U, W1, W2, <- blom_scores_scores in Ec. fold (royston_last n) (royston_second_last n) in Ec. cbv zeta in Ec.
  destruct (Nat.leb_spec n 5) as [H5|H5]; cbv zeta.
  - match type of Ec with context [sqrt ?q] => match q with (_ - _) / _ => set (phi := q) in * end end.
    destruct (Rltb_spec 0 phi) as [Hp|]; [|discriminate].
    match type of Ec with context [negb ?q] => destruct (negb q); [|discriminate] end. cbn [andb] in Ec.
    assert (E : - royston_last n :: map (fun k => nth k (blom_scores n) 0 / sqrt phi) (seq 1 (n - 2)) ++ [royston_last n] = a) by congruence.
    rewrite <- E. assert (Lm : length (map (fun k => nth k (blom_scores n) 0 / sqrt phi) (seq 1 (n - 2))) = (n - 2)%nat) by (now rewrite map_length, seq_length). split; [|split].
    + replace (n - 1)%nat with (S (n - 2)) by (unfold n; lia). cbn [nth]. rewrite app_nth2; rewrite Lm; [|lia]. now rewrite Nat.sub_diag.
    + discriminate.
    + exists (/ sqrt phi). split; [apply Rinv_0_lt_compat; now apply sqrt_lt_R0|]. intros i Hi. destruct i as [|i]; [lia|]. cbn [nth]. rewrite app_nth1 by (rewrite Lm; lia).
      rewrite nth_indep with (d' := nth 0 (blom_scores n) 0 / sqrt phi) by (rewrite Lm; lia). rewrite (map_nth (fun k => nth k (blom_scores n) 0 / sqrt phi)), seq_nth by lia.
      rewrite blom_scores_scores, blom_score by lia. unfold Rdiv. simpl (1 + i)%nat. ring.
  - match type of Ec with context [sqrt ?q] => match q with (_ - _ - _) / _ => set (phi := q) in * end end.
    destruct (Rltb_spec 0 phi) as [Hp|]; [|discriminate].
    match type of Ec with context [negb ?q] => destruct (negb q); [|discriminate] end. cbn [andb] in Ec.
    assert (E : [- royston_last n; - royston_second_last n] ++ map (fun k => nth k (blom_scores n) 0 / sqrt phi) (seq 2 (n - 4)) ++ [royston_second_last n; royston_last n] = a) by congruence.
    rewrite <- E. assert (Lm : length (map (fun k => nth k (blom_scores n) 0 / sqrt phi) (seq 2 (n - 4))) = (n - 4)%nat) by (now rewrite map_length, seq_length). cbn [app]. split; [|split].
    + replace (n - 1)%nat with (S (S (n - 3))) by (unfold n; lia). cbn [nth]. rewrite app_nth2; rewrite Lm; [|lia]. replace (n - 3 - (n - 4))%nat with 1%nat by (unfold n; lia). reflexivity.
    + intros _. replace (n - 2)%nat with (S (S (n - 4))) by (unfold n; lia). cbn [nth]. rewrite app_nth2; rewrite Lm; [|lia]. now rewrite Nat.sub_diag.
    + exists (/ sqrt phi). split; [apply Rinv_0_lt_compat; now apply sqrt_lt_R0|]. intros i Hi. destruct i as [|[|i]]; try lia. cbn [nth]. rewrite app_nth1 by (rewrite Lm; lia).
      rewrite nth_indep with (d' := nth 0 (blom_scores n) 0 / sqrt phi) by (rewrite Lm; lia). rewrite (map_nth (fun k => nth k (blom_scores n) 0 / sqrt phi)), seq_nth by lia.
      rewrite blom_scores_scores, blom_score by lia. unfold Rdiv. simpl (2 + i)%nat. ring.
Qed.

(** ** Desgagne and Lafaye de Micheaux *)
Lemma quadratic_positive a b c d e f x y z : 0 < a -> 0 < a * d - b ^ 2 -> 0 < (a * d - b ^ 2) * (a * f - c ^ 2) - (b * c - a * e) ^ 2 ->
  let q := a * x ^ 2 + d * y ^ 2 + f * z ^ 2 - 2 * b * x * y + 2 * c * x * z - 2 * e * y * z in 0 <= q /\ (q = 0 -> x = 0 /\ y = 0 /\ z = 0).
Proof.
  intros Ha Hd Hq q. set (D := a * d - b ^ 2) in *. set (G := D * (a * f - c ^ 2) - (b * c - a * e) ^ 2) in *.
  assert (E : D * (a * q) = D * (a * x - b * y + c * z) ^ 2 + (D * y + (b * c - a * e) * z) ^ 2 + G * z ^ 2) by (unfold q, G, D; ring).
  assert (P1 : 0 <= (a * x - b * y + c * z) ^ 2) by apply pow2_ge_0. assert (P2 : 0 <= (D * y + (b * c - a * e) * z) ^ 2) by apply pow2_ge_0. assert (P3 : 0 <= z ^ 2) by apply pow2_ge_0.
  assert (Q1 : 0 <= D * (a * x - b * y + c * z) ^ 2) by (apply Rmult_le_pos; lra). assert (Q3 : 0 <= G * z ^ 2) by (apply Rmult_le_pos; lra).
  assert (DA : 0 < D * a) by (now apply Rmult_lt_0_compat). rewrite <- Rmult_assoc in E. split.
  - apply (Rmult_le_reg_l (D * a)); trivial. lra.
  - intros Z. rewrite Z, Rmult_0_r in E. assert (Z3 : G * z ^ 2 = 0) by lra. assert (z = 0) by (apply Rmult_integral in Z3 as [|Z3]; [lra|]; nra). subst z.
    assert (Z2 : (D * y + (b * c - a * e) * 0) ^ 2 = 0) by lra. assert (D * y = 0) by nra. assert (y = 0) by (apply Rmult_integral in H as [|]; lra). subst y.
    assert (Z1 : D * (a * x - b * 0 + c * 0) ^ 2 = 0) by lra. apply Rmult_integral in Z1 as [|Z1]; [lra|]. assert (a * x = 0) by nra. apply Rmult_integral in H0 as [|]; [lra|]. auto.
Qed.
Lemma dldm_quadratic n r1 r2 r3 : 0 < n ->
  let v := n * ((r1 * 1259.04213344 - r2 * 32040.69569026 + r3 * 85065.77739473) * r1
          + (- r1 * 32040.6956903 + r2 * 918649.9005906 - r3 * 2425883.3443201) * r2
          + (r1 * 85065.7773947 - r2 * 2425883.3443201 + r3 * 6407749.8211208) * r3) in
  0 <= v /\ (v = 0 <-> r1 = 0 /\ r2 = 0 /\ r3 = 0).
Proof.
  intros Hn v. destruct (quadratic_positive 1259.04213344 (32040.69569028) 85065.777394715 918649.9005906 2425883.3443201 6407749.8211208 r1 r2 r3) as [A B]; try lra.
  match type of A with 0 <= ?q => assert (E : v = n * q) by (unfold v; apply Rmult_eq_compat_l; lra) end.
  rewrite E. split; [apply Rmult_le_pos; lra|]. split.
  - intros Z. apply B. apply Rmult_integral in Z as [|]; lra.
  - intros (-> & -> & ->). ring.
Qed.
