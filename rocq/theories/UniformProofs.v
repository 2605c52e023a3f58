(** Lemmas about the uniform statistics. *)
From Coq Require Import String ZArith.
From Coquelicot Require Import Coquelicot.
From Verif Require Import Base DecModel EdfModel EdfSpec GraphModel RegistryModel NormalLaw ExpModel NormModel NormSpec BetaSpec UniformModel UniformSpec
  Analysis EdfProofs EdfRotProofs EdfPowerProofs ExpProofs ExpRangeProofs NormProofs NormAffProofs NormSymProofs NormReflProofs NormRangeProofs NormFiniteProofs EdfClaims StudentProofs BetaProofs LegendreProofs.
From Coq Require Import Lra Lia.
Local Open Scope R_scope.

(** ** validation *)
Lemma vok a b l : within a b l -> uniform_validate a b l = Ok l.
Proof. intros H. now apply C67_uniform_refuses_exactly_outside_holds. Qed.
Lemma vraise a b l : ~ within a b l -> uniform_validate a b l = Raise ValueError.
Proof.
  intros H. destruct (C67_uniform_refuses_exactly_outside_holds a b l) as [_ K]. unfold uniform_validate in *.
  destruct (existsb _ l); trivial. exfalso. apply H. exact (proj2 K eq_refl).
Qed.
Lemma within_dec a b l : within a b l \/ ~ within a b l.
Proof.
  destruct (C67_uniform_refuses_exactly_outside_holds a b l) as [_ K]. unfold uniform_validate in *.
  destruct (existsb _ l); [right|left; exact (proj2 K eq_refl)]. intros W. apply K in W. discriminate.
Qed.
Lemma within_perm a b l l' : Permutation l l' -> within a b l -> within a b l'.
Proof. intros P U x Hx. apply U. eapply Permutation_in; [symmetry; exact P|exact Hx]. Qed.
Lemma validated_ext (a b c d : R) (l l' : list R) (g h : list R -> outcome) :
  (within a b l <-> within c d l') -> (within a b l -> g l = h l') ->
  (let! l := uniform_validate a b l in g l) = (let! l := uniform_validate c d l' in h l).
Proof.
  intros I E. destruct (within_dec a b l) as [W|W].
  - rewrite (vok a b l W), (vok c d l') by now apply I. cbn. now apply E.
  - rewrite (vraise a b l W), (vraise c d l') by now rewrite <- I. reflexivity.
Qed.
(** ** stretched samples *)
Lemma stretched_aff a b l : stretched a b l = aff a (b - a) l. Proof. reflexivity. Qed.
Lemma stretched_within a b l : a < b -> within a b (stretched a b l) <-> within 0 1 l.
Proof.
  intros H. split; intros W x Hx.
  - assert (I : In (a + (b - a) * x) (stretched a b l)) by (apply in_map_iff; now exists x). specialize (W _ I). nra.
  - apply in_map_iff in Hx as (y & <- & Hy). specialize (W y Hy). nra.
Qed.
Lemma stretched_std a b l : a < b -> stretched a b (uniform_std a b l) = l.
Proof. intros H. unfold stretched, uniform_std. rewrite map_map, <- map_id. apply map_ext. intros x. field. lra. Qed.
Lemma stretched_length a b l : length (stretched a b l) = length l. Proof. apply map_length. Qed.
Lemma stretched_len a b l : len (stretched a b l) = len l. Proof. unfold len. now rewrite stretched_length. Qed.
Lemma stretched_rsort a b l : a < b -> rsort (stretched a b l) = stretched a b (rsort l).
Proof. intros H. unfold stretched. apply rsort_map_mono. intros; nra. Qed.
Lemma stretched_match {A} a b l (x y : A) : match stretched a b l with [] => x | _ => y end = match l with [] => x | _ => y end.
Proof. now destruct l. Qed.
Lemma std_stretched a b l : a < b -> uniform_std a b (stretched a b l) = l.
Proof. apply uniform_std_affine. Qed.
Lemma not_unit a b : negb (Reqb a 0) || negb (Reqb b 1) = false -> a = 0 /\ b = 1.
Proof. intros E. apply orb_false_iff in E. now rewrite !negb_false_iff, !Reqb_true in E. Qed.
Lemma stein_std_stretched a b l : a < b -> stein_std a b (stretched a b l) = l.
Proof.
  intros H. unfold stein_std. destruct (negb (Reqb a 0) || negb (Reqb b 1)) eqn:E; [now apply std_stretched|].
  apply not_unit in E as [-> ->]. unfold stretched. rewrite <- map_id. apply map_ext. intros; ring.
Qed.
Lemma stein_std_unit l : stein_std 0 1 l = l.
Proof.
  unfold stein_std. destruct (negb (Reqb 0 0) || negb (Reqb 1 1)); [apply uniform_std_01|reflexivity].
Qed.
Lemma len0 (l : list R) : 0 <= len l. Proof. apply pos_INR. Qed.
Lemma bins_stretched a b rule l : a < b -> uniform_bins a b rule (stretched a b l) = uniform_bins 0 1 rule l.
Proof.
  intros H. unfold uniform_bins. destruct rule; trivial.
  - now rewrite stretched_match, stretched_len.
  - now rewrite stretched_length.
  - rewrite stretched_match. destruct l as [|x0 l0]; trivial. set (l := x0 :: l0). rewrite stretched_aff, varying_aff by lra.
    destruct (varying l) eqn:V; trivial. assert (W : (b - a) / auto_width (aff a (b - a) l) = (1 - 0) / auto_width l); [|now rewrite W].
    unfold auto_width. rewrite np_var_aff, sqrt_sq_scale, aff_len by lra.
    assert (0 < sqrt (np_var l)). { apply sqrt_lt_R0. unfold np_var. apply Rdiv_lt_0_compat; [now apply varying_true|now apply len_pos]. }
    assert (0 < Rpower (len l) (1 / 3)) by apply exp_pos. set (s := sqrt (np_var l)) in *. set (r := Rpower (len l) (1 / 3)) in *.
    replace 3.5 with (7 / 2) by lra. field. lra.
Qed.
Lemma edges_stretched a b k : (2 <= k)%nat -> map (fun i => a + (b - a) * INR (S i) / INR k) (seq 0 (k - 1)) = map (fun x => a + (b - a) * x) (inner_edges k).
Proof. intros H. unfold inner_edges. rewrite map_map. apply map_ext. intros i. unfold Rdiv. ring. Qed.
Lemma edges_unit k : map (fun i => 0 + (1 - 0) * INR (S i) / INR k) (seq 0 (k - 1)) = inner_edges k.
Proof. unfold inner_edges. apply map_ext. intros i. unfold Rdiv. ring. Qed.
Lemma bins_two a b rule l k : uniform_bins a b rule l = Ok k -> (2 <= k)%nat.
Proof.
  unfold uniform_bins. set (r := match rule with Sturges => _ | _ => _ end). destruct r; cbn [bind]; [|discriminate]. intros E. assert (K : Nat.max 2 a0 = k) by congruence. rewrite <- K. apply Nat.le_max_l.
Qed.
Lemma chi2_unit a b lambda k l : a < b -> within a b l -> (2 <= k)%nat -> chi2_uniform a b lambda k l =
  Ok (power_divergence lambda (map INR (histogram (inner_edges k) (uniform_std a b l))) (repeat (len l / INR k) k)).
Proof.
  intros H W Hk. unfold chi2_uniform. rewrite vok by trivial. cbn [bind]. rewrite edges_stretched by trivial.
  rewrite <- (stretched_std a b l H) at 1. unfold stretched. rewrite (histogram_map (fun x => a + (b - a) * x)) by (intros; apply Rplus_lt_compat_l, Rmult_lt_compat_l; lra). reflexivity.
Qed.
Lemma chi2_rule_stretched a b lambda rule l : a < b -> chi2_uniform_rule a b lambda rule (stretched a b l) = chi2_uniform_rule 0 1 lambda rule l.
Proof.
  intros H. unfold chi2_uniform_rule. apply (validated_ext a b 0 1 (stretched a b l) l
    (fun rvs => let! k := uniform_bins a b rule rvs in let! v := chi2_uniform a b lambda k rvs in Ok (Some v))
    (fun rvs => let! k := uniform_bins 0 1 rule rvs in let! v := chi2_uniform 0 1 lambda k rvs in Ok (Some v))); [now apply stretched_within|].
  intros W. rewrite bins_stretched by trivial. destruct (uniform_bins 0 1 rule l) as [k|] eqn:E; trivial. cbn [bind]. apply bins_two in E.
  rewrite (chi2_unit a b), (chi2_unit 0 1) by (trivial; try lra; now apply stretched_within in W).
  now rewrite std_stretched, stretched_len, uniform_std_01.
Qed.
Lemma br_stretched a b bw l : a < b -> br_uniform a b bw (stretched a b l) = br_uniform 0 1 bw l.
Proof.
  intros H. unfold br_uniform. apply (validated_ext a b 0 1 (stretched a b l) l
    (fun rvs => let z := uniform_std a b rvs in match rvs, bw with [], AutoBandwidth => _ | [], GivenBandwidth _ => _ | _, _ => _ end)
    (fun rvs => let z := uniform_std 0 1 rvs in match rvs, bw with [], AutoBandwidth => _ | [], GivenBandwidth _ => _ | _, _ => _ end)); [now apply stretched_within|].
  intros W. cbv zeta. rewrite std_stretched, uniform_std_01 by trivial. now destruct l, bw.
Qed.
Lemma zhang_stretched a b t l : a < b -> zhang_uniform a b t (stretched a b l) = zhang_uniform 0 1 t l.
Proof.
  intros H. unfold zhang_uniform. apply validated_ext; [now apply stretched_within|].
  intros W. cbv zeta. now rewrite stretched_rsort, std_stretched, uniform_std_01.
Qed.
Lemma stein_stretched a b l : a < b -> stein_uniform a b (stretched a b l) = stein_uniform 0 1 l.
Proof.
  intros H. unfold stein_uniform. apply validated_ext; [now apply stretched_within|].
  intros W. now rewrite stein_std_stretched, stein_std_unit.
Qed.
Lemma censored_stretched a b c l : a < b -> censored_stein a b c (stretched a b l) = censored_stein 0 1 c l.
Proof.
  intros H. unfold censored_stein. destruct (within_dec 0 1 l) as [W|W].
  - rewrite (vok 0 1) by trivial. rewrite (vok a b) by now apply stretched_within. cbn [bind]. cbv zeta.
    rewrite stein_std_stretched, stein_std_unit, stretched_length, stein_stretched by trivial. reflexivity.
  - rewrite (vraise 0 1) by trivial. rewrite (vraise a b); [reflexivity|]. rewrite stretched_within; trivial.
Qed.
Lemma neyman_stretched a b k l : a < b -> neyman_uniform a b k (stretched a b l) = neyman_uniform 0 1 k l.
Proof.
  intros H. unfold neyman_uniform. apply validated_ext; [now apply stretched_within|].
  intros W. rewrite std_stretched, uniform_std_01 by trivial. unfold nonempty. now rewrite stretched_length.
Qed.
(** ** order of the sample *)
Lemma match_perm {A} (l l' : list R) (x y : A) : Permutation l l' -> match l with [] => x | _ => y end = match l' with [] => x | _ => y end.
Proof. intros P. pose proof (Permutation_length P). destruct l, l'; trivial; discriminate. Qed.
Lemma len_perm (l l' : list R) : Permutation l l' -> len l = len l'.
Proof. intros P. unfold len. now rewrite (Permutation_length P). Qed.
Lemma bins_perm a b rule l l' : Permutation l l' -> uniform_bins a b rule l = uniform_bins a b rule l'.
Proof.
  intros P. unfold uniform_bins. destruct rule; trivial.
  - now rewrite (match_perm l l' _ _ P), (len_perm _ _ P).
  - now rewrite (Permutation_length P).
  - rewrite (match_perm l l' _ _ P). unfold varying, auto_width. now rewrite (ssq_perm _ _ P), (np_var_perm' _ _ P), (len_perm _ _ P).
Qed.
Lemma std_perm a b l l' : Permutation l l' -> Permutation (uniform_std a b l) (uniform_std a b l').
Proof. apply Permutation_map. Qed.
Lemma stein_h_sym x y : stein_h x y = stein_h y x.
Proof. unfold stein_h. rewrite (Rmax_comm x y). f_equal. ring. Qed.
Lemma stein_of_perm l l' : Permutation l l' -> stein_of l = stein_of l'.
Proof.
  intros P. unfold stein_of. rewrite (Permutation_length P), (len_perm _ _ P), (sum_pairs_perm _ _ _ P); trivial. apply stein_h_sym.
Qed.
Lemma stein_std_perm a b l l' : Permutation l l' -> Permutation (stein_std a b l) (stein_std a b l').
Proof. intros P. unfold stein_std. destruct (_ || _); [now apply std_perm|trivial]. Qed.
Lemma neyman_of_perm k l l' : Permutation l l' -> neyman_of k l = neyman_of k l'.
Proof.
  intros P. unfold neyman_of. apply f_equal, map_ext. intros j. now rewrite (len_perm _ _ P), (Rsum_perm _ _ (Permutation_map _ P)).
Qed.
Lemma br_value_perm h l l' : Permutation l l' -> br_value h l = br_value h l'.
Proof.
  intros P. unfold br_value. f_equal. apply f_equal, map_ext. intros x. unfold br_kde. now rewrite (mean_perm' _ _ (Permutation_map _ P)).
Qed.
Lemma br_auto_perm l l' : Permutation l l' -> br_auto l = br_auto l'.
Proof. intros P. unfold br_auto. now rewrite (np_var_perm' _ _ P), (len_perm _ _ P). Qed.
Lemma within_perm_iff a b l l' : Permutation l l' -> (within a b l <-> within a b l').
Proof. intros P. split; apply within_perm; [|symmetry]; trivial. Qed.

(** ** reflected samples *)
Lemma reflected_stretched a b z : reflected a b (stretched a b z) = stretched a b (mirror z).
Proof. unfold reflected, stretched, mirror. rewrite !map_map. apply map_ext. intros; ring. Qed.
Lemma mirror_within z : within 0 1 (mirror z) <-> within 0 1 z.
Proof. apply mirror_unit. Qed.
Lemma cdf_unit z : within 0 1 z -> map (uniform_cdf 0 1) (rsort z) = rsort z.
Proof.
  intros W. rewrite <- map_id. apply map_ext_in. intros x Hx. rewrite uniform_cdf_inside by (apply W, rsort_in, Hx). field.
Qed.
Lemma spacings_flip u : spacings 0 (flip u) 1 = rev (spacings 0 u 1).
Proof.
  unfold spacings. replace (0 :: flip u ++ [1]) with (rev (map (fun p => 1 - p) (0 :: u ++ [1]))).
  - rewrite diff_rev. f_equal. rewrite (map_ext _ (fun p => 1 + -1 * p)) by (intros; ring). fold (aff 1 (-1) (0 :: u ++ [1])).
    rewrite diff_aff. unfold neg. rewrite map_map, <- map_id. apply map_ext. intros; ring.
  - unfold flip. cbn [map rev]. rewrite map_app, rev_app_distr. cbn [map rev app]. f_equal; [ring|]. f_equal. f_equal. ring.
Qed.
Lemma consecutive_snoc l x y : consecutive_products (l ++ [x; y]) = consecutive_products (l ++ [x]) + x * y.
Proof.
  induction l as [|a l IH]; [cbn; ring|]. destruct l as [|b l]; [cbn; ring|]. cbn [app consecutive_products] in *. rewrite IH. ring.
Qed.
Lemma consecutive_rev l : consecutive_products (rev l) = consecutive_products l.
Proof.
  induction l as [|a l IH]; trivial. destruct l as [|b l]; trivial. cbn [rev] in *. rewrite <- app_assoc. cbn [app].
  rewrite consecutive_snoc, IH. cbn [consecutive_products]. ring.
Qed.
Lemma greenwood_flip u : greenwood_of (flip u) = greenwood_of u.
Proof. unfold greenwood_of. now rewrite spacings_flip, map_rev, Rsum_rev. Qed.
Lemma sherman_flip u : sherman_of 0 1 (flip u) = sherman_of 0 1 u.
Proof. unfold sherman_of. now rewrite spacings_flip, map_rev, Rsum_rev, flip_len. Qed.
Lemma qm_flip u : quesenberry_miller_of 0 1 (flip u) = quesenberry_miller_of 0 1 u.
Proof. unfold quesenberry_miller_of. now rewrite spacings_flip, map_rev, Rsum_rev, consecutive_rev. Qed.
Lemma watson_uniform_flip u : watson_uniform_of (flip u) = watson_uniform_of u.
Proof.
  destruct u as [|x u0]; trivial. set (u := x :: u0). assert (N : u <> []) by discriminate.
  assert (NF : flip u <> []) by (intros E; apply (f_equal (@length R)) in E; rewrite flip_length in E; discriminate).
  rewrite !watson_uniform_eval by trivial. rewrite flip_len. assert (E : watson_val (flip u) = watson_val u); [|now rewrite E].
  pose proof (watson_flip u) as W. rewrite !watson_eval in W by trivial. congruence.
Qed.
Lemma grid_mirror (f : R -> R) : Rsum (map (fun x => f (1 - x)) br_grid) = Rsum (map f br_grid).
Proof.
  unfold br_grid. rewrite !map_map. rewrite (Rsum_seq_rev (fun i => f (INR i / 999))). apply f_equal, map_ext_in. intros i Hi. apply in_seq in Hi. f_equal.
  replace (0 + 1000 - 1 - i)%nat with (999 - i)%nat by lia. rewrite minus_INR by lia. replace (INR 999) with 999; [lra|]. rewrite INR_IZR_INZ. reflexivity.
Qed.
Lemma br_value_mirror h z : br_value h (mirror z) = br_value h z.
Proof.
  unfold br_value. f_equal. rewrite <- grid_mirror. apply f_equal, map_ext. intros x. f_equal. f_equal. unfold br_kde, mean, mirror. rewrite map_map, !len_map.
  f_equal. f_equal. apply f_equal, map_ext. intros r. rewrite <- norm_pdf_even. f_equal. unfold Rdiv. ring.
Qed.
Lemma br_auto_mirror z : br_auto (mirror z) = br_auto z.
Proof. unfold br_auto. rewrite mirror_len, mirror_aff, np_var_aff. f_equal. f_equal. f_equal. ring. Qed.
Lemma zhang_flip t u : match t with ZhangA => zhang_a (flip u) | ZhangC => zhang_c (flip u) | ZhangK => zhang_k (flip u) end
  = match t with ZhangA => zhang_a u | ZhangC => zhang_c u | ZhangK => zhang_k u end.
Proof.
  assert (W1 : forall i, (i < length u)%nat -> len u - INR (S (length u - 1 - i)) + 0.5 = INR (S i) - 0.5).
  { intros i Hi. rewrite !S_INR, INR_rev by trivial. fold (len u). lra. }
  assert (W2 : forall i, (i < length u)%nat -> INR (S (length u - 1 - i)) - 0.5 = len u - INR (S i) + 0.5).
  { intros i Hi. rewrite !S_INR, INR_rev by trivial. fold (len u). lra. }
  destruct t; unfold zhang_a, zhang_c, zhang_k; rewrite flip_len.
  - rewrite (imap_flip _ (fun i x => ln (1 - x) / (INR (S i) - 0.5)) u) by (intros i v Hi; now rewrite W1).
    rewrite (imap_flip _ (fun i x => ln x / (len u - INR (S i) + 0.5)) u) by (intros i v Hi; rewrite W2 by trivial; do 2 f_equal; ring).
    rewrite !Rsum_rev. ring.
  - rewrite (imap_flip _ (fun i x => (ln (1 - x) / (INR (S i) - 0.5)) ^ 2) u) by (intros i v Hi; now rewrite W1).
    rewrite (imap_flip _ (fun i x => (ln x / (len u - INR (S i) + 0.5)) ^ 2) u) by (intros i v Hi; rewrite W2 by trivial; do 3 f_equal; ring).
    rewrite !Rsum_rev. ring.
  - rewrite (imap_flip _ (fun i x => ln ((1 - x) / x) / (INR (S i) - 0.5)) u) by (intros i v Hi; rewrite W1 by trivial; do 3 f_equal; ring).
    rewrite (imap_flip _ (fun i x => ln (x / (1 - x)) / (len u - INR (S i) + 0.5)) u) by (intros i v Hi; rewrite W2 by trivial; do 3 f_equal; ring).
    rewrite !Rsum_rev. apply Rmax_comm.
Qed.
Lemma zhang_ok_flip u : forallb (fun x => Rltb 0 x && Rltb x 1) (flip u) = forallb (fun x => Rltb 0 x && Rltb x 1) u.
Proof.
  apply eq_true_iff_eq. rewrite !forallb_forall. unfold flip. split; intros H x Hx.
  - assert (I : In (1 - x) (rev (map (fun p => 1 - p) u))) by (apply -> in_rev; apply in_map_iff; now exists x). specialize (H _ I).
    rewrite andb_true_iff, !Rltb_true in *. lra.
  - apply in_rev in Hx. apply in_map_iff in Hx as (y & <- & Hy). specialize (H y Hy). rewrite andb_true_iff, !Rltb_true in *. lra.
Qed.
Lemma stein_h_mirror x y : stein_h (1 - x) (1 - y) = stein_h x y.
Proof. unfold stein_h, Rmax. repeat destruct (Rle_dec _ _); nra. Qed.
Lemma stein_of_mirror z : stein_of (mirror z) = stein_of z.
Proof.
  unfold stein_of. rewrite mirror_length, mirror_len. unfold mirror. rewrite sum_pairs_map. now rewrite (sum_pairs_ext _ stein_h) by apply stein_h_mirror.
Qed.
Lemma neyman_of_mirror k z : neyman_of k (mirror z) = neyman_of k z.
Proof.
  unfold neyman_of. apply f_equal, map_ext_in. intros j Hj. apply in_seq in Hj. rewrite mirror_len. unfold mirror. rewrite map_map.
  rewrite (map_ext _ (fun x => (- 1) ^ j * neyman_phi j x)) by (intros x; apply phi_parity; lia). rewrite Rsum_map_scal.
  transitivity ((- 1) ^ j * (- 1) ^ j * (Rsum (map (neyman_phi j) z) / sqrt (len z)) ^ 2); [unfold Rdiv; ring|]. rewrite pm1_sq. ring.
Qed.
Lemma bins_mirror rule z : uniform_bins 0 1 rule (mirror z) = uniform_bins 0 1 rule z.
Proof.
  unfold uniform_bins. rewrite mirror_length, mirror_len. unfold auto_width. rewrite mirror_len, mirror_varying, mirror_aff, np_var_aff. replace ((-1) ^ 2 * np_var z) with (np_var z) by ring.
  now destruct z.
Qed.
