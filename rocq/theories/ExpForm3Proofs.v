(** Closed forms of the remaining exponentiality statistics and the samples at which they are extreme. *)
From Verif Require Import Base Analysis DecModel EdfModel GraphModel ExpModel ExpSpec ExpFormSpec EdfProofs ExpProofs ExpRangeProofs ExpFormProofs ExpForm2Proofs.
From Coq Require Import Lra Lia.
Local Open Scope R_scope.

Lemma sq_zero t : t ^ 2 = 0 <-> t = 0.
Proof. split; [|intros ->; ring]. intros H. apply Rsqr_0_uniq. unfold Rsqr. rewrite <- H. ring. Qed.
(** ** closed forms *)
Lemma ep_form l v : positive l -> ep l = Ok (Fin v) -> v = sqrt (48 * len l) * (mean (map (fun y => exp (- y)) (relative l)) - 1 / 2).
Proof.
  intros P H. assert (N : l <> []) by (intros ->; discriminate). pose proof (len_pos l N) as L. unfold ep in H. apply fin_inv in H as [_ ->].
  unfold relative. rewrite map_map. unfold mean at 2. rewrite len_map, Rsum_map_minus, Rsum_map_const. fold (len l). field. lra.
Qed.
Lemma np_pow_pos x p : 0 < x -> np_pow x p = Rpower x p.
Proof. intros H. unfold np_pow. now rewrite Reqb_pos. Qed.
Lemma Rpower_pos x p : 0 < Rpower x p. Proof. apply exp_pos. Qed.
Lemma atk_form Gamma p l v : positive l -> 0 < Gamma (1 + p) -> atk Gamma p l = Ok (Fin v) ->
  v = sqrt (len l) * Rabs (power_mean p l / mean l - Rpower (Gamma (1 + p)) (1 / p)).
Proof.
  intros P G H. assert (N : l <> []) by (intros ->; discriminate). unfold atk in H. cbv zeta in H. apply fin_inv in H as [_ ->].
  assert (E : map (fun x => np_pow x p) l = map (fun x => Rpower x p) l) by (apply map_ext_in; intros x Hx; apply np_pow_pos; now apply P).
  rewrite E. unfold power_mean. rewrite !np_pow_pos; trivial. apply mean_pos; [destruct l; [congruence|discriminate]|]. intros y Hy. apply in_map_iff in Hy as (x & <- & _). apply Rpower_pos.
Qed.
Lemma fz_form l v : positive l -> fz_sorted (rsort l) = Ok (Fin v) ->
  v = / sqrt (len l) * Rsum (map (fun i => Rabs (fitted_exponential l (S i) - (INR i + 1 / 2) / len l)) (seq 0 (length l))).
Proof.
  intros P H. assert (N : l <> []) by (intros ->; discriminate). pose proof (mean_pos l N P) as M. pose proof (len_pos l N) as L.
  unfold fz_sorted in H. cbv zeta in H. apply fin_inv in H as [_ ->]. rewrite len_rsort, mean_rsort, (imap_seq _ _ 0), rsort_length.
  replace (1 / sqrt (len l)) with (/ sqrt (len l)) by (unfold Rdiv; ring). f_equal. apply Rsum_map_ext. intros i _. unfold fitted_exponential, order. cbn [nth]. rewrite S_INR.
  f_equal. f_equal; [|f_equal; lra]. f_equal. f_equal. unfold Rdiv. ring.
Qed.
Lemma km_form l v : positive l -> km_sorted (rsort l) = Ok (Fin v) ->
  maximum v (fun w => exists i, (i < length l)%nat /\ w = Rabs (stabilised ((INR i + 1 / 2) / len l) - stabilised (fitted_exponential l (S i)))).
Proof.
  intros P H. assert (N : l <> []) by (intros ->; discriminate). pose proof (rsort_ne l N) as N'. unfold km_sorted in H. cbv zeta in H. rewrite match_ne in H by trivial. apply fin_inv in H as [_ ->].
  rewrite len_rsort, mean_rsort, (imap_seq _ _ 0), rsort_length.
  assert (E : forall i, Rabs (2 / PI * asin (sqrt ((INR (S i) - 0.5) / len l)) - 2 / PI * asin (sqrt (1 - exp (- (nth i (rsort l) 0 / mean l)))))
     = Rabs (stabilised ((INR i + 1 / 2) / len l) - stabilised (fitted_exponential l (S i)))).
  { intros i. unfold stabilised, fitted_exponential, order. cbn [nth]. rewrite S_INR. replace (INR i + 1 - 0.5) with (INR i + 1 / 2) by lra. reflexivity. }
  rewrite (map_ext _ _ E). split.
  - pose proof (Rmaxl_in 0 (map (fun i => Rabs (stabilised ((INR i + 1 / 2) / len l) - stabilised (fitted_exponential l (S i)))) (seq 0 (length l)))) as I.
    assert (NE : map (fun i => Rabs (stabilised ((INR i + 1 / 2) / len l) - stabilised (fitted_exponential l (S i)))) (seq 0 (length l)) <> []) by (destruct l; [congruence|discriminate]).
    specialize (I NE). apply in_map_iff in I as (i & Ei & Hi). apply in_seq in Hi. exists i. split; [lia|]. now rewrite Ei.
  - intros w (i & Hi & ->). apply Rmaxl_ge. apply (in_map (fun i => Rabs (stabilised ((INR i + 1 / 2) / len l) - stabilised (fitted_exponential l (S i))))). apply in_seq. lia.
Qed.
Lemma kc_form l v : kc_sorted (rsort l) = Ok (Fin v) ->
  v = sqrt (108 * len l / 17) * Rsum (map (fun i => kochar_score (INR (S i) / (len l + 1)) * order l (S i)) (seq 0 (length l))) / Rsum l.
Proof.
  intros H. unfold kc_sorted in H. cbv zeta in H. apply fin_inv in H as [_ ->]. rewrite len_rsort, Rsum_rsort, (imap_seq _ _ 0), rsort_length. f_equal. f_equal. apply Rsum_map_ext. intros i _. unfold order. cbn [nth]. rewrite S_INR. reflexivity.
Qed.
Lemma lz_form p l v : 0 <= p -> lz_sorted p (rsort l) = Ok (Fin v) -> exists k, INR k <= len l * p < INR k + 1 /\ v = lorenz l k.
Proof.
  intros Hp H. assert (N : l <> []) by (intros ->; discriminate). unfold lz_sorted in H. rewrite match_ne in H by (now apply rsort_ne). apply fin_inv in H as [_ ->]. rewrite len_rsort, Rsum_rsort.
  exists (Z.to_nat (Int_part (len l * p))). split; [|reflexivity]. assert (Q : 0 <= len l * p) by (apply Rmult_le_pos; [apply pos_INR|trivial]). split; [now apply floor_le|].
  destruct (base_Int_part (len l * p)) as [_ H2]. assert (Hz : (0 <= Int_part (len l * p))%Z). { assert (IZR (Int_part (len l * p)) > -1) by lra. apply lt_IZR in H. lia. }
  rewrite INR_IZR_INZ, Z2Nat.id by exact Hz. lra.
Qed.
Lemma ww_form l v : positive l -> ww l = Ok (Fin v) -> maximum v (fun w => exists x y, In x l /\ In y l /\ w = x / y).
Proof.
  intros P H. assert (N : l <> []) by (intros ->; discriminate). unfold ww in H. rewrite match_ne in H by trivial. apply fin_inv in H as [_ ->].
  pose proof (Rminl_in 0 l N) as I. pose proof (Rmaxl_in 0 l N) as J. split; [eauto|]. intros w (x & y & Hx & Hy & ->). pose proof (Rmaxl_ge 0 l x Hx). pose proof (Rminl_le 0 l y Hy). apply P in I. pose proof (P y Hy). pose proof (P x Hx).
  unfold Rdiv. apply Rmult_le_compat; try lra; [left; now apply Rinv_0_lt_compat|]. now apply Rinv_le_contravar.
Qed.
Lemma np_var_form l : l <> [] -> np_var l = Rsum (map (fun x => (x - mean l) ^ 2) l) / len l.
Proof. intros N. unfold np_var. unfold mean at 1. now rewrite len_map. Qed.
Lemma we_form l v : positive l -> we l = Ok (Fin v) -> v = (len l - 1) / len l * (Rsum (map (fun x => (x - mean l) ^ 2) l) / Rsum l ^ 2).
Proof.
  intros P H. assert (N : l <> []) by (intros ->; discriminate). pose proof (len_pos l N) as L. pose proof (Rsum_pos l N P). unfold we in H. cbv zeta in H. apply fin_inv in H as [_ ->]. rewrite np_var_form by trivial. set (Q := Rsum (map _ l)). unfold mean. field. lra.
Qed.
Lemma sw_form l m v : smallest_in m l -> sw_sorted (rsort l) = Ok (Fin v) -> v = len l * (mean l - m) ^ 2 / ((len l - 1) * Rsum (map (fun x => (x - mean l) ^ 2) l)).
Proof.
  intros [I S] H. pose proof (rsort_sorted l) as So. pose proof (rsort_perm l) as Pm. pose proof (mean_rsort l) as Mr. pose proof (len_rsort l) as Lr. destruct (rsort l) as [|x0 t] eqn:E; [discriminate|]. remember (x0 :: t) as s eqn:Es.
  assert (X : x0 = m).
  { apply Rle_antisym.
    - apply (Permutation_in _ (Permutation_sym Pm)) in I. rewrite Es in I, So. destruct (sorted_cons_inv _ _ So) as [_ B]. destruct I as [->|I]; [lra|now apply B].
    - apply S. apply (Permutation_in _ Pm). rewrite Es. now left. }
  unfold sw_sorted in H. cbv zeta in H. rewrite Es in H at 1. apply fin_inv in H as [_ ->]. rewrite Mr, Lr, X. rewrite (Rsum_map_perm _ _ _ Pm). reflexivity.
Qed.

(** ** extreme values *)
Lemma constant_mean l : l <> [] -> constant l -> forall x, In x l -> x = mean l.
Proof.
  intros N C x Hx. pose proof (len_pos l N). unfold mean. assert (Q : Rsum l = len l * x) by (unfold len; rewrite <- Rsum_map_const; rewrite <- (map_id l) at 1; apply Rsum_map_ext; intros; now apply C). rewrite Q. field. lra.
Qed.
Lemma zero_dev (f : R -> R) l : l <> [] -> (forall t, 0 <= f t) -> (forall t, f t = 0 <-> t = 0) -> (Rsum (map (fun x => f (x - mean l)) l) = 0 <-> constant l).
Proof.
  intros N F Z. split.
  - intros H. assert (A : forall x, In x l -> x = mean l).
    { intros x Hx. assert (Q : f (x - mean l) = 0). { apply (Rsum_zero (map (fun x => f (x - mean l)) l)); trivial; [|now apply (in_map (fun x => f (x - mean l)))]. intros y Hy. apply in_map_iff in Hy as (z & <- & _). apply F. } apply (proj1 (Z _)) in Q. lra. }
    intros x y Hx Hy. now rewrite (A x Hx), (A y Hy).
  - intros C. rewrite (Rsum_map_ext _ (fun _ => 0)); [rewrite Rsum_map_const; ring|]. intros x Hx. apply (proj2 (Z _)). rewrite <- (constant_mean l N C x Hx). ring.
Qed.
Lemma div_zero x d : d <> 0 -> (x / d = 0 <-> x = 0).
Proof. intros D. split; intros H; [|rewrite H; unfold Rdiv; ring]. replace x with (x / d * d) by (field; trivial). rewrite H. ring. Qed.
Lemma pt_zero l v : positive l -> pt l = Ok (Fin v) -> (v = 0 <-> constant l).
Proof.
  intros P H. assert (N : l <> []) by (intros ->; discriminate). pose proof (len_pos l N) as L. pose proof (mean_pos l N P) as M. unfold pt in H. cbv zeta in H. apply fin_inv in H as [_ ->].
  rewrite div_zero by nra. apply (zero_dev Rabs); trivial; [apply Rabs_pos|]. intros t. split; [|intros ->; apply Rabs_R0]. intros Q. destruct (Req_dec t 0); trivial. pose proof (Rabs_no_R0 t H). contradiction.
Qed.
Lemma we_zero l v : (2 <= length l)%nat -> positive l -> we l = Ok (Fin v) -> (v = 0 <-> constant l).
Proof.
  intros L2 P H. assert (N : l <> []) by (intros ->; discriminate). pose proof (len_ge2 l L2) as L. pose proof (Rsum_pos l N P) as S. apply we_form in H as ->; trivial.
  rewrite <- (zero_dev (fun t => t ^ 2) l N); [|intros; apply pow2_ge_0|apply sq_zero].
  split; intros H; [|rewrite H; unfold Rdiv; ring]. apply Rmult_integral in H as [H|H]; [apply div_zero in H; lra|]. apply div_zero in H; trivial. apply pow_nonzero. lra.
Qed.
Lemma pair_distances_zero l : pair_distances l = 0 <-> constant l.
Proof.
  unfold pair_distances. rewrite sum_pairs_twos. split.
  - intros H. assert (A : forall x y, In (x, y) (twos l) -> x = y).
    { intros x y I. assert (Q : Rabs (x - y) = 0). { apply (Rsum_zero (map (fun p => Rabs (fst p - snd p)) (twos l))); trivial; [|now apply (in_map (fun p => Rabs (fst p - snd p)) _ (x, y))]. intros z Hz. apply in_map_iff in Hz as (w & <- & _). apply Rabs_pos. }
      destruct (Req_dec (x - y) 0); [lra|]. pose proof (Rabs_no_R0 _ H0). contradiction. }
    clear H. induction l as [|a l IH]; [intros x y []|]. cbn [twos] in A.
    assert (B : forall y, In y l -> a = y) by (intros y Hy; apply A, in_or_app; left; now apply in_map).
    intros x y [->|Hx] [->|Hy]; trivial; [now apply B|symmetry; now apply B|]. transitivity a; [symmetry|]; now apply B.
  - intros C. rewrite (Rsum_map_ext _ (fun _ => 0)); [rewrite Rsum_map_const; ring|]. intros [x y] I. cbn [fst snd]. assert (J : In x l /\ In y l).
    { clear C. induction l as [|a l IH]; [destruct I|]. cbn [twos] in I. apply in_app_or in I as [I|I]; [apply in_map_iff in I as (z & E & Hz); inversion E; subst; split; [now left|now right]|]. destruct (IH I). split; now right. }
    rewrite (C x y) by tauto. replace (y - y) with 0 by ring. apply Rabs_R0.
Qed.
Lemma gini_zero l v : (2 <= length l)%nat -> positive l -> gini l = Ok (Fin v) -> (v = 0 <-> constant l).
Proof.
  intros L2 P H. assert (N : l <> []) by (intros ->; simpl in L2; lia). pose proof (len_ge2 l L2) as L. pose proof (Rsum_pos l N P) as S. rewrite gini_pairs in H by (trivial; lra). apply ok_inj in H as ->. rewrite div_zero by nra. apply pair_distances_zero.
Qed.
Lemma ww_one l v : positive l -> ww l = Ok (Fin v) -> 1 <= v /\ (v = 1 <-> constant l).
Proof.
  intros P H. pose proof (ww_form l v P H) as [(x & y & Hx & Hy & E) B]. pose proof (P x Hx) as X. pose proof (P y Hy) as Y.
  assert (A : 1 <= v) by (rewrite <- (Rinv_r y) by lra; apply B; exists y, y; tauto). split; [exact A|]. split.
  - intros V a b Ha Hb. subst v. pose proof (P a Ha) as Pa. pose proof (P b Hb) as Pb. pose proof (B (a / b) ltac:(exists a, b; tauto)) as Q1. pose proof (B (b / a) ltac:(exists b, a; tauto)) as Q2. rewrite V in *.
    apply Rle_antisym; [replace a with (a / b * b) by (field; lra)|replace b with (b / a * a) by (field; lra)]; nra.
  - intros C. rewrite E, (C x y Hx Hy). field. lra.
Qed.
Lemma relative_constant l : l <> [] -> positive l -> ((forall y, In y (relative l) -> y = 1) <-> constant l).
Proof.
  intros N P. pose proof (mean_pos l N P) as M. split.
  - intros H. assert (A : forall x, In x l -> x = mean l) by (intros x Hx; specialize (H (x / mean l) (in_map (fun x => x / mean l) l x Hx)); replace x with (x / mean l * mean l) by (field; lra); rewrite H; ring). intros x y Hx Hy. now rewrite (A x Hx), (A y Hy).
  - intros C y Hy. apply in_map_iff in Hy as (x & <- & Hx). rewrite <- (constant_mean l N C x Hx). pose proof (P x Hx). field. lra.
Qed.
Lemma ep_least l v : positive l -> ep l = Ok (Fin v) -> sqrt (48 * len l) * (exp (- 1) - 1 / 2) <= v /\ (v = sqrt (48 * len l) * (exp (- 1) - 1 / 2) <-> constant l).
Proof.
  intros P H. assert (N : l <> []) by (intros ->; discriminate). pose proof (len_pos l N) as L. pose proof (mean_pos l N P) as M. apply ep_form in H as ->; trivial.
  assert (S : 0 < sqrt (48 * len l)) by (apply sqrt_lt_R0; lra). assert (LR : len (relative l) = len l) by (unfold relative; apply len_map).
  set (g := fun y => exp (- y) - exp (- 1) * (2 - y)). assert (G : forall y, 0 <= g y /\ (g y = 0 <-> y = 1)).
  { intros y. unfold g. replace (exp (- y)) with (exp (- 1) * exp (1 - y)) by (rewrite <- exp_plus; f_equal; ring). pose proof (exp_pos (- 1)). pose proof (exp_ineq1_le (1 - y)). split; [nra|]. split.
    - intros Q. destruct (Req_dec (1 - y) 0); [lra|]. pose proof (exp_ineq1 (1 - y) H1). nra.
    - intros ->. replace (1 - 1) with 0 by ring. rewrite exp_0. ring. }
  assert (E : mean (map (fun y => exp (- y)) (relative l)) - exp (- 1) = Rsum (map g (relative l)) / len l).
  { unfold mean at 1. rewrite len_map, LR. unfold g. rewrite Rsum_map_minus, Rsum_map_scal, Rsum_map_minus, Rsum_map_const, map_id, relative_sum by (trivial; lra). fold (len (relative l)). rewrite LR. field. lra. }
  assert (NN : 0 <= Rsum (map g (relative l))) by (apply Rsum_map_nonneg; intros; apply G).
  assert (NQ : 0 <= Rsum (map g (relative l)) / len l) by (apply Rmult_le_pos; [trivial|left; now apply Rinv_0_lt_compat]). split; [apply Rmult_le_compat_l; lra|]. rewrite <- relative_constant by trivial. split.
  - intros Q. apply Rmult_eq_reg_l in Q; [|lra]. assert (Z : Rsum (map g (relative l)) = 0) by (apply (div_zero _ (len l)); lra).
    intros y Hy. apply G. apply (Rsum_zero (map g (relative l))); trivial; [|now apply in_map]. intros z Hz. apply in_map_iff in Hz as (w & <- & _). apply G.
  - intros A. f_equal. assert (Z : Rsum (map g (relative l)) = 0) by (rewrite (Rsum_map_ext _ (fun _ => 0)); [rewrite Rsum_map_const; ring|]; intros y Hy; apply G; now apply A). rewrite Z in E. unfold Rdiv in E. lra.
Qed.
Lemma atk_zero Gamma p l v : positive l -> 0 < Gamma (1 + p) -> atk Gamma p l = Ok (Fin v) -> 0 <= v /\ (v = 0 <-> power_mean p l / mean l = Rpower (Gamma (1 + p)) (1 / p)).
Proof.
  intros P G H. assert (N : l <> []) by (intros ->; discriminate). pose proof (len_pos l N) as L. apply atk_form in H as ->; trivial. assert (S : 0 < sqrt (len l)) by (now apply sqrt_lt_R0). split; [apply Rmult_le_pos; [lra|apply Rabs_pos]|]. split.
  - intros H. apply Rmult_integral in H as [H|H]; [lra|]. destruct (Req_dec (power_mean p l / mean l - Rpower (Gamma (1 + p)) (1 / p)) 0) as [|Q]; [lra|]. pose proof (Rabs_no_R0 _ Q). contradiction.
  - intros ->. rewrite Rminus_diag_eq by reflexivity. rewrite Rabs_R0. ring.
Qed.
Lemma eps_zero l v : positive l -> eps_sorted (rsort l) = Ok (Fin v) -> 0 <= v /\ (v = 0 <-> constant (spacings l)).
Proof.
  intros P H. apply eps_form in H as (D & N & ->); trivial. pose proof (len_pos l N) as L.
  assert (K : 0 < 1 + (len l + 1) / (6 * len l)) by (assert (0 < (len l + 1) / (6 * len l)) by (apply Rdiv_lt_0_compat; lra); lra). assert (LS : len (spacings l) = len l) by (unfold len; now rewrite spacings_length).
  assert (NS : spacings l <> []) by (intros E; apply N; apply length_zero_iff_nil; rewrite <- spacings_length, E; reflexivity). destruct (am_gm (spacings l) NS D) as [A B]. rewrite LS in *. split; [apply Rmult_le_pos; [lra|left; now apply Rinv_0_lt_compat]|]. rewrite div_zero by lra. rewrite <- B. lra.
Qed.
Lemma fz_zero l v : positive l -> fz_sorted (rsort l) = Ok (Fin v) -> 0 <= v /\ (v = 0 <-> forall i, (i < length l)%nat -> fitted_exponential l (S i) = (INR i + 1 / 2) / len l).
Proof.
  intros P H. assert (N : l <> []) by (intros ->; discriminate). pose proof (len_pos l N) as L. apply fz_form in H as ->; trivial. assert (S : 0 < / sqrt (len l)) by (apply Rinv_0_lt_compat, sqrt_lt_R0; trivial).
  assert (NN : 0 <= Rsum (map (fun i => Rabs (fitted_exponential l (Datatypes.S i) - (INR i + 1 / 2) / len l)) (seq 0 (length l)))) by (apply Rsum_map_nonneg; intros; apply Rabs_pos). split; [apply Rmult_le_pos; lra|]. split.
  - intros H i Hi. apply Rmult_integral in H as [H|H]; [lra|]. assert (Q : Rabs (fitted_exponential l (Datatypes.S i) - (INR i + 1 / 2) / len l) = 0).
    { apply (Rsum_zero _ ltac:(intros z Hz; apply in_map_iff in Hz as (w & <- & _); apply Rabs_pos) H). apply (in_map (fun i => Rabs (fitted_exponential l (Datatypes.S i) - (INR i + 1 / 2) / len l))). apply in_seq. lia. }
    destruct (Req_dec (fitted_exponential l (Datatypes.S i) - (INR i + 1 / 2) / len l) 0); [lra|]. pose proof (Rabs_no_R0 _ H0). contradiction.
  - intros H. rewrite (Rsum_map_ext _ (fun _ => 0)); [rewrite Rsum_map_const; ring|]. intros i Hi. apply in_seq in Hi. rewrite H by lia. rewrite Rminus_diag_eq by reflexivity. apply Rabs_R0.
Qed.
(** Shapiro-Wilk *)
Lemma constant_repeat (l : list R) : constant l -> exists x, l = repeat x (length l).
Proof.
  destruct l as [|a l]; intros C; [now exists 0|]. exists a. symmetry. change (a :: l) with ([a] ++ l) in C. assert (A : forall y, In y (a :: l) -> y = a) by (intros y Hy; apply C; [exact Hy|now left]). clear C.
  assert (Q : forall m : list R, (forall y, In y m -> y = a) -> repeat a (length m) = m) by (intros m; induction m as [|b m IH]; intros Hm; [reflexivity|]; cbn [length repeat]; rewrite IH by (intros; apply Hm; now right); now rewrite (Hm b (or_introl eq_refl))). now apply Q.
Qed.
Lemma repeat_constant (x : R) k : constant (repeat x k).
Proof. intros a b Ha Hb. apply repeat_spec in Ha. apply repeat_spec in Hb. congruence. Qed.
Lemma sw_split x0 t : t <> [] -> let l := x0 :: t in
  (len l - 1) * Rsum (map (fun x => (x - mean l) ^ 2) l) = (len l - 1) * Rsum (map (fun x => (x - mean t) ^ 2) t) + len l * (mean l - x0) ^ 2.
Proof.
  intros N l. pose proof (len_pos t N) as L. assert (E : len l = len t + 1) by (unfold l, len; cbn [length]; rewrite S_INR; ring).
  assert (Ml : mean l = (x0 + len t * mean t) / (len t + 1)) by (unfold mean at 1; rewrite E; unfold l; cbn [Rsum]; unfold mean; field; lra).
  change (Rsum (map (fun x => (x - mean l) ^ 2) l)) with ((x0 - mean l) ^ 2 + Rsum (map (fun x => (x - mean l) ^ 2) t)). rewrite (Rsum_map_ext (fun x => (x - mean l) ^ 2) (fun x => ((x - mean t) ^ 2 + (2 * (mean t - mean l)) * (x - mean t)) + (mean t - mean l) ^ 2)) by (intros; ring).
  rewrite !Rsum_map_plus, Rsum_map_scal, mean_dev_sum, Rsum_map_const by trivial. fold (len t). rewrite E, Ml. set (Q := Rsum _). field. lra.
Qed.
Lemma sw_one l v : sw_sorted (rsort l) = Ok (Fin v) -> v <= 1 /\ (v = 1 <-> exists m x, Permutation l (m :: repeat x (length l - 1)) /\ m < x).
Proof.
  intros H. pose proof (rsort_perm l) as Pm. pose proof (Permutation_length Pm) as Lp. pose proof (rsort_sorted l) as So. destruct (rsort l) as [|x0 t] eqn:Er; [discriminate|].
  unfold sw_sorted in H. cbv zeta in H. apply fin_inv in H as [B ->]. set (s := x0 :: t) in *. destruct (Reqb_spec ((len s - 1) * Rsum (map (fun x => (x - mean s) ^ 2) s)) 0) as [|Dn]; [discriminate|]. clear B.
  assert (N : t <> []) by (intros E; apply Dn; unfold s; rewrite E; unfold len; simpl; ring). pose proof (len_pos t N) as L. assert (Ls : len s = len t + 1) by (unfold s, len; cbn [length]; rewrite S_INR; ring).
  pose proof (sw_split x0 t N) as Sp. cbv zeta in Sp. fold s in Sp. set (D := (len s - 1) * Rsum (map (fun x => (x - mean s) ^ 2) s)) in *.
  assert (Dp : 0 < D) by (assert (0 <= D); [apply Rmult_le_pos; [lra|apply Rsum_map_nonneg; intros; apply pow2_ge_0]|lra]). set (T := Rsum (map (fun x => (x - mean t) ^ 2) t)) in *. assert (Tn : 0 <= T) by (apply Rsum_map_nonneg; intros; apply pow2_ge_0).
  assert (V : len s * (mean s - x0) ^ 2 / D = 1 - (len s - 1) * T / D) by (replace (len s * (mean s - x0) ^ 2) with (D - (len s - 1) * T) by lra; field; lra).
  assert (TD : 0 <= (len s - 1) * T / D) by (apply Rmult_le_pos; [apply Rmult_le_pos; lra|left; now apply Rinv_0_lt_compat]). split; [lra|].
  assert (K : len s * (mean s - x0) ^ 2 / D = 1 <-> T = 0).
  { rewrite V. split; intros Q; [|rewrite Q; unfold Rdiv; ring]. assert (Z : (len s - 1) * T / D = 0) by lra. apply div_zero in Z; [|lra]. apply Rmult_integral in Z as [Z|Z]; lra. }
  rewrite K. unfold T. rewrite (zero_dev (fun z => z ^ 2) t N); [|intros; apply pow2_ge_0|apply sq_zero].
  assert (Lt : (length l - 1)%nat = length t) by (rewrite <- Lp; unfold s; cbn [length]; lia). rewrite Lt. split.
  - intros C. destruct (constant_repeat t C) as (x & E). exists x0, x. split; [rewrite <- E; now symmetry|].
    assert (Hx : In x t) by (destruct t as [|b t']; [congruence|]; cbn [length repeat] in E; injection E as E1 _; left; exact E1).
    destruct (sorted_cons_inv _ _ So) as [_ A]. destruct (A x Hx) as [|Eq]; [trivial|]. exfalso. apply Dn. unfold D. assert (Cs : constant s) by (intros a b Ha Hb; assert (W : forall c, In c s -> c = x) by (intros c [Hc|Hc]; [congruence|now apply C]); now rewrite (W a Ha), (W b Hb)).
    apply Rmult_eq_0_compat. right. apply (zero_dev (fun z => z ^ 2) s); trivial; [discriminate|intros; apply pow2_ge_0|apply sq_zero].
  - intros (m & x & Hp & Hm). assert (P2 : Permutation s (m :: repeat x (length t))) by (rewrite Pm; exact Hp). assert (X0 : x0 = m).
    { assert (I : In m s) by (apply (Permutation_in _ (Permutation_sym P2)); now left). destruct (sorted_cons_inv _ _ So) as [_ A]. destruct I as [|I]; [trivial|]. specialize (A m I). assert (J : In x0 (m :: repeat x (length t))) by (apply (Permutation_in _ P2); now left). destruct J as [|J]; [congruence|]. apply repeat_spec in J. lra. }
    subst m. apply Permutation_cons_inv in P2. intros a b Ha Hb. apply (repeat_constant x (length t)); now apply (Permutation_in _ P2).
Qed.
