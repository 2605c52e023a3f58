(** Maximum likelihood: optimality of the closed forms. *)
From Coq Require Import ZArith.
From Verif Require Import Base NormModel MleModel MleSpec Analysis EdfProofs NormProofs NormSymProofs NormRangeProofs NormFiniteProofs NormBoundProofs ExpRangeProofs.
From Coq Require Import Lra Lia.
Local Open Scope R_scope.

Lemma lik_ext f g l : (forall x, In x l -> f x = g x) -> likelihood f l = likelihood g l.
Proof.
  induction l as [|x l IH]; intros H; simpl; [reflexivity|].
  rewrite (H x) by (simpl; auto). rewrite IH; [reflexivity|]. intros; apply H; simpl; auto.
Qed.
Lemma lik_exp f l : (forall x, In x l -> 0 < f x) -> likelihood f l = exp (Rsum (map (fun x => ln (f x)) l)).
Proof.
  induction l as [|x l IH]; intros H; simpl; [now rewrite exp_0|].
  rewrite exp_plus, exp_ln by (apply H; simpl; auto). rewrite IH; [reflexivity|]. intros; apply H; simpl; auto.
Qed.
Lemma lik_nonneg f l : (forall x, In x l -> 0 <= f x) -> 0 <= likelihood f l.
Proof.
  induction l as [|x l IH]; intros H; simpl; [lra|].
  apply Rmult_le_pos; [apply H; simpl; auto|]. apply IH; intros; apply H; simpl; auto.
Qed.
Lemma lik_zero f l x : In x l -> f x = 0 -> likelihood f l = 0.
Proof.
  induction l as [|y l IH]; simpl; intros Hx H; [destruct Hx|]. destruct Hx as [->|Hx]; [rewrite H; lra|rewrite IH by trivial; lra].
Qed.
Lemma lik_bound f l S : (forall x, In x l -> 0 <= f x) ->
  ((forall x, In x l -> 0 < f x) -> Rsum (map (fun x => ln (f x)) l) <= S) -> likelihood f l <= exp S.
Proof.
  intros Hn H.
  assert (D : (forall x, In x l -> 0 < f x) \/ exists x, In x l /\ f x = 0).
  { clear H. induction l as [|x l IH]; [left; simpl; tauto|].
    destruct IH as [IH|(y & Hy & E)]; [intros; apply Hn; simpl; auto| |right; exists y; simpl; auto].
    destruct (Req_dec (f x) 0) as [E|E]; [right; exists x; simpl; auto|].
    left. intros y [<-|Hy]; [|auto]. specialize (Hn x (or_introl eq_refl)). lra. }
  destruct D as [P|(x & Hx & E)].
  - rewrite lik_exp by trivial. destruct (Rle_lt_or_eq_dec _ _ (H P)) as [L|L]; [left; now apply exp_increasing|now rewrite L; right].
  - rewrite (lik_zero f l x) by trivial. left; apply exp_pos.
Qed.
Lemma Rsum_const_len {A} c (l : list A) : Rsum (map (fun _ => c) l) = len l * c.
Proof. apply Rsum_map_const. Qed.
Lemma ln_ratio_le a b : 0 < a -> 0 < b -> ln a - ln b <= a / b - 1.
Proof. intros Ha Hb. rewrite <- ln_quot by trivial. apply ln_le_sub1. now apply Rdiv_lt_0_compat. Qed.
Lemma exp_len_ln (l : list R) x : 0 < x -> exp (- len l * ln x) = likelihood (fun _ => 1 / x) l.
Proof.
  intros Hx. rewrite lik_exp by (intros; now apply Rdiv_lt_0_compat; lra).
  rewrite Rsum_const_len. f_equal. unfold Rdiv. rewrite Rmult_1_l, ln_Rinv by trivial. lra.
Qed.

(** *** uniform *)
Lemma minl_le_maxl l : l <> [] -> Rminl 0 l <= Rmaxl 0 l.
Proof. intros H. apply Rmaxl_ge. now apply Rminl_in. Qed.
Lemma min_eq_max_iff l : l <> [] -> (Rminl 0 l = Rmaxl 0 l <-> forall x y, In x l -> In y l -> x = y).
Proof.
  intros Hne; split.
  - intros E x y Hx Hy. pose proof (Rminl_le 0 l x Hx). pose proof (Rminl_le 0 l y Hy).
    pose proof (Rmaxl_ge 0 l x Hx). pose proof (Rmaxl_ge 0 l y Hy). lra.
  - intros H. apply H; [now apply Rminl_in|now apply Rmaxl_in].
Qed.
Lemma uniform_opt c l : (exists x y, In x l /\ In y l /\ x <> y) ->
  exists v, lf_uniform c l = Ok (Val v) /\
  is_maximum (fun p : R * R => fst p < snd p) (fun p => likelihood (uniform_pdf (fst p) (snd p)) l) v.
Proof.
  intros (x & y & Hx & Hy & N).
  assert (Hne : l <> []) by (intros ->; destruct Hx).
  assert (E : Rminl 0 l <> Rmaxl 0 l) by (intros E; apply N; now apply (proj1 (min_eq_max_iff l Hne) E)).
  pose proof (minl_le_maxl l Hne) as LE.
  set (a := Rminl 0 l) in *. set (b := Rmaxl 0 l) in *.
  exists (exp (- len l * ln (b - a))). split.
  { unfold lf_uniform. destruct l as [|z l']; [congruence|]. fold a b. now rewrite (proj2 (Reqb_false a b) E). }
  rewrite exp_len_ln by lra. split.
  - exists (a, b). cbn [fst snd]. split; [lra|]. apply lik_ext. intros z Hz. unfold uniform_pdf.
    rewrite (proj2 (Rleb_true a z)) by (now apply Rminl_le). rewrite (proj2 (Rleb_true z b)) by (now apply Rmaxl_ge). reflexivity.
  - intros (a', b') Hp. cbn [fst snd] in *. rewrite <- exp_len_ln by lra. apply lik_bound.
    + intros z _. unfold uniform_pdf. destruct (Rleb a' z && Rleb z b'); [|lra]. left. apply Rdiv_lt_0_compat; lra.
    + intros P.
      assert (I : forall z, In z l -> a' <= z <= b').
      { intros z Hz. specialize (P z Hz). unfold uniform_pdf in P. destruct (Rleb_spec a' z), (Rleb_spec z b'); simpl in P; lra. }
      assert (a' <= a) by (apply I; now apply Rminl_in). assert (b <= b') by (apply I; now apply Rmaxl_in).
      rewrite (Rsum_map_ext _ (fun _ => - ln (b' - a'))).
      * rewrite Rsum_const_len. assert (ln (b - a) <= ln (b' - a')) by (apply ln_le; lra). pose proof (len_pos l Hne). nra.
      * intros z Hz. specialize (I z Hz). unfold uniform_pdf. rewrite (proj2 (Rleb_true a' z)), (proj2 (Rleb_true z b')) by lra.
        cbn [andb]. unfold Rdiv. rewrite Rmult_1_l, ln_Rinv by lra. reflexivity.
Qed.

(** *** normal *)
Lemma sqrt_2pi_pos v : 0 < v -> 0 < sqrt (2 * PI * v).
Proof. intros. apply sqrt_lt_R0. pose proof PI_RGT_0. nra. Qed.
Lemma ln_normal mu v x : 0 < v -> ln (normal_pdf mu v x) = - (x - mu) ^ 2 / (2 * v) - ln (2 * PI * v) / 2.
Proof.
  intros Hv. unfold normal_pdf. pose proof (sqrt_2pi_pos v Hv) as S. rewrite ln_quot; [|apply exp_pos|exact S]. rewrite ln_exp.
  pose proof PI_RGT_0. assert (0 < 2 * PI * v) by nra.
  assert (E : ln (2 * PI * v) = 2 * ln (sqrt (2 * PI * v))).
  { rewrite <- (sqrt_sqrt (2 * PI * v)) at 1 by lra. rewrite ln_mult by trivial. lra. }
  lra.
Qed.
Lemma normal_pos mu v x : 0 < v -> 0 < normal_pdf mu v x.
Proof. intros. unfold normal_pdf. apply Rdiv_lt_0_compat; [apply exp_pos|now apply sqrt_2pi_pos]. Qed.
Lemma sum_ln_normal mu v l : 0 < v -> Rsum (map (fun x => ln (normal_pdf mu v x)) l)
  = - Rsum (map (fun x => (x - mu) ^ 2) l) / (2 * v) - len l * (ln (2 * PI * v) / 2).
Proof.
  intros Hv. rewrite (Rsum_map_ext _ (fun x => (- / (2 * v)) * (x - mu) ^ 2 - ln (2 * PI * v) / 2)).
  - rewrite Rsum_map_minus, Rsum_map_scal, Rsum_const_len. field. lra.
  - intros x _. rewrite ln_normal by trivial. field. lra.
Qed.
Lemma ssq_min l m : ssq l <= Rsum (map (fun x => (x - m) ^ 2) l).
Proof.
  destruct l as [|z l']; [unfold ssq; simpl; lra|]. set (l := z :: l').
  assert (E : Rsum (map (fun x => (x - m) ^ 2) l) = ssq l + len l * (mean l - m) ^ 2).
  { rewrite (Rsum_map_ext _ (fun x => (x - mean l) ^ 2 + (2 * (mean l - m) * (x - mean l) + (mean l - m) ^ 2))) by (intros; ring).
    rewrite Rsum_map_plus, Rsum_map_plus, Rsum_map_scal, Rsum_const_len. rewrite mean_dev_sum by discriminate. fold (ssq l). ring. }
  rewrite E. pose proof (len_pos l ltac:(discriminate)). pose proof (Rmult_le_pos (len l) ((mean l - m) ^ 2) ltac:(lra) (pow2_ge_0 _)). lra.
Qed.
Lemma normal_log_bound l m s : l <> [] -> 0 < s -> 0 < ssq l ->
  - Rsum (map (fun x => (x - m) ^ 2) l) / (2 * s) - len l * (ln (2 * PI * s) / 2)
  <= - ssq l / (2 * (ssq l / len l)) - len l * (ln (2 * PI * (ssq l / len l)) / 2).
Proof.
  intros Hne Hs V. pose proof (len_pos l Hne) as L. pose proof PI_RGT_0 as PIp. set (v := ssq l / len l).
  assert (Hv : 0 < v) by (now apply Rdiv_lt_0_compat). assert (Ev : ssq l = v * len l) by (unfold v; field; lra).
  rewrite !(ln_mult (2 * PI)) by nra. pose proof (ln_ratio_le v s Hv Hs) as K. pose proof (ssq_min l m) as M.
  assert (- Rsum (map (fun x => (x - m) ^ 2) l) / (2 * s) <= - ssq l / (2 * s)).
  { unfold Rdiv. apply Rmult_le_compat_r; [left; apply Rinv_0_lt_compat; lra|lra]. }
  rewrite Ev in *. replace (- (v * len l) / (2 * v)) with (- len l / 2) by (field; lra).
  assert (- (v * len l) / (2 * s) = - len l / 2 * (v / s)) by (field; lra). nra.
Qed.
Lemma normal_opt c l : (exists x y, In x l /\ In y l /\ x <> y) ->
  exists v, lf_normal c l = Ok (Val v) /\
  is_maximum (fun p : R * R => 0 < snd p) (fun p => likelihood (normal_pdf (fst p) (snd p)) l) v.
Proof.
  intros (x & y & Hx & Hy & N). assert (Hne : l <> []) by (intros ->; destruct Hx).
  assert (V : 0 < ssq l) by (now apply (two_values l x y)).
  pose proof (len_pos l Hne) as L. assert (Hv : 0 < ssq l / len l) by (now apply Rdiv_lt_0_compat).
  exists (likelihood (normal_pdf (mean l) (ssq l / len l)) l). split.
  - unfold lf_normal. destruct l as [|z l'] eqn:El; [congruence|]. rewrite <- El in *. fold (mean l). fold (ssq l).
    rewrite (proj2 (Reqb_false _ 0)) by lra. do 2 f_equal. rewrite lik_exp by (intros; now apply normal_pos).
    f_equal. apply Rsum_map_ext. intros u _. f_equal. unfold normal_pdf. field. pose proof (sqrt_2pi_pos _ Hv). lra.
  - split; [exists (mean l, ssq l / len l); cbn [fst snd]; split; [exact Hv|reflexivity]|].
    intros (m, s) Hs. cbn [fst snd] in *. rewrite (lik_exp (normal_pdf (mean l) _)) by (intros; now apply normal_pos).
    apply lik_bound; [intros; left; now apply normal_pos|]. intros _. rewrite !sum_ln_normal by trivial. fold (ssq l).
    now apply normal_log_bound.
Qed.

(** *** log-normal *)
Lemma positive_any l : (forall x, In x l -> 0 < x) -> any_nonpos l = false.
Proof.
  intros H. unfold any_nonpos. destruct (existsb _ l) eqn:E; [|reflexivity]. apply existsb_exists in E.
  destruct E as (x & Hx & Hb). apply Rleb_true in Hb. specialize (H x Hx). lra.
Qed.
Lemma sum_ln_lognormal mu v l : 0 < v -> (forall x, In x l -> 0 < x) -> Rsum (map (fun x => ln (lognormal_pdf mu v x)) l)
  = Rsum (map (fun x => ln (normal_pdf mu v x)) (map ln l)) - Rsum (map ln l).
Proof.
  intros Hv Hp. rewrite map_map, <- Rsum_map_minus. apply Rsum_map_ext. intros x Hx. specialize (Hp x Hx). unfold lognormal_pdf.
  rewrite (proj2 (Rltb_true 0 x) Hp). apply ln_quot; [now apply normal_pos|exact Hp].
Qed.
Lemma lognormal_pos mu v x : 0 < v -> 0 < x -> 0 < lognormal_pdf mu v x.
Proof. intros Hv Hx. unfold lognormal_pdf. rewrite (proj2 (Rltb_true 0 x) Hx). apply Rdiv_lt_0_compat; [now apply normal_pos|exact Hx]. Qed.
Lemma lognormal_opt c l : (forall x, In x l -> 0 < x) -> (exists x y, In x l /\ In y l /\ x <> y) ->
  exists v, lf_lognormal c l = Ok (Val v) /\
  is_maximum (fun p : R * R => 0 < snd p) (fun p => likelihood (lognormal_pdf (fst p) (snd p)) l) v.
Proof.
  intros Hp (x & y & Hx & Hy & N). assert (Hne : l <> []) by (intros ->; destruct Hx). set (d := map ln l).
  assert (Hned : d <> []) by (unfold d; destruct l; [congruence|discriminate]).
  assert (V : 0 < ssq d) by (apply (two_values d (ln x) (ln y)); [now apply in_map|now apply in_map|intros E; apply N, ln_inv; auto]).
  pose proof (len_pos l Hne) as L. assert (El : len d = len l) by (apply len_map).
  assert (Hv : 0 < ssq d / len d) by (rewrite El; now apply Rdiv_lt_0_compat).
  exists (likelihood (lognormal_pdf (mean d) (ssq d / len d)) l). split.
  - unfold lf_lognormal. rewrite (positive_any l Hp), match_ne by trivial. fold d. rewrite <- El.
    fold (mean d). fold (ssq d). rewrite (proj2 (Reqb_false _ 0)) by lra. do 2 f_equal.
    rewrite lik_exp by (intros; apply lognormal_pos; auto). f_equal. apply Rsum_map_ext. intros u Hu. f_equal. unfold lognormal_pdf, normal_pdf.
    rewrite (proj2 (Rltb_true 0 u) (Hp u Hu)). field. pose proof (sqrt_2pi_pos _ Hv). specialize (Hp u Hu). lra.
  - split; [exists (mean d, ssq d / len d); cbn [fst snd]; split; [exact Hv|reflexivity]|].
    intros (m, s) Hs. cbn [fst snd] in *. rewrite (lik_exp (lognormal_pdf (mean d) _)) by (intros; apply lognormal_pos; auto).
    apply lik_bound; [intros; left; apply lognormal_pos; auto|]. intros _. rewrite !sum_ln_lognormal by trivial. fold d.
    rewrite !sum_ln_normal by trivial. fold (ssq d). pose proof (normal_log_bound d m s Hned Hs V). lra.
Qed.

(** *** exponential *)
Lemma not_any_neg l : (forall x, In x l -> 0 <= x) -> any_neg l = false.
Proof.
  intros H. unfold any_neg. destruct (existsb _ l) eqn:E; [|reflexivity]. apply existsb_exists in E.
  destruct E as (x & Hx & Hb). apply Rltb_true in Hb. specialize (H x Hx). lra.
Qed.
Lemma Rsum_pos_exists l : (forall x, In x l -> 0 <= x) -> (exists x, In x l /\ 0 < x) -> 0 < Rsum l.
Proof. intros Hn (x & Hx & P). pose proof (Rsum_in_le l x Hn Hx). lra. Qed.
Lemma all_equal_false c v l x : In x l -> x <> v -> all_equal c v l = false.
Proof.
  intros Hx N. destruct c; simpl; [reflexivity| |];
  (destruct (forallb _ l) eqn:E; [rewrite forallb_forall in E; specialize (E x Hx); apply Reqb_true in E; contradiction|reflexivity]).
Qed.
Lemma sum_ln_exponential r l : 0 < r -> (forall x, In x l -> 0 <= x) ->
  Rsum (map (fun x => ln (exponential_pdf r x)) l) = len l * ln r - r * Rsum l.
Proof.
  intros Hr Hn. rewrite (Rsum_map_ext _ (fun x => ln r - r * x)).
  - rewrite Rsum_map_minus, Rsum_map_scal, Rsum_const_len, map_id. ring.
  - intros x Hx. unfold exponential_pdf. rewrite (proj2 (Rleb_true 0 x) (Hn x Hx)). rewrite ln_mult by (trivial; apply exp_pos). rewrite ln_exp. lra.
Qed.
(** n ln r - r S is largest at r = n / S *)
Lemma rate_bound n S r : 0 < n -> 0 < S -> 0 < r -> n * ln r - r * S <= n * ln (n / S) - n / S * S.
Proof.
  intros Hn HS Hr. assert (0 < n / S) by (now apply Rdiv_lt_0_compat). pose proof (ln_ratio_le r (n / S) Hr H) as K.
  replace (n / S * S) with n by (field; lra). replace (r * S) with (n * (r / (n / S))) by (field; lra). nra.
Qed.
Lemma exponential_opt c l : (forall x, In x l -> 0 <= x) -> (exists x, In x l /\ 0 < x) ->
  exists v, lf_exponential c l = Ok (Val v) /\
  is_maximum (fun r => 0 < r) (fun r => likelihood (exponential_pdf r) l) v.
Proof.
  intros Hn (x & Hx & P). assert (Hne : l <> []) by (intros ->; destruct Hx). pose proof (len_pos l Hne) as L.
  assert (S : 0 < Rsum l) by (apply Rsum_pos_exists; eauto). assert (R0 : 0 < len l / Rsum l) by (now apply Rdiv_lt_0_compat).
  assert (PP : forall r y, 0 < r -> In y l -> 0 < exponential_pdf r y).
  { intros r y Hr Hy. unfold exponential_pdf. rewrite (proj2 (Rleb_true 0 y) (Hn y Hy)). apply Rmult_lt_0_compat; [trivial|apply exp_pos]. }
  exists (likelihood (exponential_pdf (len l / Rsum l)) l). split.
  - unfold lf_exponential. rewrite not_any_neg by trivial. rewrite (all_equal_false c 0 l x) by (trivial; lra).
    rewrite (proj2 (Reqb_false _ 0)) by lra. do 2 f_equal. rewrite lik_exp by auto. f_equal. apply Rsum_map_ext. intros u Hu.
    unfold exponential_pdf. now rewrite (proj2 (Rleb_true 0 u) (Hn u Hu)).
  - split; [exists (len l / Rsum l); auto|]. intros r Hr. rewrite (lik_exp (exponential_pdf (len l / Rsum l))) by auto.
    apply lik_bound; [intros; left; auto|]. intros _. rewrite !sum_ln_exponential by trivial. now apply rate_bound.
Qed.

(** *** Pareto *)
Lemma ln_pareto al xm x : 0 < al -> 0 < xm -> xm <= x -> ln (pareto_pdf al xm x) = ln al + al * ln xm - (al + 1) * ln x.
Proof.
  intros Ha Hm Hx. unfold pareto_pdf. rewrite (proj2 (Rleb_true xm x) Hx). unfold Rpower.
  rewrite ln_quot; [|apply Rmult_lt_0_compat; [trivial|apply exp_pos]|apply exp_pos]. rewrite ln_mult by (trivial; apply exp_pos). now rewrite !ln_exp.
Qed.
Lemma pareto_pos al xm x : 0 < al -> 0 < xm -> xm <= x -> 0 < pareto_pdf al xm x.
Proof.
  intros Ha Hm Hx. unfold pareto_pdf. rewrite (proj2 (Rleb_true xm x) Hx). unfold Rpower.
  apply Rdiv_lt_0_compat; [apply Rmult_lt_0_compat; [trivial|apply exp_pos]|apply exp_pos].
Qed.
Lemma sum_ln_pareto al xm l : 0 < al -> 0 < xm -> (forall x, In x l -> xm <= x) ->
  Rsum (map (fun x => ln (pareto_pdf al xm x)) l) = len l * ln al + len l * al * ln xm - (al + 1) * Rsum (map ln l).
Proof.
  intros Ha Hm H. rewrite (Rsum_map_ext _ (fun x => (ln al + al * ln xm) - (al + 1) * ln x)).
  - rewrite Rsum_map_minus, Rsum_map_scal, Rsum_const_len. ring.
  - intros x Hx. apply ln_pareto; auto.
Qed.
Lemma pareto_opt c l : c <> KList -> (forall x, In x l -> 0 < x) -> (exists x y, In x l /\ In y l /\ x <> y) ->
  exists v, lf_pareto c l = Ok (Val v) /\
  is_maximum (fun p : R * R => 0 < fst p /\ 0 < snd p) (fun p => likelihood (pareto_pdf (fst p) (snd p)) l) v.
Proof.
  intros Hc Hp (x & y & Hx & Hy & N). assert (Hne : l <> []) by (intros ->; destruct Hx). pose proof (len_pos l Hne) as L.
  set (xm := Rminl 0 l). assert (Hm : 0 < xm) by (apply Hp; now apply Rminl_in).
  assert (Hmin : forall u, In u l -> xm <= u) by (intros; now apply Rminl_le).
  set (s := Rsum (map (fun x => ln (x / xm)) l)).
  assert (Es : s = Rsum (map ln l) - len l * ln xm).
  { unfold s. rewrite (Rsum_map_ext _ (fun u => ln u - ln xm)) by (intros u Hu; apply ln_quot; auto). now rewrite Rsum_map_minus, Rsum_const_len. }
  assert (Hs : 0 < s).
  { unfold s. apply Rsum_pos_exists.
    - intros e He. apply in_map_iff in He. destruct He as (u & <- & Hu). rewrite ln_quot by auto. pose proof (ln_le xm u Hm (Hmin u Hu)). lra.
    - assert (exists u, In u l /\ xm < u) as (u & Hu & Lu).
      { destruct (Rle_lt_or_eq_dec _ _ (Hmin x Hx)) as [?|E1]; [eauto|]. destruct (Rle_lt_or_eq_dec _ _ (Hmin y Hy)) as [?|E2]; [eauto|]. congruence. }
      exists (ln (u / xm)). split; [apply in_map_iff; eauto|]. rewrite ln_quot by auto. pose proof (ln_increasing xm u Hm Lu). lra. }
  assert (Ha : 0 < len l / s) by (now apply Rdiv_lt_0_compat).
  exists (likelihood (pareto_pdf (len l / s) xm) l). split.
  - unfold lf_pareto. rewrite (positive_any l Hp), match_ne by trivial. fold xm. fold s.
    rewrite (proj2 (Reqb_false s 0)) by lra. rewrite lik_exp by (intros; apply pareto_pos; auto). rewrite sum_ln_pareto by auto. destruct c; [congruence|reflexivity..].
  - split; [exists (len l / s, xm); auto|]. intros (al, xm') (Hal & Hxm). cbn [fst snd] in *.
    rewrite (lik_exp (pareto_pdf (len l / s) xm)) by (intros; apply pareto_pos; auto).
    assert (NN : forall u, In u l -> 0 <= pareto_pdf al xm' u).
    { intros u Hu. destruct (Rle_dec xm' u) as [Q|Q]; [left; now apply pareto_pos|]. unfold pareto_pdf. rewrite (proj2 (Rleb_false xm' u)) by lra. lra. }
    apply lik_bound; [exact NN|]. intros P.
    assert (B : forall u, In u l -> xm' <= u).
    { intros u Hu. specialize (P u Hu). unfold pareto_pdf in P. destruct (Rleb_spec xm' u); [trivial|lra]. }
    rewrite !sum_ln_pareto by auto. assert (ln xm' <= ln xm) by (apply ln_le; [trivial|]; apply B; now apply Rminl_in).
    pose proof (rate_bound (len l) s al L Hs Hal) as K.
    assert (len l * al * ln xm' <= len l * al * ln xm) by (apply Rmult_le_compat_l; [apply Rmult_le_pos; lra|trivial]). rewrite Es in K at 1. nra.
Qed.

(** *** Laplace *)
Lemma sum_ln_laplace mu b l : 0 < b -> Rsum (map (fun x => ln (laplace_pdf mu b x)) l)
  = - len l * ln (2 * b) - 1 / b * Rsum (map (fun x => Rabs (x - mu)) l).
Proof.
  intros Hb. rewrite (Rsum_map_ext _ (fun x => - ln (2 * b) - 1 / b * Rabs (x - mu))).
  - rewrite Rsum_map_minus, Rsum_map_scal, Rsum_const_len. ring.
  - intros x _. unfold laplace_pdf. rewrite ln_quot, ln_exp by (try apply exp_pos; lra). field. lra.
Qed.
Lemma laplace_pos mu b x : 0 < b -> 0 < laplace_pdf mu b x.
Proof. intros. unfold laplace_pdf. apply Rdiv_lt_0_compat; [apply exp_pos|lra]. Qed.
Lemma abs_dev_pos m l : (exists x y, In x l /\ In y l /\ x <> y) -> 0 < Rsum (map (fun x => Rabs (x - m)) l).
Proof.
  intros (x & y & Hx & Hy & N). apply Rsum_pos_exists.
  - intros e He. apply in_map_iff in He. destruct He as (u & <- & _). apply Rabs_pos.
  - destruct (Req_dec x m) as [E|E].
    + exists (Rabs (y - m)). split; [apply in_map_iff; eauto|]. apply Rabs_pos_lt. lra.
    + exists (Rabs (x - m)). split; [apply in_map_iff; eauto|]. apply Rabs_pos_lt. lra.
Qed.
Lemma laplace_opt c l : (exists x y, In x l /\ In y l /\ x <> y) ->
  exists v, lf_laplace c l = Ok (Val v) /\
  is_maximum (fun p : R * R => 0 < snd p) (fun p => likelihood (laplace_pdf (fst p) (snd p)) l) v.
Proof.
  intros D. assert (Hne : l <> []) by (destruct D as (x & _ & Hx & _); intros ->; destruct Hx). pose proof (len_pos l Hne) as L.
  set (mu := median l). set (T := Rsum (map (fun x => Rabs (x - mu)) l)). assert (HT : 0 < T) by (now apply abs_dev_pos).
  set (b := mean (map (fun x => Rabs (x - mu)) l)). assert (Eb : b = T / len l) by (unfold b, mean; now rewrite len_map).
  assert (Hb : 0 < b) by (rewrite Eb; now apply Rdiv_lt_0_compat).
  exists (likelihood (laplace_pdf mu b) l). split.
  - unfold lf_laplace. rewrite match_ne by trivial. fold mu. fold b. rewrite (proj2 (Reqb_false b 0)) by lra.
    rewrite lik_exp by (intros; now apply laplace_pos). now rewrite sum_ln_laplace by trivial.
  - split; [exists (mu, b); auto|]. intros (m, s) Hs. cbn [fst snd] in *. rewrite (lik_exp (laplace_pdf mu b)) by (intros; now apply laplace_pos).
    apply lik_bound; [intros; left; now apply laplace_pos|]. intros _. rewrite !sum_ln_laplace by trivial. fold T.
    pose proof (median_minimises l m) as M. fold mu T in M. set (T' := Rsum (map (fun x => Rabs (x - m)) l)) in *.
    assert (I1 : 0 < / s) by (now apply Rinv_0_lt_compat). assert (1 / s * T <= 1 / s * T') by (apply Rmult_le_compat_l; [lra|trivial]).
    assert (ET : T = b * len l) by (rewrite Eb; field; lra). pose proof (ln_ratio_le b s Hb Hs) as K. rewrite !(ln_mult 2) by lra.
    replace (1 / b * T) with (len l) by (rewrite ET; field; lra). assert (1 / s * T = len l * (b / s)) by (rewrite ET; field; lra). nra.
Qed.

(** *** Rayleigh *)
Lemma ln_rayleigh s x : 0 < s -> 0 < x -> ln (rayleigh_pdf s x) = ln x - 2 * ln s - x ^ 2 / (2 * s ^ 2).
Proof.
  intros Hs Hx. unfold rayleigh_pdf. rewrite (proj2 (Rleb_true 0 x)) by lra. assert (0 < s ^ 2) by nra.
  rewrite ln_mult, ln_quot, ln_exp; trivial; [|apply Rdiv_lt_0_compat; trivial|apply exp_pos].
  replace (s ^ 2) with (s * s) at 1 by ring. rewrite ln_mult by trivial. field. lra.
Qed.
Lemma rayleigh_pos s x : 0 < s -> 0 < x -> 0 < rayleigh_pdf s x.
Proof.
  intros Hs Hx. unfold rayleigh_pdf. rewrite (proj2 (Rleb_true 0 x)) by lra. apply Rmult_lt_0_compat; [apply Rdiv_lt_0_compat; nra|apply exp_pos].
Qed.
Lemma sum_ln_rayleigh s l : 0 < s -> (forall x, In x l -> 0 < x) ->
  Rsum (map (fun x => ln (rayleigh_pdf s x)) l) = Rsum (map ln l) - 2 * len l * ln s - Rsum (map (fun x => x ^ 2) l) / (2 * s ^ 2).
Proof.
  intros Hs Hp. rewrite (Rsum_map_ext _ (fun x => (ln x - 2 * ln s) - / (2 * s ^ 2) * x ^ 2)).
  - rewrite !Rsum_map_minus, !Rsum_map_scal, Rsum_const_len. change (map (fun x => ln x) l) with (map ln l). field. lra.
  - intros x Hx. rewrite ln_rayleigh by auto. field. lra.
Qed.
Lemma rayleigh_opt c l : c <> KList -> l <> [] -> (forall x, In x l -> 0 < x) ->
  exists v, lf_rayleigh c l = Ok (Val v) /\
  is_maximum (fun s => 0 < s) (fun s => likelihood (rayleigh_pdf s) l) v.
Proof.
  intros Hc Hne Hp. pose proof (len_pos l Hne) as L. set (S2 := Rsum (map (fun x => x ^ 2) l)).
  assert (HS : 0 < S2).
  { unfold S2. apply Rsum_pos_exists; [intros e He; apply in_map_iff in He; destruct He as (u & <- & _); nra|].
    destruct l as [|u l']; [congruence|]. exists (u ^ 2). split; [simpl; auto|]. specialize (Hp u (or_introl eq_refl)). nra. }
  set (s := sqrt (S2 / (2 * len l))). assert (Q : 0 < S2 / (2 * len l)) by (apply Rdiv_lt_0_compat; lra).
  assert (Hs : 0 < s) by (now apply sqrt_lt_R0). assert (Es : s ^ 2 = S2 / (2 * len l)) by (unfold s; simpl; rewrite Rmult_1_r; apply sqrt_sqrt; lra).
  exists (likelihood (rayleigh_pdf s) l). split.
  - unfold lf_rayleigh. rewrite not_any_neg by (intros; left; auto). rewrite positive_any by trivial.
    rewrite match_ne by trivial. fold S2. fold s. assert (G : forall x, In x l -> loc_scale_pdf (fun x => x * exp (- x ^ 2 / 2)) 0 s x = rayleigh_pdf s x).
    { intros x Hx. specialize (Hp x Hx). unfold loc_scale_pdf, rayleigh_pdf. rewrite (proj2 (Rleb_true 0 x)) by lra. replace (x - 0) with x by ring. cbv beta.
      replace (- (x / s) ^ 2 / 2) with (- x ^ 2 / (2 * s ^ 2)) by (field; lra). field. lra. }
    unfold exp_sum_logpdf. replace (forallb _ l) with true.
    + rewrite lik_exp by (intros; apply rayleigh_pos; auto). rewrite (Rsum_map_ext _ (fun x => ln (rayleigh_pdf s x))) by (intros x Hx; now rewrite G).
      destruct c; [congruence|reflexivity..].
    + symmetry. apply forallb_forall. intros x Hx. rewrite G by trivial. apply Rltb_true. apply rayleigh_pos; auto.
  - split; [exists s; auto|]. intros r Hr. rewrite (lik_exp (rayleigh_pdf s)) by (intros; apply rayleigh_pos; auto).
    apply lik_bound; [intros; left; apply rayleigh_pos; auto|]. intros _. rewrite !sum_ln_rayleigh by trivial. fold S2. rewrite Es.
    assert (R2 : 0 < r ^ 2) by nra. assert (S2' : 0 < s ^ 2) by nra. pose proof (ln_ratio_le (s ^ 2) (r ^ 2) S2' R2) as K.
    replace (ln (s ^ 2)) with (2 * ln s) in K by (replace (s ^ 2) with (s * s) by ring; rewrite ln_mult by trivial; lra).
    replace (ln (r ^ 2)) with (2 * ln r) in K by (replace (r ^ 2) with (r * r) by ring; rewrite ln_mult by trivial; lra).
    rewrite Es in K. replace (S2 / (2 * (S2 / (2 * len l)))) with (len l) by (field; lra).
    replace (S2 / (2 * r ^ 2)) with (len l * (S2 / (2 * len l) / r ^ 2)) by (field; nra). nra.
Qed.
