(** Property C93: chi-square type statistics vanish exactly when every cell holds its expected share. *)
From Coq Require Import String.
From Verif Require Import Base DecModel EdfModel EdfSpec ExpModel NormModel GammaModel GammaSpec StudentModel StudentSpec BetaModel BetaSpec WeibullModel WeibullSpec ChisqSpec EdfProofs EdfPowerProofs EdfClaims NormRangeProofs NormFiniteProofs BetaProofs WeibullClaims GraphProofs ChisqProofs.
From Coq Require Import Lra Lia.
Local Open Scope string_scope.
Local Open Scope R_scope.

Lemma inv_strict (F Q : R -> R) p q : (forall x y, x <= y -> F x <= F y) -> F (Q p) = p -> F (Q q) = q -> p < q -> Q p < Q q.
Proof. intros M E1 E2 H. destruct (Rlt_le_dec (Q p) (Q q)) as [L|L]; trivial. apply M in L. rewrite E1, E2 in L. lra. Qed.
Lemma sorted_index (f : nat -> R) n : forall k, (forall i j, (k <= i <= j)%nat -> (j < k + n)%nat -> f i <= f j) -> sortedR (map f (seq k n)).
Proof.
  induction n as [|n IH]; intros k H; [constructor|]. cbn [seq map]. constructor; [apply IH; intros i j Hi Hj; apply H; lia|].
  apply Forall_forall. intros y Hy. apply in_map_iff in Hy as (j & <- & Hj). apply in_seq in Hj. apply H; lia.
Qed.
Lemma share_inside i bins : (0 < i < bins)%nat -> 0 < INR i / INR bins < 1.
Proof.
  intros [H1 H2]. apply lt_INR in H1, H2. simpl (INR 0) in H1. split; [apply Rdiv_lt_0_compat; lra|]. apply (Rmult_lt_reg_r (INR bins)); [lra|]. unfold Rdiv. rewrite Rmult_assoc, Rinv_l; lra.
Qed.
Lemma share_le i j bins : (0 < bins)%nat -> (i <= j)%nat -> INR i / INR bins <= INR j / INR bins.
Proof. intros Hb H. apply le_INR in H. apply lt_INR in Hb. simpl (INR 0) in Hb. apply Rmult_le_compat_r; trivial. apply Rlt_le, Rinv_0_lt_compat. lra. Qed.
Lemma below_perm e l l' : Permutation l l' -> below e l = below e l'.
Proof.
  intros P. unfold below. f_equal. induction P as [|x l l' P IH|x y l|]; [reflexivity| | |congruence]; cbn [filter].
  - destruct (Rltb x e); cbn [length]; now rewrite IH.
  - now destruct (Rltb x e), (Rltb y e).
Qed.
(** equiprobable cells of a distribution function [F] with quantiles [Q] *)
Lemma quantile_cells (F Q : R -> R) lambda_ l bins : (forall x y, x <= y -> F x <= F y) -> (forall p, 0 < p < 1 -> F (Q p) = p) ->
  (forall e e', 0 < F e < 1 -> F e = F e' -> e = e') -> l <> [] -> (0 < bins)%nat ->
  (power_divergence lambda_ (map INR (histogram (map (fun i => Q (INR (S i) / INR bins)) (seq 0 (bins - 1))) l)) (repeat (len l / INR bins) bins) = Fin 0 <->
   forall i e, (0 < i < bins)%nat -> F e = INR i / INR bins -> below e l = len l * (INR i / INR bins)).
Proof.
  intros M HQ U Hne Hb. rewrite equal_cells; trivial; [| |now rewrite map_length, seq_length].
  - assert (N : forall i, (0 < i < bins)%nat -> nth (i - 1) (map (fun i => Q (INR (S i) / INR bins)) (seq 0 (bins - 1))) 0 = Q (INR i / INR bins)).
    { intros i Hi. rewrite nth_map_seq by lia. replace (S (i - 1)) with i by lia. reflexivity. }
    split; intros H i.
    + intros e Hi E. rewrite <- (H i Hi), N by trivial. f_equal. pose proof (share_inside i bins Hi). apply U; [now rewrite E|]. now rewrite HQ.
    + intros Hi. rewrite N by trivial. apply (H i); trivial. apply HQ. now apply share_inside.
  - apply sorted_index. intros i j Hij Hj. destruct (Nat.eq_dec i j) as [->|D]; [lra|]. apply Rlt_le. apply (inv_strict F); trivial; try (apply HQ, share_inside; lia).
    apply Rmult_lt_compat_r; [apply Rinv_0_lt_compat, lt_0_INR; lia|apply lt_INR; lia].
Qed.
(** every power divergence with equal totals *)
Lemma C93_power_divergence_holds : forall lambda_ f_obs f_exp, length f_obs = length f_exp -> (forall o, In o f_obs -> 0 <= o) -> (forall e, In e f_exp -> 0 < e) ->
  Rsum f_obs = Rsum f_exp -> (power_divergence lambda_ f_obs f_exp = Fin 0 <-> f_obs = f_exp).
Proof. exact pd_zero. Qed.
Lemma C93_uniform_holds : forall a b lambda_ bins l, a < b -> (0 < bins)%nat -> l <> [] -> (forall x, In x l -> a <= x <= b) ->
  (chi2_uniform a b lambda_ bins l = Ok (Fin 0) <->
   forall i, (0 < i < bins)%nat -> below (a + (b - a) * (INR i / INR bins)) l = len l * (INR i / INR bins)).
Proof.
  intros a b lambda_ bins l Hab Hb Hne Hl. unfold chi2_uniform, uniform_validate. replace (existsb (fun x => Rltb x a || Rltb b x) l) with false.
  2:{ symmetry. rewrite <- not_true_iff_false. intros E. apply existsb_exists in E as (x & Hx & E). specialize (Hl x Hx). apply orb_true_iff in E as [E|E]; apply Rltb_true in E; lra. }
  cbn [bind]. set (inner := map _ (seq 0 (bins - 1))).
  assert (SI : sortedR inner).
  { apply sorted_index. intros i j Hij Hj. pose proof (share_le (S i) (S j) bins Hb ltac:(lia)). unfold Rdiv in *. rewrite !Rmult_assoc. apply Rplus_le_compat_l, Rmult_le_compat_l; lra. }
  pose proof (equal_cells lambda_ inner l bins SI Hne Hb ltac:(unfold inner; now rewrite map_length, seq_length)) as K.
  assert (N : forall i, (0 < i < bins)%nat -> nth (i - 1) inner 0 = a + (b - a) * (INR i / INR bins)).
  { intros i Hi. unfold inner. rewrite nth_map_seq by lia. replace (S (i - 1)) with i by lia. unfold Rdiv. ring. }
  split; intros H.
  - intros i Hi. rewrite <- N by trivial. apply (proj1 K); trivial. now injection H as H.
  - f_equal. apply K. intros i Hi. rewrite N by trivial. auto.
Qed.
Lemma C93_gamma_holds : forall G Q A name f l, gamma_law G Q -> 0 < ga_alpha A -> 0 < ga_beta A -> (0 < ga_bins A)%nat -> l <> [] ->
  In name ["Chi2PearsonGammaGofStatistic"; "LikelihoodRatioGammaGofStatistic"; "CressieReadGammaGofStatistic"] -> In (name, f) (gamma_statistics G Q A) ->
  (nvalue (f l) = Ok (Some (Fin 0)) <->
   forall i e, (0 < i < ga_bins A)%nat -> G (ga_alpha A) (ga_beta A * e) = INR i / INR (ga_bins A) -> below e l = len l * (INR i / INR (ga_bins A))).
Proof.
  intros G Q A name f l HG Ha Hb Hn Hne N H. destruct (gl_cdf _ _ HG _ Ha) as (M & _).
  assert (K : forall lambda, (let! v := binned_stat (gamma_ppf Q (ga_alpha A) (1 / ga_beta A)) lambda (ga_bins A) l in Ok (Some v)) = Ok (Some (Fin 0)) <->
    forall i e, (0 < i < ga_bins A)%nat -> G (ga_alpha A) (ga_beta A * e) = INR i / INR (ga_bins A) -> below e l = len l * (INR i / INR (ga_bins A))).
  { intros lambda. rewrite <- (quantile_cells (fun x => G (ga_alpha A) (ga_beta A * x)) (gamma_ppf Q (ga_alpha A) (1 / ga_beta A)) lambda l (ga_bins A)); trivial.
    - unfold binned_stat. rewrite NormFiniteProofs.match_ne by trivial. cbn [bind]. split; intros E; [now injection E|now rewrite E].
    - intros x y L. apply M. apply Rmult_le_compat_l; lra.
    - intros p Hp. unfold gamma_ppf. replace (ga_beta A * (Q (ga_alpha A) p * (1 / ga_beta A))) with (Q (ga_alpha A) p) by (field; lra). now apply (gl_inverse _ _ HG).
    - assert (P : forall e e', 0 < G (ga_alpha A) (ga_beta A * e) -> e < e' -> G (ga_alpha A) (ga_beta A * e) < G (ga_alpha A) (ga_beta A * e')).
      { intros e e' Hp L. apply (gl_increasing _ _ HG); trivial; [|now apply Rmult_lt_compat_l].
        destruct (Rle_lt_dec (ga_beta A * e) 0) as [Z|Z]; [rewrite (gl_zero _ _ HG) in Hp by trivial; lra|lra]. }
      intros e e' He E. destruct (Rtotal_order e e') as [L|[L|L]]; trivial; [pose proof (P e e' ltac:(lra) L); lra|pose proof (P e' e ltac:(lra) L); lra]. }
  cbn [In] in N. destruct N as [<-|[<-|[<-|[]]]]; cbn [gamma_statistics In] in H; repeat destruct H as [H|H]; try contradiction; try discriminate H; injection H as <-; apply K.
Qed.
Lemma C93_student_holds : forall T Q A f l, student_law T Q -> 0 < st_df A -> 0 < st_scale A -> (0 < st_bins A)%nat -> l <> [] ->
  In ("ChiSquareStudentGofStatistic", f) (student_statistics T Q A) ->
  (nvalue (f l) = Ok (Some (Fin 0)) <->
   forall i e, (0 < i < st_bins A)%nat -> T (st_df A) ((e - st_loc A) / st_scale A) = INR i / INR (st_bins A) -> below e l = len l * (INR i / INR (st_bins A))).
Proof.
  intros T Q A f l HT Hd Hs Hn Hne H. cbn [student_statistics In] in H; repeat destruct H as [H|H]; try contradiction; try discriminate H. injection H as <-. cbn [nreads nvalue].
  destruct (sl_cdf _ _ HT _ Hd) as (M & _). unfold chi2_student. set (z := map (fun x => (x - st_loc A) / st_scale A) l).
  assert (LZ : len z = len l) by (unfold z, len; now rewrite map_length). assert (ZN : z <> []) by (unfold z; destruct l; [congruence|discriminate]). rewrite <- LZ.
  pose proof (quantile_cells (T (st_df A)) (Q (st_df A)) 1 z (st_bins A) M (fun p Hp => sl_inverse _ _ HT _ p Hd Hp)) as K.
  assert (LT : forall x e, Rltb ((x - st_loc A) / st_scale A) ((e - st_loc A) / st_scale A) = Rltb x e).
  { intros x e. destruct (Rltb_spec x e) as [L|L]; [apply Rltb_true|apply Rltb_false]; unfold Rdiv; [apply Rmult_lt_compat_r|apply Rmult_le_compat_r]; try lra; try (now apply Rinv_0_lt_compat). apply Rlt_le. now apply Rinv_0_lt_compat. }
  assert (BZ : forall e, below ((e - st_loc A) / st_scale A) z = below e l).
  { intros e. unfold below, z. f_equal. clear - LT. induction l as [|x l IH]; [reflexivity|]. cbn [map filter]. rewrite LT. destruct (Rltb x e); cbn [length]; now rewrite IH. }
  assert (U : forall e e', 0 < T (st_df A) e < 1 -> T (st_df A) e = T (st_df A) e' -> e = e').
  { intros e e' _ E. destruct (Rtotal_order e e') as [L|[L|L]]; trivial; apply (sl_increasing _ _ HT (st_df A)) in L; trivial; lra. }
  specialize (K U ZN Hn). split.
  - intros E. injection E as E. intros i e Hi He. rewrite <- BZ. apply (proj1 K); trivial.
  - intros E. do 2 f_equal. apply K. intros i e Hi He. replace e with ((st_loc A + st_scale A * e - st_loc A) / st_scale A) in * by (field; lra). rewrite BZ. now apply E.
Qed.
Lemma firstn_map {X Y} (f : X -> Y) n (l : list X) : firstn n (map f l) = map f (firstn n l).
Proof. revert l; induction n as [|n IH]; intros [|x l]; cbn [firstn map]; trivial. now rewrite IH. Qed.
Lemma diff_firstn (g : nat -> R) : forall n s i, (i <= n)%nat -> Rsum (firstn i (diff (map g (seq s (S n))))) = g (s + i)%nat - g s.
Proof.
  induction n as [|n IH]; intros s i Hi.
  - replace i with 0%nat by lia. simpl. rewrite Nat.add_0_r. ring.
  - destruct i as [|i]; [simpl; rewrite Nat.add_0_r; ring|]. change (seq s (S (S n))) with (s :: S s :: seq (S (S s)) n). cbn [map].
    change (diff (g s :: g (S s) :: map g (seq (S (S s)) n))) with ((g (S s) - g s) :: diff (map g (seq (S s) (S n)))). cbn [firstn Rsum fold_right].
    change (fold_right Rplus 0 (firstn i (diff (map g (seq (S s) (S n)))))) with (Rsum (firstn i (diff (map g (seq (S s) (S n)))))). rewrite IH by lia. replace (s + S i)%nat with (S s + i)%nat by lia. ring.
Qed.
Lemma C93_beta_holds : forall B psi betaln A f l, beta_law B betaln -> 0 < ba_alpha A -> 0 < ba_beta A -> l <> [] -> in_unit l ->
  In ("Chi2PearsonBetaGofStatistic", f) (beta_statistics B psi betaln A) ->
  let k := Nat.sqrt_up (length l) in
  (nvalue (f l) = Ok (Some (Fin 0)) <->
   forall i, (0 < i < k)%nat -> below (INR i / INR k) l = len l * B (ba_alpha A) (ba_beta A) (INR i / INR k)).
Proof.
  intros B psi betaln A f l HL Ha Hb Hne U H k. cbn [beta_statistics In] in H; repeat destruct H as [H|H]; try contradiction; try discriminate H. injection H as <-. cbn [nreads nvalue].
  rewrite validated_ok by trivial. unfold chi2_beta. rewrite NormFiniteProofs.match_ne by trivial. fold k. cbv zeta.
  assert (Hk : (0 < k)%nat) by (apply Nat.sqrt_up_pos; destruct l; [congruence|simpl; lia]). pose proof (len_pos l Hne) as Hl.
  set (inner := map (fun i => INR (S i) / INR k) (seq 0 (k - 1))). set (w := map (fun d => d * len l) (diff (map (B (ba_alpha A) (ba_beta A)) (beta_edges k)))).
  assert (LI : length inner = (k - 1)%nat) by (unfold inner; now rewrite map_length, seq_length). assert (LW : length w = k) by apply expected_length.
  assert (TW : Rsum w = len l) by (apply (expected_total B betaln); trivial). pose proof (fun e => expected_pos B betaln _ _ k (len l) e HL Ha Hb Hk Hl) as PW. fold w in PW.
  assert (SI : sortedR inner) by (apply sorted_index; intros i j Hij Hj; apply share_le; lia).
  rewrite (histogram_perm inner _ _ (rsort_perm l)).
  assert (W : forall i, (i <= k)%nat -> Rsum (firstn i w) = len l * B (ba_alpha A) (ba_beta A) (INR i / INR k)).
  { intros i Hi. unfold w. rewrite firstn_map, (map_ext _ (fun d => len l * d)) by (intros; ring). rewrite (Rsum_map_scal (len l) (fun d => d)), map_id. unfold beta_edges. rewrite map_map, diff_firstn by trivial.
    cbn [Nat.add]. replace (INR 0 / INR k) with 0 by (simpl; unfold Rdiv; ring). rewrite (bl_zero _ _ HL) by trivial. f_equal. ring. }
  assert (N : forall i, (i < k - 1)%nat -> nth i inner 0 = INR (S i) / INR k) by (intros i Hi; unfold inner; now rewrite nth_map_seq).
  assert (K : power_divergence (ba_lambda A) (map INR (histogram inner l)) w = Fin 0 <-> (forall i, (i < length inner)%nat -> below (nth i inner 0) l = Rsum (firstn (S i) w))).
  { rewrite pd_zero, histogram_shares; try tauto; trivial.
    - now rewrite LW, LI; lia.
    - rewrite map_length, histogram_length. lia.
    - intros o Ho. apply in_map_iff in Ho as (m & <- & _). apply pos_INR.
    - now rewrite histogram_total, TW. }
  split.
  - intros E. injection E as E. intros i Hi. specialize (proj1 K E (i - 1)%nat ltac:(lia)) as Z. rewrite N in Z by lia. replace (S (i - 1)) with i in Z by lia. rewrite W in Z by lia. exact Z.
  - intros E. do 2 f_equal. apply K. intros i Hi. rewrite LI in Hi. rewrite N, W by lia. apply E. lia.
Qed.
(** the Weibull class cannot be zero: the frequencies add up to 1 and the probabilities they are compared with do not *)
Lemma C93_weibull_refuted_holds : forall minimise Gam gumbel_fit A f l v, valid_args A -> all_positive l -> (exists x y, In x l /\ In y l /\ x <> y) ->
  In ("Chi2PearsonWeibullGofStatistic", f) (weibull_statistics minimise Gam gumbel_fit A) -> nvalue (f l) = Ok (Some (Fin v)) ->
  let F := SamplerModel.generate_weibull_cdf (wa_a A) (wa_k A) in let E := F (Rmaxl 0 l) - F (Rminl 0 l) in
  0 < E < 1 /\ (1 - E) ^ 2 / E <= v /\ 0 < v.
Proof.
  intros minimise Gam gumbel_fit A f l v HA P D H Hv. each H; try discriminate H. injection H as <-. cbn [nreads nvalue] in Hv. intros F E.
  destruct (chi2_fact A l v HA P D) as (B & _ & K). destruct (K Hv) as [K1 K2]. change (0 < E < 1) in B. change ((1 - E) ^ 2 <= v * E) in K1. split; [exact B|].
  assert (G : (1 - E) ^ 2 / E <= v) by (apply (Rmult_le_reg_r E); [lra|]; unfold Rdiv; rewrite Rmult_assoc, Rinv_l; lra).
  split; [exact G|]. apply Rlt_le_trans with (2 := G). apply Rdiv_lt_0_compat; [apply pow_lt|]; lra.
Qed.
