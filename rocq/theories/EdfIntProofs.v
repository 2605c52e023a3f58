From Coq Require Import Lia Lra.
From Verif Require Import Base DecModel EdfModel EdfSpec EdfProofs EdfRotProofs.
From Coquelicot Require Import Coquelicot.

Lemma is_RInt_Rsum {A} (g : A -> R -> R) (I : A -> R) a b (l : list A) :
  (forall i, In i l -> is_RInt (g i) a b (I i)) ->
  is_RInt (fun x => Rsum (map (fun i => g i x) l)) a b (Rsum (map I l)).
Proof.
  induction l as [|i l IH]; intros H; simpl.
  - pose proof (@is_RInt_const R_NormedModule a b 0) as C. unfold scal in C; simpl in C; unfold mult in C; simpl in C.
    rewrite Rmult_0_r in C. exact C.
  - apply (is_RInt_plus (V := R_NormedModule) (g i)); [apply H; simpl; auto|]. apply IH. intros; apply H; simpl; auto.
Qed.
Lemma count_as_sum {A} (P : A -> bool) l : INR (length (filter P l)) = Rsum (map (fun y => if P y then 1 else 0) l).
Proof.
  induction l as [|x l IH]; [reflexivity|]. cbn [filter map Rsum]. destruct (P x); [cbn [length]; rewrite S_INR|]; lra.
Qed.
Lemma Rsum_sq {A} (f : A -> R) l : Rsum (map f l) ^ 2 = Rsum (map (fun i => Rsum (map (fun j => f i * f j) l)) l).
Proof.
  rewrite (Rsum_map_ext (fun i => Rsum (map (fun j => f i * f j) l)) (fun i => Rsum (map f l) * f i)).
  - rewrite Rsum_map_scal. ring.
  - intros i _. rewrite Rsum_map_scal. ring.
Qed.

Section Int.
Variables F f : R -> R.
Hypothesis Hder : forall x, is_derive F x (f x).
Hypothesis Hcont : forall x, continuous f x.

Lemma F_continuous x : continuous F x.
Proof. apply (ex_derive_continuous F). eexists. apply Hder. Qed.

Lemma int_tail (G g : R -> R) a b p : (forall x, is_derive G x (g x)) -> (forall x, continuous g x) ->
  a <= p <= b -> is_RInt (fun x => if Rleb p x then g x else 0) a b (G b - G p).
Proof.
  intros HG Hg Hp.
  replace (G b - G p) with (@plus R_NormedModule 0 (@minus R_NormedModule (G b) (G p)))
    by (unfold plus, minus, opp; simpl; unfold plus; simpl; ring).
  apply (is_RInt_Chasles (V := R_NormedModule) _ a p b).
  - apply (is_RInt_ext (V := R_NormedModule) (fun _ => 0)).
    + rewrite Rmin_left, Rmax_right by lra. intros x Hx. rewrite (proj2 (Rleb_false _ _)); [reflexivity|lra].
    + pose proof (@is_RInt_const R_NormedModule a p 0) as C. unfold scal in C; simpl in C; unfold mult in C; simpl in C.
      rewrite Rmult_0_r in C. exact C.
  - apply (is_RInt_ext (V := R_NormedModule) g).
    + rewrite Rmin_left, Rmax_right by lra. intros x Hx. rewrite (proj2 (Rleb_true _ _)); [reflexivity|lra].
    + apply (is_RInt_derive (V := R_CompleteNormedModule) G g); intros; auto.
Qed.

Variable rvs : list R.
Hypothesis Hne : rvs <> [].
Let n := len rvs.
Lemma n_pos : 0 < n. Proof. apply len_pos, Hne. Qed.
Let u := map F (rsort rvs).

Lemma max_sum_sorted s : sortedR s ->
  Rsum (map (fun x => Rsum (map (fun y => F (Rmax x y)) s)) s) = wsum (map F s).
Proof.
  induction s as [|z s IH] using rev_ind; intros H; [reflexivity|].
  apply sorted_snoc in H. destruct H as [Hs Hz]. specialize (IH Hs).
  rewrite map_app. rewrite Rsum_app. cbn [map Rsum].
  rewrite (Rsum_map_ext _ (fun x => Rsum (map (fun y => F (Rmax x y)) s) + F z)).
  2:{ intros x Hx. rewrite map_app, Rsum_app. cbn [map Rsum]. rewrite Rmax_right by (apply Hz, Hx). ring. }
  rewrite Rsum_map_plus, IH, Rsum_map_const.
  rewrite map_app, Rsum_app. cbn [map Rsum].
  rewrite (Rsum_map_ext _ (fun _ => F z)) by (intros y Hy; rewrite Rmax_left by (apply Hz, Hy); reflexivity).
  rewrite Rsum_map_const, Rmax_left by lra. rewrite map_app. cbn [map]. rewrite wsum_snoc. unfold len. rewrite map_length. ring.
Qed.
Lemma max_sum : Rsum (map (fun x => Rsum (map (fun y => F (Rmax x y)) rvs)) rvs) = wsum u.
Proof.
  unfold u. rewrite <- max_sum_sorted by apply rsort_sorted.
  rewrite (Rsum_map_perm _ _ _ (rsort_perm rvs)). apply Rsum_map_ext. intros x _.
  symmetry. apply Rsum_map_perm, rsort_perm.
Qed.
Lemma sq_sum : Rsum (map (fun x => F x ^ 2) rvs) = sumsq u.
Proof.
  unfold sumsq, u. rewrite map_map. symmetry. apply Rsum_map_perm, rsort_perm.
Qed.

Lemma integrand x : (edf rvs x - F x) ^ 2 * f x =
  / n ^ 2 * Rsum (map (fun y => Rsum (map (fun z => if Rleb (Rmax y z) x then f x else 0) rvs)) rvs)
  - 2 / n * Rsum (map (fun y => if Rleb y x then F x * f x else 0) rvs)
  + F x ^ 2 * f x.
Proof.
  pose proof n_pos. unfold edf. change (INR (length rvs)) with n. rewrite count_as_sum.
  rewrite (Rsum_map_ext (fun y => Rsum (map (fun z => if Rleb (Rmax y z) x then f x else 0) rvs))
     (fun y => f x * Rsum (map (fun z => (if Rleb y x then 1 else 0) * (if Rleb z x then 1 else 0)) rvs))).
  2:{ intros y _. rewrite <- Rsum_map_scal. apply Rsum_map_ext. intros z _.
      unfold Rmax. destruct (Rle_dec y z); destruct (Rleb_spec y x), (Rleb_spec z x); lra. }
  rewrite Rsum_map_scal, <- (Rsum_sq (fun y => if Rleb y x then 1 else 0)).
  rewrite (Rsum_map_ext (fun y => if Rleb y x then F x * f x else 0) (fun y => F x * f x * (if Rleb y x then 1 else 0)))
    by (intros y _; destruct (Rleb y x); ring).
  rewrite Rsum_map_scal. field. lra.
Qed.

Definition cvm_partial_value (fa fb : R) : R :=
  fb - fb ^ 2 + (fb ^ 3 - fa ^ 3) / 3 + sumsq u / n - wsum u / n ^ 2.
Lemma cvm_int_ab a b : a <= b -> (forall x, In x rvs -> a <= x <= b) ->
  is_RInt (fun x => (edf rvs x - F x) ^ 2 * f x) a b (cvm_partial_value (F a) (F b)).
Proof.
  intros Hab Hin. pose proof n_pos as Hn.
  apply (is_RInt_ext (V := R_NormedModule)) with (fun x => plus (minus
    (scal (/ n ^ 2) (Rsum (map (fun y => Rsum (map (fun z => if Rleb (Rmax y z) x then f x else 0) rvs)) rvs)))
    (scal (2 / n) (Rsum (map (fun y => if Rleb y x then F x * f x else 0) rvs))))
    (F x ^ 2 * f x)).
  { intros x _. rewrite integrand. reflexivity. }
  replace (cvm_partial_value (F a) (F b)) with (plus (minus
    (scal (/ n ^ 2) (Rsum (map (fun y => Rsum (map (fun z => F b - F (Rmax y z)) rvs)) rvs)))
    (scal (2 / n) (Rsum (map (fun y => F b ^ 2 / 2 - F y ^ 2 / 2) rvs))))
    (F b ^ 3 / 3 - F a ^ 3 / 3)).
  - apply (is_RInt_plus (V := R_NormedModule)); [apply (is_RInt_minus (V := R_NormedModule))|].
    + apply (is_RInt_scal (V := R_NormedModule)).
      apply (is_RInt_Rsum (fun y x => Rsum (map (fun z => if Rleb (Rmax y z) x then f x else 0) rvs))).
      intros y Hy. apply (is_RInt_Rsum (fun z x => if Rleb (Rmax y z) x then f x else 0)). intros z Hz.
      apply int_tail; auto. specialize (Hin y Hy) as H1. specialize (Hin z Hz) as H2.
      unfold Rmax. destruct (Rle_dec y z); lra.
    + apply (is_RInt_scal (V := R_NormedModule)).
      apply (is_RInt_Rsum (fun y x => if Rleb y x then F x * f x else 0)). intros y Hy.
      apply (int_tail (fun x => F x ^ 2 / 2) (fun x => F x * f x)); auto.
      * intros x. auto_derive; [repeat split; eexists; apply Hder|].
        replace (Derive (fun x0 : R => F x0) x) with (f x) by (symmetry; apply is_derive_unique; apply Hder). field.
      * intros x. apply (continuous_mult F f); auto using F_continuous.
    + apply (is_RInt_derive (fun x => F x ^ 3 / 3) (fun x => F x ^ 2 * f x)).
      * intros x _. auto_derive; [repeat split; eexists; apply Hder|].
        replace (Derive (fun x0 : R => F x0) x) with (f x) by (symmetry; apply is_derive_unique; apply Hder). field.
      * intros x _. apply (continuous_mult (fun x => F x ^ 2) f); auto. 
        apply (continuous_ext (fun x => F x * F x)); [intros y; change (@eq R (F y * F y) (F y ^ 2)); ring|].
        apply (continuous_mult F F); apply F_continuous.
  - unfold plus, minus, scal, opp; simpl; unfold plus, mult; simpl.
    rewrite (Rsum_map_ext _ (fun y => n * F b - Rsum (map (fun z => F (Rmax y z)) rvs))).
    2:{ intros y _. rewrite Rsum_map_minus, Rsum_map_const. reflexivity. }
    rewrite Rsum_map_minus, Rsum_map_const, max_sum.
    rewrite Rsum_map_minus, Rsum_map_const.
    rewrite (Rsum_map_ext (fun y => F y * (F y * 1) / 2) (fun y => / 2 * F y ^ 2)) by (intros; simpl; field).
    rewrite Rsum_map_scal, sq_sum. unfold cvm_partial_value. change (INR (length rvs)) with n. field. lra.
Qed.

Hypothesis Hm : is_lim F m_infty 0.
Hypothesis Hp : is_lim F p_infty 1.
Lemma cvm_int : is_RInt_gen (fun x => (edf rvs x - F x) ^ 2 * f x) (Rbar_locally m_infty) (Rbar_locally p_infty)
   (/ 3 + sumsq u / n - wsum u / n ^ 2).
Proof.
  assert (Lim : filterlim (fun ab => cvm_partial_value (F (fst ab)) (F (snd ab)))
     (filter_prod (Rbar_locally m_infty) (Rbar_locally p_infty)) (locally (/ 3 + sumsq u / n - wsum u / n ^ 2))).
  { apply (filterlim_ext (fun ab : R * R =>
      plus ((fun b => (F b - F b ^ 2 + F b ^ 3 / 3) + (sumsq u / n - wsum u / n ^ 2)) (snd ab))
           ((fun a => - (F a ^ 3 / 3)) (fst ab)))).
    { intros [a b]. unfold cvm_partial_value, plus; simpl. field. pose proof n_pos. lra. }
    replace (/ 3 + sumsq u / n - wsum u / n ^ 2)
      with (plus ((1 - 1 ^ 2 + 1 ^ 3 / 3) + (sumsq u / n - wsum u / n ^ 2)) (- (0 ^ 3 / 3)))
      by (unfold plus; simpl; field; pose proof n_pos; lra).
    eapply filterlim_comp_2; [| |apply (filterlim_plus (V := R_NormedModule))].
    - apply (filterlim_comp _ _ _ (@snd R R) (fun b => (F b - F b ^ 2 + F b ^ 3 / 3) + (sumsq u / n - wsum u / n ^ 2)) _ (Rbar_locally p_infty)); [apply filterlim_snd|].
      apply (filterlim_comp _ _ _ F (fun y => y - y ^ 2 + y ^ 3 / 3 + (sumsq u / n - wsum u / n ^ 2)) _ (locally 1)); [exact Hp|].
      apply (ex_derive_continuous (fun y => y - y ^ 2 + y ^ 3 / 3 + (sumsq u / n - wsum u / n ^ 2))). auto_derive; auto.
    - apply (filterlim_comp _ _ _ (@fst R R) (fun a => - (F a ^ 3 / 3)) _ (Rbar_locally m_infty)); [apply filterlim_fst|].
      apply (filterlim_comp _ _ _ F (fun y => - (y ^ 3 / 3)) _ (locally 0)); [exact Hm|].
      apply (ex_derive_continuous (fun y => - (y ^ 3 / 3))). auto_derive; auto. }
  intros P HP. specialize (Lim P HP). unfold filtermapi. unfold filtermap in Lim.
  assert (Ev : filter_prod (Rbar_locally m_infty) (Rbar_locally p_infty)
     (fun ab => fst ab < Rminl 0 rvs /\ Rmaxl 0 rvs < snd ab)).
  { exists (fun a => a < Rminl 0 rvs) (fun b => Rmaxl 0 rvs < b); [exists (Rminl 0 rvs); auto|exists (Rmaxl 0 rvs); auto|auto]. }
  generalize (filter_and _ _ Lim Ev). apply filter_imp. intros [a b] [HPab [Ha Hb]]. simpl in *.
  eexists. split; [|exact HPab]. apply cvm_int_ab.
  - assert (Rminl 0 rvs <= Rmaxl 0 rvs); [|lra].
    apply Rmaxl_ge, Rminl_in, Hne.
  - intros x Hx. pose proof (Rmaxl_ge 0 rvs x Hx). pose proof (Rminl_le 0 rvs x Hx). lra.
Qed.
End Int.

(** the classical statement in the probability scale *)
Lemma cvm_int01 (v : list R) : v <> [] -> in01 v ->
  is_RInt (fun t => (edf v t - t) ^ 2) 0 1 (/ 3 + sumsq (rsort v) / len v - wsum (rsort v) / len v ^ 2).
Proof.
  intros H H01.
  pose proof (cvm_int_ab (fun x => x) (fun _ => 1)) as G.
  specialize (G (fun x => is_derive_id x) (fun x => continuous_const 1 x) v H 0 1 ltac:(lra) H01).
  unfold cvm_partial_value in G. rewrite map_id in G.
  apply is_RInt_ext with (fun x => (edf v x - x) ^ 2 * 1); [intros y _; change (@eq R ((edf v y - y) ^ 2 * 1) ((edf v y - y) ^ 2)); ring|].
  match type of G with is_RInt _ _ _ ?v1 => match goal with |- is_RInt _ _ _ ?v2 => assert (E : @eq R v1 v2) end end.
  { pose proof (len_pos v H). field. lra. }
  rewrite <- E. exact G.
Qed.
