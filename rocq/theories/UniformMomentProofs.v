(** Proofs about the sample moments seen by Neyman's smooth statistic. *)
From Coquelicot Require Import Coquelicot.
From Verif Require Import Base ExpModel UniformModel UniformSpec EdfProofs LegendreProofs UniformStatProofs.
From Coq Require Import Lra Lia.
Local Open Scope R_scope.

(** the sample mean of f is its mean under the uniform distribution *)
Definition fits (u : list R) (f : R -> R) : Prop := is_RInt f 0 1 (mean (map f u)).
Definition tmon (j : nat) (x : R) : R := (2 * x - 1) ^ j.
Lemma fits_ext u f g : (forall x, f x = g x) -> fits u f -> fits u g.
Proof.
  intros E H. unfold fits in *. replace (map g u) with (map f u) by (apply map_ext; auto). apply (is_RInt_ext f); [intros; apply E|trivial].
Qed.
Lemma fits_lin u f g a : fits u f -> fits u g -> fits u (fun x => f x + a * g x).
Proof.
  intros Hf Hg. unfold fits in *. assert (E : mean (map (fun x => f x + a * g x) u) = plus (mean (map f u)) (scal a (mean (map g u)))).
  { unfold plus, scal; simpl. unfold mult; simpl. unfold mean. rewrite !len_map, Rsum_map_plus. rewrite (Rsum_map_scal a g u). unfold Rdiv. ring. }
  rewrite E. apply (is_RInt_plus (V := R_NormedModule)); [exact Hf|]. apply (is_RInt_scal (V := R_NormedModule)). exact Hg.
Qed.
Lemma fits_const u c : u <> [] -> fits u (fun _ => c).
Proof.
  intros H. unfold fits. replace (mean (map (fun _ : R => c) u)) with (scal (1 - 0) c); [apply (is_RInt_const (V := R_NormedModule))|].
  unfold scal; simpl. unfold mult; simpl. unfold mean. rewrite Rsum_map_const, len_map. unfold len. field. apply Rgt_not_eq. now apply len_pos.
Qed.
Lemma horner_app c a t : horner (c ++ [a]) t = horner c t + a * t ^ length c.
Proof. induction c as [|b c IH]; cbn; [ring|]. fold (horner (c ++ [a]) t) (horner c t). rewrite IH. ring. Qed.
Lemma fits_horner u c : u <> [] -> (forall j, (j < length c)%nat -> fits u (tmon j)) -> fits u (fun x => horner c (2 * x - 1)).
Proof.
  intros Hu. induction c as [|a c IH] using rev_ind; intros H; [exact (fits_const u 0 Hu)|].
  apply (fits_ext u (fun x => horner c (2 * x - 1) + a * tmon (length c) x)); [intros x; now rewrite horner_app|].
  rewrite app_length in H. simpl in H. apply fits_lin; [apply IH; intros; apply H; lia|apply H; lia].
Qed.
Lemma fits_family u (phi : nat -> R -> R) k : u <> [] -> (forall j, (1 <= j <= k)%nat -> polynomial_of_degree j (phi j)) ->
  ((forall j, (1 <= j <= k)%nat -> fits u (phi j)) <-> forall j, (1 <= j <= k)%nat -> fits u (tmon j)).
Proof.
  intros Hu D. assert (Z : fits u (tmon 0)) by (apply (fits_ext u (fun _ => 1)); [reflexivity|now apply fits_const]). split; intros H.
  - intros j. induction j as [j IH] using lt_wf_ind. intros Hj. destruct (D j Hj) as (c & L & P & E).
    destruct (exists_last (l := c)) as (c' & a & ->); [destruct c; discriminate|]. rewrite last_last in P. rewrite app_length in L. simpl in L.
    apply (fits_ext u (fun x => (0 + / a * phi j x) + - / a * horner c' (2 * x - 1))).
    + intros x. rewrite E, horner_app. unfold tmon. replace (length c') with j by lia. field. lra.
    + apply fits_lin; [apply fits_lin; [now apply fits_const|now apply H]|]. apply fits_horner; trivial. intros i Hi. destruct i as [|i]; [exact Z|]. apply IH; lia.
  - intros j Hj. destruct (D j Hj) as (c & L & P & E). apply (fits_ext u (fun x => horner c (2 * x - 1))); [intros; now rewrite E|]. apply fits_horner; trivial.
    intros i Hi. destruct i as [|i]; [exact Z|]. apply H. lia.
Qed.
Lemma pow_degree j : polynomial_of_degree j (fun x => x ^ j).
Proof.
  induction j as [|j (c & L & P & E)].
  - exists [1]. split; [reflexivity|]. split; [simpl; lra|]. intros x. cbn. ring.
  - destruct (exists_last (l := c)) as (c' & a & ->); [destruct c; discriminate|]. rewrite last_last in P. rewrite app_length in L. simpl in L.
    exists (padd (map (Rmult (/ 2)) (0 :: c' ++ [a])) (map (Rmult (/ 2)) (c' ++ [a]))).
    destruct (padd_last (map (Rmult (/ 2)) (0 :: c' ++ [a])) (map (Rmult (/ 2)) (c' ++ [a]))) as [A B]; [rewrite !map_length; simpl; lia|].
    split; [rewrite A, map_length; simpl; rewrite app_length; simpl; lia|]. split.
    + rewrite B, last_map_mult. change (0 :: c' ++ [a]) with ((0 :: c') ++ [a]). rewrite last_last. lra.
    + intros x. rewrite padd_eval, !pscale_eval. cbn [horner fold_right]. fold (horner (c' ++ [a]) (2 * x - 1)). rewrite <- E. cbn [pow]. field.
Qed.
Lemma fits_pow u j : fits u (fun x => x ^ j) <-> mean (map (fun x => x ^ j) u) = 1 / (INR j + 1).
Proof.
  assert (I : is_RInt (fun x => x ^ j) 0 1 (1 / (INR j + 1))).
  { pose proof (pos_INR j) as Hj. pose (F := fun x : R => x ^ S j / (INR j + 1)). replace (1 / (INR j + 1)) with (minus (F 1) (F 0)) by (unfold minus, plus, opp, F; simpl; rewrite pow1; field; lra).
    apply (is_RInt_derive F); intros y _.
    - unfold F. auto_derive; trivial. replace (match j with 0%nat => 1 | S _ => INR j + 1 end) with (INR j + 1) by (destruct j; [simpl; ring|reflexivity]). field. lra.
    - apply (ex_derive_continuous (fun x => x ^ j)). auto_derive. exact I. }
  unfold fits. split; [intros H; apply (same_integral _ _ _ H I)|intros ->; exact I].
Qed.
Lemma fits_phi u j : (1 <= j)%nat -> (fits u (neyman_phi j) <-> mean (map (neyman_phi j) u) = 0).
Proof.
  intros Hj. pose proof (phi_mean j Hj) as I. unfold fits. split; [intros H; apply (same_integral _ _ _ H I)|intros ->; exact I].
Qed.
Lemma neyman_moments k u : u <> [] ->
  (neyman_of k u = 0 <-> forall j, (1 <= j <= k)%nat -> mean (map (fun x => x ^ j) u) = 1 / (INR j + 1)).
Proof.
  intros Hu. rewrite neyman_zero by trivial.
  pose proof (fits_family u neyman_phi k Hu (fun j Hj => phi_degree j (proj1 Hj))) as A.
  pose proof (fits_family u (fun j x => x ^ j) k Hu (fun j _ => pow_degree j)) as B. split; intros H j Hj.
  - apply (fits_pow u j). apply (proj2 B); trivial. apply A. intros i Hi. apply fits_phi; [lia|auto].
  - apply fits_phi; [lia|]. apply (proj2 A); trivial. apply B. intros i Hi. apply fits_pow; auto.
Qed.
