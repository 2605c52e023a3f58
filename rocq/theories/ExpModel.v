(** Model of statistics/goodness_of_fit/exponent.py (except the graph statistics, see GraphModel.v).

    A call of [execute_statistic] returns a value or raises, and may leave the caller's sample sorted
    ([rvs.sort()]); both effects are recorded.  Samples are numpy arrays (or lists) of floats, read as
    reals.  A division by a numpy zero, the logarithm of a non-positive number, a fractional power or
    square root of a negative number give [NonFinite] (inf or nan); a division by a Python int zero raises
    ZeroDivisionError.  Keyword arguments are arguments of the definitions. *)
From Coq Require Import String.
From Verif Require Import Base DecModel EdfModel GraphModel.

Record run := Run { value : result npval; sample_after : list R }.
(** the sample is only read *)
Definition reads (f : list R -> result npval) (rvs : list R) : run := Run (f rvs) rvs.
(** [rvs.sort()] is the first statement that touches the sample *)
Definition sorts (f : list R -> result npval) (rvs : list R) : run := Run (f (rsort rvs)) (rsort rvs).

Definition fin_if (ok : bool) (v : R) : result npval := Ok (if ok then Fin v else NonFinite).
Definition nonempty (l : list R) : bool := negb (Nat.eqb (length l) 0).
Definition all_pos (l : list R) : bool := forallb (fun x => Rltb 0 x) l.
Definition all_nonneg (l : list R) : bool := forallb (fun x => Rleb 0 x) l.
Definition ind (b : bool) : R := if b then 1 else 0.
(** x ** p for x >= 0, p > 0 *)
Definition np_pow (x p : R) : R := if Reqb x 0 then 0 else Rpower x p.
(** round(n / d) of Python for d = 2, 4: the quotient is an exact float, halves go to the even integer *)
Definition py_round_div (n d : nat) : nat :=
  let q := (n / d)%nat in let r := (n mod d)%nat in
  if (2 * r <? d)%nat then q else if (d <? 2 * r)%nat then S q else if Nat.even q then q else S q.

(** loops: [for i in range(n): for k in range(n): if i != k] visits every element with the others;
    [i < j] and [i < j < k] visit the elements of the tail *)
Fixpoint sum_others (g : R -> list R -> R) (l : list R) : R :=
  match l with [] => 0 | x :: t => g x t + sum_others (fun y r => g y (x :: r)) t end.
Fixpoint sum_pairs (f : R -> R -> R) (l : list R) : R :=
  match l with [] => 0 | x :: t => Rsum (map (f x) t) + sum_pairs f t end.
Fixpoint sum_triples (f : R -> R -> R -> R) (l : list R) : R :=
  match l with [] => 0 | x :: t => sum_pairs (f x) t + sum_triples f t end.

(** 109-113 *)
Definition ep (rvs : list R) : result npval :=
  fin_if (nonempty rvs && negb (Reqb (mean rvs) 0))
    (sqrt (48 * len rvs) * Rsum (map (fun x => exp (- (x / mean rvs)) - 1 / 2) rvs) / len rvs).
(** scipy.stats.expon.cdf(x, scale) *)
Definition expon_cdf (scale x : R) : R := if Rleb (x / scale) 0 then 0 else 1 - exp (- (x / scale)).
(** 157-159: the constructor parameter [lam] is not used *)
Definition ks_exp (lam : R) (alt : alternative) (rvs : list R) : result npval :=
  let! v := ks_do_execute alt (map (expon_cdf 1) (rsort rvs)) in Ok (Fin v).
(** 204-216 *)
Definition ahs (rvs : list R) : result npval :=
  match rvs with
  | [] => Raise ZeroDivisionError
  | _ =>
    let h := Rsum (map (fun xk => Rsum (map (fun xi => Rsum (map (fun xj => ind (Rltb (Rabs (xi - xj)) xk)) rvs)) rvs)) rvs) in
    let g := Rsum (map (fun xk => Rsum (map (fun xi => Rsum (map (fun xj => ind (Rltb (2 * Rmin xi xj) xk)) rvs)) rvs)) rvs) in
    Ok (Fin ((h - g) / len rvs ^ 3))
  end.
(** 262-268; [Gamma] is scipy.special.gamma; p > 0 *)
Definition atk (Gamma : R -> R) (p : R) (rvs : list R) : result npval :=
  let m := mean (map (fun x => np_pow x p) rvs) in
  fin_if (nonempty rvs && all_nonneg rvs && negb (Reqb (mean rvs) 0))
    (sqrt (len rvs) * Rabs (np_pow m (1 / p) / mean rvs - np_pow (Gamma (1 + p)) (1 / p))).
(** 313-318 *)
Definition co (rvs : list R) : result npval :=
  let y := map (fun x => x / mean rvs) rvs in
  fin_if (negb (nonempty rvs) || (negb (Reqb (mean rvs) 0) && all_pos y))
    (Rsum (map (fun v => ln v * (1 - v)) y) + len rvs).
(** 361-364 *)
Definition cvm_exp (lam : R) (rvs : list R) : result npval :=
  if Reqb lam 0 then Raise ZeroDivisionError
  else let! v := cvm_do_execute (map (expon_cdf (1 / lam)) (rsort rvs)) in Ok (Fin v).
(** 409-417 *)
Definition dsp (b : R) (rvs : list R) : result npval :=
  if (length rvs <=? 1)%nat then Raise ZeroDivisionError
  else Ok (Fin (sum_others (fun xi others => Rsum (map (fun xk => ind (Rltb (b * xk) xi)) others)) rvs
                / (len rvs * (len rvs - 1)))).
(** normalised spacings [np.arange(n, 0, -1) * (x[1:n+1] - x[0:n])] with x = ([0], rvs) *)
Fixpoint norm_spacings (prev : R) (l : list R) : list R :=
  match l with [] => [] | x :: t => INR (length l) * (x - prev) :: norm_spacings x t end.
(** 461-467, after the in-place sort *)
Definition eps_sorted (rvs : list R) : result npval :=
  let n := len rvs in let d := norm_spacings 0 rvs in
  match rvs with
  | [] => Raise ZeroDivisionError
  | _ => fin_if (all_pos d)
      (2 * n * (ln (Rsum d / n) - Rsum (map ln d) / n) / (1 + (n + 1) / (6 * n)))
  end.
(** 511-519, after the in-place sort *)
Definition fz_sorted (rvs : list R) : result npval :=
  let n := len rvs in let y := mean rvs in
  fin_if (nonempty rvs && negb (Reqb y 0))
    (1 / sqrt n * Rsum (imap (fun i x => Rabs (1 - exp (- x / y) - (INR (S i) - 0.5) / n)) rvs)).
(** 563-571; i*(n-i) times the i-th gap of the sorted sample *)
Definition gini (rvs : list R) : result npval :=
  let n := len rvs in let x := rsort rvs in
  fin_if ((2 <=? length rvs)%nat && negb (Reqb (Rsum x) 0))
    (Rsum (imap (fun i k => k * (INR (S i) * (n - INR (S i)))) (diff x)) / ((n - 1) * Rsum x)).
(** 616-623; r is a positive integer or absent *)
Definition gd (r : option nat) (rvs : list R) : result npval :=
  let n := length rvs in
  let r := match r with Some r => r | None => py_round_div n 2 end in
  match rsort (0 :: rvs) with
  | [] => Raise IndexError
  | x0 :: x =>
    let d := norm_spacings x0 x in
    if Nat.eqb r 0 || Nat.eqb r n then Raise ZeroDivisionError
    else let den := Rsum (skipn r d) / (INR n - INR r) in
         fin_if (negb (Reqb den 0)) (Rsum (firstn r d) / INR r / den)
  end.
(** 668-675; a slice [-r:] with r = 0 is the whole array and [r:-r] is then empty *)
Definition hm (r : option nat) (rvs : list R) : result npval :=
  let n := length rvs in
  let r := match r with Some r => r | None => py_round_div n 4 end in
  match rsort (0 :: rvs) with
  | [] => Raise IndexError
  | x0 :: x =>
    let d := norm_spacings x0 x in
    let den := Rsum (firstn (n - 2 * r) (skipn r d)) / (INR n - 2 * INR r) in
    fin_if ((1 <=? r)%nat && (2 * r <? n)%nat && negb (Reqb den 0))
      ((Rsum (firstn r d) + Rsum (skipn (n - r) d)) / (2 * INR r) / den)
  end.
(** expected order statistics -log(1 - i/(n+1)), 722 and 1289 *)
Definition exp_scores (n : nat) : list R := map (fun i => - ln (1 - INR (S i) / (INR n + 1))) (seq 0 n).
(** 720-725; [n ** (-1)] of the int 0 raises *)
Definition hg1 (rvs : list R) : result npval :=
  match rvs with
  | [] => Raise ZeroDivisionError
  | _ => Ok (Fin (/ len rvs * Rsum (map (fun p => Rabs (fst p - snd p)) (combine (rsort rvs) (exp_scores (length rvs))))))
  end.
(** 769-778 *)
Definition hp (rvs : list R) : result npval :=
  let n := len rvs in
  if (length rvs <=? 2)%nat then Raise ZeroDivisionError
  else Ok (Fin (2 / (n * (n - 1) * (n - 2))
                * sum_others (fun xi others => sum_pairs (fun xj xk => ind (Rltb (xj + xk) xi)) others) rvs)).
(** 822-829, after the in-place sort.  A quotient x/y < 0 makes arcsin(sqrt(.)) nan; the builtin [max]
    may or may not drop a nan, the model reports NonFinite *)
Definition km_sorted (rvs : list R) : result npval :=
  let n := len rvs in let y := mean rvs in
  match rvs with
  | [] => Raise ValueError
  | _ => fin_if (negb (Reqb y 0) && forallb (fun x => Rleb 0 (x / y)) rvs)
      (Rmaxl 0 (imap (fun i x => Rabs (2 / PI * asin (sqrt ((INR (S i) - 0.5) / n))
                                       - 2 / PI * asin (sqrt (1 - exp (- (x / y)))))) rvs))
  end.
(** 873-879, after the in-place sort *)
Definition kc_sorted (rvs : list R) : result npval :=
  let n := len rvs in
  fin_if (negb (Reqb (Rsum rvs) 0))
    (sqrt (108 * n / 17)
     * Rsum (imap (fun i x => let u := (INR i + 1) / (n + 1) in (2 * (1 - u) * (1 - ln (1 - u)) - 1) * x) rvs) / Rsum rvs).
(** 924-928, after the in-place sort; p >= 0, int(n*p) truncates; on an empty sample 0/0 of ints *)
Definition lz_sorted (p : R) (rvs : list R) : result npval :=
  match rvs with
  | [] => Raise ZeroDivisionError
  | _ => fin_if (negb (Reqb (Rsum rvs) 0)) (Rsum (firstn (Z.to_nat (Int_part (len rvs * p))) rvs) / Rsum rvs)
  end.
(** 972-976; [digamma1] is scipy.special.digamma(1) *)
Definition mn (digamma1 : R) (rvs : list R) : result npval :=
  let y := map (fun x => x / mean rvs) rvs in
  fin_if (nonempty rvs && negb (Reqb (mean rvs) 0) && all_pos y) (- digamma1 + mean (map ln y)).
(** 1020-1024 *)
Definition pt (rvs : list R) : result npval :=
  let xm := mean rvs in
  fin_if (nonempty rvs && negb (Reqb xm 0)) (Rsum (map (fun x => Rabs (x - xm)) rvs) / (2 * len rvs * xm)).
(** 1068-1073, after the in-place sort *)
Definition sw_sorted (rvs : list R) : result npval :=
  let n := len rvs in let y := mean rvs in
  match rvs with
  | [] => Raise IndexError
  | x0 :: _ =>
    let ss := Rsum (map (fun x => (x - y) ^ 2) rvs) in
    fin_if (negb (Reqb ((n - 1) * ss) 0)) (n * (y - x0) ^ 2 / ((n - 1) * ss))
  end.
(** 1117-1147 *)
Definition rs_h (xm a b c : R) : R :=
  ind (Rltb (a + b + c - 2 * Rmin a (Rmin b c) - Rmax a (Rmax b c)) xm).
Definition rs_g (xm a b : R) : R := ind (Rltb (Rmin a b) xm).
Definition rs (rvs : list R) : result npval :=
  let n := length rvs in
  match n with
  | 0%nat => Raise ZeroDivisionError
  | 1%nat | 2%nat => Raise ValueError
  | _ =>
    let sh := Rsum (map (fun xm => 6 * INR (fact (n - 3)) / INR (fact n) * sum_triples (rs_h xm) rvs) rvs) in
    let sg := Rsum (map (fun xm => 2 * INR (fact (n - 2)) / INR (fact n) * sum_pairs (rs_g xm) rvs) rvs) in
    Ok (Fin ((sh - sg) / INR n))
  end.
(** 1191-1196 *)
Definition we (rvs : list R) : result npval :=
  let n := len rvs in let m := mean rvs in
  fin_if (nonempty rvs && negb (Reqb m 0)) ((n - 1) * np_var rvs / (n ^ 2 * m ^ 2)).
(** 1240-1243 *)
Definition ww (rvs : list R) : result npval :=
  match rvs with
  | [] => Raise ValueError
  | _ => fin_if (negb (Reqb (Rminl 0 rvs) 0)) (Rmaxl 0 rvs / Rminl 0 rvs)
  end.
(** 1287-1292, after the in-place sort *)
Definition hg2_sorted (rvs : list R) : result npval :=
  match rvs with
  | [] => Raise ZeroDivisionError
  | _ => Ok (Fin (/ len rvs * Rsum (map (fun p => (fst p - snd p) ^ 2) (combine rvs (exp_scores (length rvs))))))
  end.

(** the classes of the module by name; keyword arguments, special functions and constructor arguments
    are parameters *)
Record exp_args := ExpArgs {
  a_Gamma : R -> R; a_digamma1 : R; a_lam : R; a_alt : alternative;
  a_p_atk : R; a_b_dsp : R; a_r_gd : option nat; a_r_hm : option nat; a_p_lz : R }.
Local Open Scope string_scope.
Definition exponentiality_statistics (A : exp_args) : list (string * (list R -> run)) := [
  ("EppsPulleyExponentialityGofStatistic", reads ep);
  ("KolmogorovSmirnovExponentialityGofStatistic", reads (ks_exp (a_lam A) (a_alt A)));
  ("AhsanullahExponentialityGofStatistic", reads ahs);
  ("AtkinsonExponentialityGofStatistic", reads (atk (a_Gamma A) (a_p_atk A)));
  ("CoxOakesExponentialityGofStatistic", reads co);
  ("CramerVonMisesExponentialityGofStatistic", reads (cvm_exp (a_lam A)));
  ("DeshpandeExponentialityGofStatistic", reads (dsp (a_b_dsp A)));
  ("EpsteinExponentialityGofStatistic", sorts eps_sorted);
  ("FroziniExponentialityGofStatistic", sorts fz_sorted);
  ("GiniExponentialityGofStatistic", reads gini);
  ("GnedenkoExponentialityGofStatistic", reads (gd (a_r_gd A)));
  ("HarrisExponentialityGofStatistic", reads (hm (a_r_hm A)));
  ("HegazyGreen1ExponentialityGofStatistic", reads hg1);
  ("HollanderProshanExponentialityGofStatistic", reads hp);
  ("KimberMichaelExponentialityGofStatistic", sorts km_sorted);
  ("KocharExponentialityGofStatistic", sorts kc_sorted);
  ("LorenzExponentialityGofStatistic", sorts (lz_sorted (a_p_lz A)));
  ("MoranExponentialityGofStatistic", reads (mn (a_digamma1 A)));
  ("PietraExponentialityGofStatistic", reads pt);
  ("ShapiroWilkExponentialityGofStatistic", sorts sw_sorted);
  ("RossbergExponentialityGofStatistic", reads rs);
  ("WeExponentialityGofStatistic", reads we);
  ("WongWongExponentialityGofStatistic", reads ww);
  ("HegazyGreen2ExponentialityGofStatistic", sorts hg2_sorted)
].
(** default keyword arguments: 253, 400, 607, 659, 915 *)
Definition default_exp_args (Gamma : R -> R) (digamma1 lam : R) (alt : alternative) : exp_args :=
  ExpArgs Gamma digamma1 lam alt (99/100) (44/100) None None (1/2).
