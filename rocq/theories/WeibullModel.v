(** Model of statistics/goodness_of_fit/weibull.py and of generate_weibull_cdf (core/distributions/weibull.py).

    Conventions as in NormModel.v: samples are numpy arrays read as reals, [NonFinite] is inf or nan ([np.log] of a
    number that is not positive gives -inf or nan, which every statistic below turns into inf or nan).  The parameters
    [a] and [k] are taken to be positive (scipy returns nan otherwise).  Parameters of the section: [minimise f lo hi] is
    the [x] of minimize_scalar(f, bounds=(lo, hi), method="bounded"), [Gam] is scipy.special.gamma, [gumbel_fit] is
    scipy.stats.gumbel_l.fit. *)
From Coq Require Import String.
From Verif Require Import Base DecModel EdfModel GraphModel RegistryModel ExpModel NormModel.
From Verif Require SamplerModel.

(** core/distributions/weibull.py:66: exponweib.cdf(x, a=a, c=k) = (1 - exp(-x^k))^a for positive x, else 0 *)
Definition weibull_cdf : R -> R -> R -> R := SamplerModel.generate_weibull_cdf.
(** 138-144: np.histogram with ceil(sqrt n) equal bins between the extremes (half a unit to both sides of a constant
    sample); relative frequencies are compared with differences of the cdf at the edges *)
Definition chi2_range (rvs : list R) : R * R :=
  let lo := Rminl 0 rvs in let hi := Rmaxl 0 rvs in
  if Reqb lo hi then (lo - 0.5, hi + 0.5) else (lo, hi).
Definition chi2_edge (rvs : list R) (k i : nat) : R :=
  fst (chi2_range rvs) + (snd (chi2_range rvs) - fst (chi2_range rvs)) * INR i / INR k.
Definition chi2_weibull (F : R -> R) (rvs : list R) : outcome :=
  match rvs with
  | [] => Raise ValueError
  | _ => let k := Nat.sqrt_up (length rvs) in
         let inner := map (fun i => chi2_edge rvs k (S i)) (seq 0 (k - 1)) in
         let observed := map (fun c => INR c / len rvs) (histogram inner (rsort rvs)) in
         let expected := diff (map (fun i => F (chi2_edge rvs k i)) (seq 0 (S k))) in
         Ok (Some (power_divergence 1 observed expected))
  end.
(** 258-265: do_execute_statistic of ADStatistic has no parameter [w] *)
Definition ad_weibull (gumbel_fit : list R -> result (R * R)) (rvs : list R) : outcome :=
  if all_pos rvs then let! _ := gumbel_fit (rsort (map ln rvs)) in Raise TypeError else Raise ValueError.
(** 357-369, 814-820: the weights Wi and Wn *)
Definition wpp_w (n : nat) : list R := map (fun i => ln ((INR n + 1) / (INR n - INR (S i) + 1))) (seq 0 (n - 1)).
Definition wpp_wi (n : nat) : list R := wpp_w n ++ [INR n - Rsum (wpp_w n)].
Definition wpp_wn (n : nat) : list R :=
  let wn := map (fun w => w * (1 + ln w) - 1) (wpp_w n) in wn ++ [0.4228 * INR n - Rsum wn].
Definition wpp_b (y : list R) : R := 0.6079 * dot (wpp_wn (length y)) y - 0.2570 * dot (wpp_wi (length y)) y.
(** 355-371 (class SbWeibullGofStatistic) and 813-822 (class SBWeibullGofStatistic) *)
Definition sb_weibull (rvs : list R) : outcome :=
  let y := rsort (map ln rvs) in
  num (all_pos rvs && varying y) (len rvs * (wpp_b y / len rvs) ^ 2 / ssq y).
(** 800-810 *)
Definition ok_sig (y : list R) : R :=
  dot (map (fun i => 2 * INR (S i) - 1 - len y) (seq 0 (length y))) y / (ln 2 * (len y - 1)).
Definition ok_weibull (rvs : list R) : outcome :=
  let y := rsort (map ln rvs) in let n := len rvs in
  num (all_pos rvs && negb (Reqb (ok_sig y) 0))
      ((wpp_b y / ok_sig y - 1 - 0.13 / sqrt n + 1.18 / n) / (0.49 / sqrt n - 0.36 / n)).
(** 412-423, 465-475: the standardised moments of -log x; Python's [sum] of an empty array is the int 0 *)
Definition neg_logs (rvs : list R) : list R := rsort (map Ropp (rsort (map ln rvs))).
Definition std_moment (k : nat) (x : list R) : R :=
  Rsum (map (fun v => ((v - mean x) / sqrt (ssq x / len x)) ^ k) x) / len x.
Definition st1_weibull (rvs : list R) : outcome :=
  match rvs with
  | [] => Raise ZeroDivisionError
  | _ => let x := neg_logs rvs in
         num (all_pos rvs && varying x) (((std_moment 3 x - 1.139547) / sqrt (20 / len rvs)) ^ 2)
  end.
Definition st2_weibull (rvs : list R) : outcome :=
  match rvs with
  | [] => Raise ZeroDivisionError
  | _ => let x := neg_logs rvs in
         num (all_pos rvs && varying x)
             (((std_moment 4 x - 7.55 * std_moment 3 x + 3.21) / sqrt (219.72 / len rvs)) ^ 2)
  end.
(** 517-529: the observations are paired with the scores as they come *)
Definition rsb_scores (n : nat) : list R := map (fun i => ln (- ln (1 - INR (S i) / (INR n + 1)))) (seq 0 n).
Definition rsb_weibull (rvs : list R) : outcome :=
  match rvs with
  | [] => Raise ZeroDivisionError
  | _ => let y := map ln rvs in let m := rsb_scores (length rvs) in
         let r := Rsum (map (fun p => (fst p - mean y) * (snd p - mean m)) (combine y m)) ^ 2 / ssq y / ssq m in
         num (all_pos rvs && varying y && varying m) (len rvs * (1 - r))
  end.
(** 541-570: GoFNS(1, n, n) *)
Definition gofns_at (n : nat) (i : nat) : R :=
  let p := INR (S i) / (INR n + 1) in
  let q := 1 - p in
  let Q := ln (- ln (1 - p)) in
  let d := -1 / ((1 - p) * ln (1 - p)) in
  let d2 := d / q - d * d in
  let d3 := d2 / q + d / (q * q) - 2 * (d * d2) in
  let d4 := d3 / q + 2 * d2 / (q * q) + (2 * d / (q * q * q) - 2 * (d2 * d2 + d * d3)) in
  Q + p * q / (2 * (INR n + 2)) * d2
    + q * p / ((INR n + 2) * (INR n + 2)) * (1 / 3 * (q - p) * d3 + 1 / 8 * p * q * d4).
Definition gofns (n : nat) : list R := map (gofns_at n) (seq 0 n).
(** 584-597: the normalised spacings G2; G1 is G2 without its last element *)
Definition ns_ratios (rvs : list R) : list R :=
  map (fun p => fst p / snd p) (combine (diff (rsort (map ln rvs))) (diff (gofns (length rvs)))).
(** no division by zero in the ratios *)
Definition ns_ok (rvs : list R) : bool := all_pos rvs && forallb (fun d => negb (Reqb d 0)) (diff (gofns (length rvs))).
(** 599-604 *)
Definition ts_weibull (rvs : list R) : outcome :=
  let m := length rvs in let g2 := ns_ratios rvs in
  let w1 := 2 * Rsum (imap (fun i g => (INR m - 1 - INR (S i)) * g) (firstn (m - 2) g2)) in
  let w2 := (INR m - 2) * Rsum g2 in
  num (ns_ok rvs && (2 <? m)%nat && negb (Reqb w2 0)) (w1 / w2).
(** 605-613; for fewer than two observations the sum is empty and no data are used *)
Definition los_z (rvs : list R) : list R :=
  let g2 := ns_ratios rvs in map (fun i => Rsum (firstn (S i) g2) / Rsum g2) (seq 0 (length rvs - 2)).
Definition los_weibull (rvs : list R) : outcome :=
  let m := length rvs in
  if (m =? 2)%nat then Raise ZeroDivisionError
  else if (m <? 2)%nat then num true (2 - INR m)
  else if ns_ok rvs && negb (Reqb (Rsum (ns_ratios rvs)) 0)
       then Ok (Some (ad_of_cdf (rsort (los_z rvs)))) else Ok (Some NonFinite).
(** 614-620 *)
Definition msf_weibull (rvs : list R) : outcome :=
  let m := length rvs in let g2 := ns_ratios rvs in
  num (ns_ok rvs && negb (Reqb (Rsum g2) 0)) (Rsum (skipn (m / 2) g2) / Rsum g2).
(** 761-772: the function that MLEst minimises, for the values y = -log x *)
Definition mlest_f1 (y : list R) (t : R) : R :=
  Rabs (if Reqb t 0 then 100
        else Rsum y / len y - (Rsum (map (fun v => v * exp (- v * t)) y) / Rsum (map (fun v => exp (- v * t)) y) - 1 / t)).
Record estimates := Estimates { es_eta : R; es_beta : R; es_y : list R }.
(** 1081-1095; [F0] at the sorted sample; a cdf value 0 has an infinite logarithm *)
Definition md_weibull (F : R -> R) (rvs : list R) : outcome :=
  let u := map F (rsort rvs) in let n := length rvs in
  let at_ i := nth i u 0 in
  let e i := INR i / INR n - 1 in
  let term1 := Rsum (map (fun i => e i ^ 2 * (ln (at_ i) - ln (at_ (i - 1)%nat))) (seq 1 (n - 1))) in
  let term2 := Rsum (map (fun i => e i * (at_ i - at_ (i - 1)%nat)) (seq 1 (n - 1))) in
  num ((n <? 2)%nat || all_pos u) (INR n * (term1 + 2 * term2 + 0.5)).
(** 1189-1203 *)
Definition ls_weibull (F : R -> R) (rvs : list R) : outcome :=
  let u := map F (rsort rvs) in
  num (all_pos u && negb (Nat.eqb (length rvs) 0))
      (Rsum (imap (fun i x => Rmax (INR (S i) / len u - x) (x - INR i / len u) / sqrt (x * (1 - x + 1e-10))) u) / sqrt (len u)).
(** 1245-1263 with the default window m = n // 2 *)
Definition kl_window (s : list R) (i : nat) : R :=
  let n := length s in let m := (n / 2)%nat in nth (Nat.min (n - 1) (i + m)) s 0 - nth (i - m) s 0.
Definition kl_weibull (rvs : list R) : outcome :=
  let s := map ln (rsort rvs) in let n := length rvs in
  if (n =? 1)%nat then Raise ZeroDivisionError
  else num ((1 <? n)%nat && all_pos rvs && forallb (fun i => Rltb 0 (kl_window s i)) (seq 0 n))
           (- (Rsum (map (fun i => ln (INR n / (2 * INR (n / 2)) * kl_window s i)) (seq 0 n)) / INR n) - mean s + mean (map exp s)).

Section Weibull.
Variables (minimise : (R -> R) -> R -> R -> R) (Gam : R -> R) (gumbel_fit : list R -> result (R * R)).
(** 749-778 *)
Definition mlest (rvs : list R) : result estimates :=
  match rvs with
  | [] => Raise ValueError
  | _ => if Rleb (Rminl 0 rvs) 0 then Raise ValueError
         else let y := rsort (map (fun x => - ln x) rvs) in
              let t := minimise (mlest_f1 y) 0.0001 50 in
              let aux := Rsum (map (fun v => exp (- v * t)) y) / len rvs in
              let ksi := - (1 / t) * ln aux in
              Ok (Estimates (exp (- ksi)) t (map (fun v => - (v - ksi) * t) y))
  end.
(** 834-840 *)
Definition rejg_scores (n : nat) (beta : R) : list R :=
  map (fun i => ln (- ln (1 - (INR (S i) - 0.3175) / (INR n + 0.365))) / beta) (seq 0 n).
Definition rejg_weibull (rvs : list R) : outcome :=
  let! e := mlest rvs in
  let y := rsort (map ln rvs) in let m := rejg_scores (length rvs) (es_beta e) in
  num (varying y && varying m) ((dot (map (fun v => v - mean y) y) m ^ 2 / (ssq y * ssq m)) ^ 2).
(** 842-846 *)
Definition spp_r (n : nat) : list R := map (fun i => 2 / PI * asin (sqrt ((INR (S i) - 0.5) / INR n))) (seq 0 n).
Definition spp_s (y : list R) : list R := map (fun v => 2 / PI * asin (sqrt (1 - exp (- exp v)))) y.
Definition spp_weibull (rvs : list R) : outcome :=
  let! e := mlest rvs in
  lift (np_max (map (fun p => Rabs (fst p - snd p)) (combine (spp_r (length rvs)) (spp_s (es_y e))))).
(** 1288-1308; [np.linspace(lo, hi, m)] *)
Definition linspace (lo hi : R) (m : nat) : list R := map (fun i => lo + (hi - lo) * INR i / (INR m - 1)) (seq 0 m).
Definition lt_execute (m : nat) (a : R) (type_ : string) (rvs : list R) : outcome :=
  let! ts := (if String.eqb type_ "LT2_WEIBULL" then Ok (map (fun t => t / INR m) (linspace (- INR m) (-1) m))
              else if String.eqb type_ "LT3_WEIBULL" then Ok (linspace (-2.5) 0.49 m)
              else Raise ValueError) in
  num (negb (Nat.eqb (length rvs) 0))
      (len rvs * Rsum (map (fun t => exp (- exp (a * t) + a * t) * (Gam (1 - t) - Rsum (map (fun x => exp (- (x * t))) rvs) / len rvs) ^ 2) ts)).
(** 1341-1351, 1384-1393: the type is the code of the class *)
Definition lt2_weibull : list R -> outcome := lt_execute 100 (-5) ("LT2_" ++ weibull_base).
Definition lt3_weibull : list R -> outcome := lt_execute 100 (-5) ("LT3_" ++ weibull_base).
(** 1436-1456 *)
Definition cq_weibull (rvs : list R) : outcome :=
  let s1 := - 0.1 in let s2 := 0.02 in let v1 := 1.59 in let v2 := 0.53 in let v12 := 0.91 in
  let vn s := sqrt (len rvs) * (mean (map (fun x => exp (- x * s)) rvs) - Gam (1 - s)) in
  num (negb (Nat.eqb (length rvs) 0))
      (1 / (v1 * v2 - v12 ^ 2) * (v2 * vn s1 ^ 2 - 2 * vn s1 * vn s2 * v12 + v1 * vn s2 ^ 2)).
(** the arguments of the constructors (34-36, 274-281) *)
Record weibull_args := WeibullArgs { wa_a : R; wa_k : R; wa_alt : alternative }.
(** parameters for which scipy's exponweib is defined *)
Definition valid_args (A : weibull_args) : Prop := 0 < wa_a A /\ 0 < wa_k A.
Local Open Scope string_scope.
Definition weibull_statistics (A : weibull_args) : list (string * (list R -> nrun)) :=
  let F := weibull_cdf (wa_a A) (wa_k A) in [
  ("MinToshiyukiWeibullGofStatistic", nreads (fun rvs => Ok (Some (mt_stat F rvs))));
  ("Chi2PearsonWeibullGofStatistic", nreads (chi2_weibull F));
  ("LillieforsWeibullGofStatistic", nreads (fun rvs => lift (ks_stat F TWO_TAILED rvs)));
  ("CrammerVonMisesWeibullGofStatistic", nreads (fun rvs => lift (cvm_stat F rvs)));
  ("AndersonDarlingWeibullGofStatistic", nreads (ad_weibull gumbel_fit));
  ("KolmogorovSmirnovWeibullGofStatistic", nreads (fun rvs => lift (ks_stat F (wa_alt A) rvs)));
  ("SbWeibullGofStatistic", nreads sb_weibull);
  ("ST2WeibullGofStatistic", nreads st2_weibull);
  ("ST1WeibullGofStatistic", nreads st1_weibull);
  ("RSBWeibullGofStatistic", nreads rsb_weibull);
  ("TikuSinghWeibullGofStatistic", nreads ts_weibull);
  ("LOSWeibullGofStatistic", nreads los_weibull);
  ("MSFWeibullGofStatistic", nreads msf_weibull);
  ("OKWeibullGofStatistic", nreads ok_weibull);
  ("SBWeibullGofStatistic", nreads sb_weibull);
  ("REJGWeibullGofStatistic", nreads rejg_weibull);
  ("SPPWeibullGofStatistic", nreads spp_weibull);
  ("MahdiDoostparastWeibullGofStatistic", nreads (md_weibull F));
  ("WatsonWeibullGofStatistic", nreads (fun rvs => lift (watson_stat F rvs)));
  ("LiaoShimokawaWeibullGofStatistic", nreads (ls_weibull F));
  ("KullbackLeiblerWeibullGofStatistic", nreads kl_weibull);
  ("LaplaceTransform2WeibullGofStatistic", nreads lt2_weibull);
  ("LaplaceTransform3WeibullGofStatistic", nreads lt3_weibull);
  ("CabanaQuirozWeibullGofStatistic", nreads cq_weibull)
].
End Weibull.
