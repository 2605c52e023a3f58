(** Model of statistics/goodness_of_fit/student.py.

    Conventions as in NormModel.v.  [T df x] stands for scipy.stats.t.cdf(x, df) and [Q df p] for
    scipy.stats.t.ppf(p, df); what theorems need about them is [student_law] (StudentSpec.v). *)
From Coq Require Import String.
From Verif Require Import Base DecModel EdfModel GraphModel ExpModel NormModel.

(** 24-31 *)
Definition student_ctor (df loc scale : R) : result (R * R * R) :=
  if Rleb df 0 then Raise ValueError else if Rleb scale 0 then Raise ValueError else Ok (df, loc, scale).
Local Open Scope string_scope.
(** 33-35, and hypothesis() of the other families: exponent.py:44-45, gamma.py:59-60, beta.py:37-38,
    uniform.py:32-33, log_normal.py:35-36, weibull.py:40-41 *)
Definition student_hypothesis (p : R * R * R) : list (string * R) := [("df", fst (fst p))].
Definition exponential_hypothesis (lam : R) : list (string * R) := [("lam", lam)].
Definition gamma_hypothesis (p : R * R) : list (string * R) := [("alpha", fst p); ("beta", snd p)].
Definition beta_hypothesis (p : R * R) : list (string * R) := [("alpha", fst p); ("beta", snd p)].
Definition uniform_hypothesis (p : R * R) : list (string * R) := [("a", fst p); ("b", snd p)].
Definition lognormal_hypothesis (p : R * R) : list (string * R) := [("s", fst p); ("scale", snd p)].
Definition weibull_hypothesis (p : R * R) : list (string * R) := [("a", fst p); ("k", snd p)].

Section Student.
Variables (T Q : R -> R -> R).
(** 115-116 and the like *)
Definition student_cdf (df loc scale x : R) : R := T df ((x - loc) / scale).
(** 57-66 *)
Definition clip_eps : R := / 10 ^ 10.
Definition np_clip (u : R) : R := Rmin (1 - clip_eps) (Rmax clip_eps u).
Definition clipped_cdf (df loc scale : R) (rvs : list R) : list R := map np_clip (cdf_vals (student_cdf df loc scale) rvs).
(** 358-360 *)
Definition zc_term2 (n : R) (i : nat) : R :=
  let t := (n - 0.5) / INR (S i) - 1 in if Rleb t 0 then / 10 ^ 10 else t.
(** 355-363; an empty sum is 0 *)
Definition zhang_zc_of (u : list R) : R :=
  Rsum (imap (fun i x => ln ((1 / x - 1) / zc_term2 (len u) i) ^ 2) u).
(** 410-414 *)
Definition zhang_za_of (u : list R) : R :=
  - Rsum (imap (fun i x => ln x / (len u - INR (S i) + 0.5)) u)
  - Rsum (imap (fun i x => ln (1 - x) / (INR (S i) - 0.5)) u).
(** 341-363, 396-414 *)
Definition zhang_zc_student (df loc scale : R) (rvs : list R) : outcome := num true (zhang_zc_of (clipped_cdf df loc scale rvs)).
Definition zhang_za_student (df loc scale : R) (rvs : list R) : outcome := num true (zhang_za_of (clipped_cdf df loc scale rvs)).
(** 502-528; for an empty sample every term is 0/0 *)
Definition chi2_student (df loc scale : R) (n_bins : nat) (rvs : list R) : outcome :=
  let standardized := map (fun x => (x - loc) / scale) rvs in
  let inner := map (fun i => Q df (INR (S i) / INR n_bins)) (seq 0 (n_bins - 1)) in
  Ok (Some (power_divergence 1 (map INR (histogram inner standardized)) (repeat (len rvs / INR n_bins) n_bins))).
Record student_args := StudentArgs { st_df : R; st_loc : R; st_scale : R; st_alt : alternative; st_bins : nat }.
Definition student_statistics (A : student_args) : list (string * (list R -> nrun)) :=
  let F := student_cdf (st_df A) (st_loc A) (st_scale A) in [
  ("KolmogorovSmirnovStudentGofStatistic", nreads (fun rvs => lift (ks_stat F (st_alt A) rvs)));
  ("AndersonDarlingStudentGofStatistic", nreads (fun rvs => Ok (Some (ad_stat F rvs))));
  ("CramerVonMisesStudentGofStatistic", nreads (fun rvs => lift (cvm_stat F rvs)));
  ("KuiperStudentGofStatistic", nreads (fun rvs => lift (kuiper_stat F rvs)));
  ("WatsonStudentGofStatistic", nreads (fun rvs => lift (watson_stat F rvs)));
  ("ZhangZcStudentGofStatistic", nreads (zhang_zc_student (st_df A) (st_loc A) (st_scale A)));
  ("ZhangZaStudentGofStatistic", nreads (zhang_za_student (st_df A) (st_loc A) (st_scale A)));
  (* 417-459: LillieforsStudent.__init__ takes df only *)
  ("LillieforsStudentGofStatistic", nreads (fun rvs => lift (ks_stat (T (st_df A)) TWO_TAILED rvs)));
  ("ChiSquareStudentGofStatistic", nreads (chi2_student (st_df A) (st_loc A) (st_scale A) (st_bins A)))
].
End Student.
