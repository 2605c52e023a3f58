(** Published definitions of the statistics of transformed samples. *)
From Coq Require Import String.
From Coquelicot Require Import Coquelicot.
From Verif Require Import Base EdfSpec GammaSpec NormalLaw NormMoreSpec WeibullFormSpec.
Local Open Scope R_scope.

(** ** weighted squared distances of the empirical distribution function of a sample in the unit interval from the diagonal *)
Definition cramer_von_mises (u : list R) : R := len u * RInt (fun t => (edf u t - t) ^ 2) 0 1.
Definition anderson_darling (u : list R) : R := len u * RInt (fun t => (edf u t - t) ^ 2 / (t * (1 - t))) 0 1.
(** Watson (1961): the distance is centred *)
Definition watson (u : list R) : R :=
  len u * RInt (fun t => (edf u t - t - RInt (fun s => edf u s - s) 0 1) ^ 2) 0 1.
(** Kuiper (1960) *)
Definition kuiper (F : R -> R) (l : list R) (v : R) : Prop :=
  exists above below, supremum (fun x => edf l x - F x) above /\ supremum (fun x => F x - edf l x) below /\ v = above + below.

(** ** spacings: gap 0, ..., gap n of the ordered sample between lo and hi *)
Definition gap (lo hi : R) (l : list R) (i : nat) : R :=
  let s := lo :: rsort l ++ [hi] in nth (S i) s 0 - nth i s 0.
Definition gap_sum (lo hi : R) (l : list R) (f : R -> R) : R := Rsum (map (fun i => f (gap lo hi l i)) (seq 0 (S (length l)))).
(** Greenwood (1946) *)
Definition greenwood (u : list R) : R := gap_sum 0 1 u (fun d => d ^ 2).
(** Moran (1951), with the factor n of the documentation *)
Definition moran (u : list R) : R := - gap_sum 0 1 u (fun d => ln (len u * d)).
(** Sherman (1950) *)
Definition sherman (lo hi : R) (l : list R) : R := / 2 * gap_sum lo hi l (fun d => Rabs (d - (hi - lo) / (len l + 1))).
(** Quesenberry and Miller (1977) *)
Definition quesenberry_miller (lo hi : R) (l : list R) : R :=
  gap_sum lo hi l (fun d => d ^ 2) + Rsum (map (fun i => gap lo hi l i * gap lo hi l (S i)) (seq 0 (length l))).

(** ** the i-th smallest value, i = 1, ..., n *)
Definition order (u : list R) (i : nat) : R := nth (i - 1) (rsort u) 0.
(** the distance of the empirical distribution function near the i-th order statistic in units of its standard deviation *)
Definition min_toshiyuki (u : list R) : R :=
  let n := length u in
  / sqrt (INR n) * Rsum (map (fun i => Rmax (INR i / INR n - order u i) (order u i - (INR i - 1) / INR n) / sqrt (order u i * (1 - order u i))) (seq 1 n)).
(** Zhang (2002) *)
Definition zhang_a (u : list R) : R :=
  let n := length u in
  - Rsum (map (fun i => ln (order u i) / (INR n - INR i + / 2) + ln (1 - order u i) / (INR i - / 2)) (seq 1 n)).

(** ** power divergence of Cressie and Read (1984) of observed and expected cell counts *)
Definition cressie_read (lambda : R) (k : nat) (o e : nat -> R) : R :=
  if Req_EM_T lambda 0 then 2 * Rsum (map (fun i => o i * ln (o i / e i)) (seq 0 k))
  else if Req_EM_T lambda (-1) then 2 * Rsum (map (fun i => e i * ln (e i / o i)) (seq 0 k))
  else 2 / (lambda * (lambda + 1)) * Rsum (map (fun i => o i * (Rpower (o i / e i) lambda - 1)) (seq 0 k)).
(** observations in the i-th of k equal cells of [lo, hi] *)
Definition cell_count (lo hi : R) (k : nat) (l : list R) (i : nat) : R := INR (count (in_cell lo hi k i) l).

(** ** the definition that belongs to each class; F is the hypothesised distribution function, u the transformed sample *)
Definition is (r : R) : R -> Prop := fun v => v = r.
Local Open Scope string_scope.
(** k cells of equal probability *)
Definition equal_cells_divergence (lambda : R) (k : nat) (u : list R) : R :=
  cressie_read lambda k (cell_count 0 1 k u) (fun _ => len u / INR k).
Definition gamma_published (F Q : R -> R) (k : nat) (lambda : R) (l : list R) : list (string * (R -> Prop)) :=
  let u := map F l in [
  ("AndersonDarlingGammaGofStatistic", is (anderson_darling u));
  ("CramerVonMisesGammaGofStatistic", is (cramer_von_mises u));
  ("WatsonGammaGofStatistic", is (watson u));
  ("KuiperGammaGofStatistic", kuiper F l);
  ("GreenwoodGammaGofStatistic", is (greenwood u));
  ("MoranGammaGofStatistic", is (moran u));
  ("MinToshiyukiGammaGofStatistic", is (min_toshiyuki u));
  ("Chi2PearsonGammaGofStatistic", is (equal_cells_divergence 1 k u));
  ("LikelihoodRatioGammaGofStatistic", is (equal_cells_divergence 0 k u));
  ("CressieReadGammaGofStatistic", is (equal_cells_divergence lambda k u));
  ("ProbabilityPlotCorrelationGammaGofStatistic", is (1 - correlation (rsort l) (blom_quantiles Q (List.length l))))].
Definition beta_published (F : R -> R) (lambda : R) (l : list R) : list (string * (R -> Prop)) :=
  let u := map F l in let k := Nat.sqrt_up (List.length l) in [
  ("AndersonDarlingBetaGofStatistic", is (anderson_darling u));
  ("CrammerVonMisesBetaGofStatistic", is (cramer_von_mises u));
  ("WatsonBetaGofStatistic", is (watson u));
  ("KuiperBetaGofStatistic", kuiper F l);
  ("Chi2PearsonBetaGofStatistic", is (cressie_read lambda k (cell_count 0 1 k l) (fun i => len l * (F (INR (S i) / INR k) - F (INR i / INR k)))))].
(** the Za class replaces probabilities closer than 1e-10 to 0 or 1 *)
Definition away_from_ends (p : R) : R := Rmin (1 - / 10 ^ 10) (Rmax (/ 10 ^ 10) p).
Definition student_published (F : R -> R) (k : nat) (l : list R) : list (string * (R -> Prop)) :=
  let u := map F l in [
  ("AndersonDarlingStudentGofStatistic", is (anderson_darling u));
  ("CramerVonMisesStudentGofStatistic", is (cramer_von_mises u));
  ("WatsonStudentGofStatistic", is (watson u));
  ("KuiperStudentGofStatistic", kuiper F l);
  ("ZhangZaStudentGofStatistic", is (zhang_a (map away_from_ends u)));
  ("ChiSquareStudentGofStatistic", is (equal_cells_divergence 1 k u))].
(** the distribution function of the uniform law on [a, b] *)
Definition interval_cdf (a b x : R) : R := Rmax 0 (Rmin 1 ((x - a) / (b - a))).
Definition uniform_published (a b : R) (k : nat) (lambda : R) (l : list R) : list (string * (R -> Prop)) :=
  let u := map (interval_cdf a b) l in [
  ("AndersonDarlingUniformGofStatistic", is (anderson_darling u));
  ("CrammerVonMisesUniformGofStatistic", is (cramer_von_mises u));
  ("KuiperUniformGofStatistic", kuiper (interval_cdf a b) l);
  ("GreenwoodTestUniformGofStatistic", is (greenwood u));
  ("ShermanUniformGofStatistic", is (sherman a b l));
  ("QuesenberryMillerUniformGofStatistic", is (quesenberry_miller a b l));
  ("Chi2PearsonUniformGofStatistic", is (equal_cells_divergence lambda k u))].
Definition weibull_published (F : R -> R) (l : list R) : list (string * (R -> Prop)) :=
  let u := map F l in [
  ("CrammerVonMisesWeibullGofStatistic", is (cramer_von_mises u));
  ("WatsonWeibullGofStatistic", is (watson u));
  ("MinToshiyukiWeibullGofStatistic", is (min_toshiyuki u))].
(** the normal law with the mean and the standard deviation of the sample *)
Definition fitted_normal_cdf (l : list R) (x : R) : R := norm_cdf ((x - mean l) / sqrt (square_sum l / (len l - 1))).
Definition normal_published (l : list R) : list (string * (R -> Prop)) := [
  ("AndersonDarlingNormalityGofStatistic", is (anderson_darling (map (fitted_normal_cdf l) l)));
  ("CramerVonMiseNormalityGofStatistic", is (cramer_von_mises (map norm_cdf l)));
  ("ZhangWuANormalityGofStatistic", is (10 * zhang_a (map (fitted_normal_cdf l) l) - 32))].
