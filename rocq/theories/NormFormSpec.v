(** Notions used in the statements about the form of the normality statistics. *)
From Verif Require Import Base NormalLaw.
Local Open Scope R_scope.

(** ** L-moments
    the choices of k values out of a list, each in the order of the list *)
Fixpoint subsamples (k : nat) (l : list R) : list (list R) :=
  match k, l with
  | O, _ => [[]]
  | S _, [] => []
  | S k', x :: l' => map (cons x) (subsamples k' l') ++ subsamples k l'
  end.
(** the finite difference of order r of a sequence at i *)
Fixpoint difference (r : nat) (x : nat -> R) (i : nat) : R :=
  match r with O => x i | S r' => difference r' x (S i) - difference r' x i end.
(** the sample L-moment of order r when t values are trimmed at both ends: the average, over all subsamples of
    r + 2 t values, of the difference of order r - 1 of the r middle order statistics, divided by r
    (Hosking 1990 for t = 0; Elamir and Seheult 2003) *)
Definition l_moment (t r : nat) (l : list R) : R :=
  mean (map (fun s => difference (r - 1) (fun i => nth i s 0) t / INR r) (subsamples (r + 2 * t) (rsort l))).
(** the test statistic from the L-skewness and L-kurtosis: expected L-kurtosis and the two variances under normality *)
Definition l_moment_test (mu v3 v4 : R) (t : nat) (l : list R) : R :=
  (l_moment t 3 l / l_moment t 2 l) ^ 2 / v3 + (l_moment t 4 l / l_moment t 2 l - mu) ^ 2 / v4.
(** the simulated constants (expected L-kurtosis, variance of L-skewness, variance of L-kurtosis) for samples of up
    to 25, up to 50 and more values *)
Definition null_moments (t n : nat) : R * R * R :=
  match t, (if (n <=? 25)%nat then 0 else if (n <=? 50)%nat then 1 else 2)%nat with
  | O, O => (0.12383, 0.0088038, 0.0049295) | O, 1%nat => (0.12321, 0.0040493, 0.0020802) | O, _ => (0.12291, 0.0019434, 0.00095785)
  | 1%nat, O => (0.067077, 0.0081391, 0.0042752) | 1%nat, 1%nat => (0.064456, 0.0034657, 0.0015699) | 1%nat, _ => (0.063424, 0.0016064, 0.00068100)
  | 2%nat, O => (0.044174, 0.0086570, 0.0042066) | 2%nat, 1%nat => (0.040389, 0.0033818, 0.0013301) | 2%nat, _ => (0.039030, 0.0015120, 0.00054207)
  | _, O => (0.033180, 0.0095765, 0.0044609) | _, 1%nat => (0.028224, 0.0033813, 0.0011823) | _, _ => (0.026645, 0.0014547, 0.00045107)
  end.

(** ** slopes in the normal probability plot *)
(** Blom's approximation of the expected order statistics *)
Definition blom (n i : nat) : R := norm_ppf ((INR (S i) - 3 / 8) / (INR n + 1 / 4)).
(** the slope of the probability plot between the order statistics i and j, counted from 0 *)
Definition slope (l : list R) (i j : nat) : R :=
  (nth j (rsort l) 0 - nth i (rsort l) 0) / (blom (length l) j - blom (length l) i).
(** averages of the slopes from the smallest value, over four places and between neighbours *)
Definition slopes_from_first (l : list R) : R := mean (map (slope l 0) (seq 1 (length l - 1))).
Definition slopes_over_four (l : list R) : R := mean (map (fun i => slope l i (i + 4)) (seq 0 (length l - 4))).
Definition slopes_of_neighbours (l : list R) : R := mean (map (fun i => slope l i (S i)) (seq 0 (length l - 1))).
(** the sample lies on a straight line in the probability plot *)
Definition straight (l : list R) : Prop :=
  exists a b, 0 < b /\ rsort l = map (fun i => a + b * blom (length l) i) (seq 0 (length l)).

(** ** regression without intercept on the powers 1 and 3 of given scores *)
Definition cubic_error (a z : list R) (b1 b3 : R) : R :=
  Rsum (map (fun p => (snd p - b1 * fst p - b3 * fst p ^ 3) ^ 2) (combine a z)).
Definition best_cubic (a z : list R) (b1 b3 : R) : Prop := forall c1 c3, cubic_error a z b1 b3 <= cubic_error a z c1 c3.

(** ** Hermite polynomials, He_0 = 1, He_1 = x, He_(k+1) = x He_k - k He_(k-1) *)
Fixpoint hermite_pair (k : nat) (x : R) : R * R :=
  match k with O => (1, x) | S k' => let (p, q) := hermite_pair k' x in (q, x * q - INR k * p) end.
(** normalised to variance one under the standard normal law *)
Definition hermite (k : nat) (x : R) : R := fst (hermite_pair k x) / sqrt (INR (fact k)).
(** standardised sample, with the divisor n - 1 in the variance *)
Definition standardised (l : list R) : list R :=
  map (fun x => (x - mean l) / sqrt (Rsum (map (fun x => (x - mean l) ^ 2) l) / (len l - 1))) l.
(** sqrt n times the average of the normalised Hermite polynomial of order k *)
Definition hermite_mean (k : nat) (l : list R) : R := Rsum (map (hermite k) (standardised l)) / sqrt (len l).

(** ** sample moments *)
Definition central (k : nat) (l : list R) : R := mean (map (fun x => (x - mean l) ^ k) l).
Definition sample_skewness (l : list R) : R := central 3 l / Rpower (central 2 l) (3 / 2).
Definition sample_kurtosis (l : list R) : R := central 4 l / central 2 l ^ 2.
(** sum of the distances of all pairs *)
Fixpoint pair_sum (l : list R) : R :=
  match l with [] => 0 | x :: l' => Rsum (map (fun y => Rabs (x - y)) l') + pair_sum l' end.
(** a median: half of the values on both sides *)
Definition is_median (m : R) (l : list R) : Prop := forall c, Rsum (map (fun x => Rabs (x - m)) l) <= Rsum (map (fun x => Rabs (x - c)) l).

(** ** distances *)
(** the smallest value of the statistic Z_A: that of probabilities (i - 1/2) / n *)
Definition zwa_floor (n : nat) : R :=
  - 10 * Rsum (map (fun i => let c := (2 * INR (S i) - 1) / (2 * INR n) in ln c / (INR n - INR (S i) + 1 / 2) + ln (1 - c) / (INR (S i) - 1 / 2)) (seq 0 n)) - 32.
(** the probability of at least k successes in n independent trials of probability p *)
Definition at_least (k n : nat) (p : R) : R := Rsum (map (fun j => C n j * p ^ j * (1 - p) ^ (n - j)) (seq k (n + 1 - k))).
(** the largest absolute value of a function over a sample *)
Definition largest_deviation (v : R) (f : R -> R) (l : list R) : Prop :=
  (exists x, In x l /\ v = Rabs (f x)) /\ forall x, In x l -> Rabs (f x) <= v.
(** the expansions of the Cabana-Cabana processes in Hermite polynomials *)
Definition smooth_skewness (l : list R) (v : R) : R :=
  norm_cdf v * hermite_mean 3 l
  - norm_pdf v * Rsum (map (fun j => hermite (j - 1) v / sqrt (INR j) * hermite_mean (3 + j) l) (seq 1 5)).
Definition smooth_kurtosis (l : list R) (v : R) : R :=
  - norm_pdf v * hermite_mean 3 l + (norm_cdf v - v * norm_pdf v) * hermite_mean 4 l
  - norm_pdf v * Rsum (map (fun j => (sqrt (INR (j + 1) / INR j) * hermite (j - 1) v + hermite (j + 1) v) * hermite_mean (4 + j) l) (seq 1 4)).

(** ** Royston's approximation of the weights of Shapiro and Wilk (1992)
    a0 + a1 u + ... + a5 u^5 *)
Definition polynomial (a : list R) (u : R) : R := fold_right (fun c acc => c + u * acc) 0 a.
Definition blom_scores (n : nat) : list R := map (blom n) (seq 0 n).
Definition royston_last (n : nat) : R :=
  polynomial [blom n (n - 1) / sqrt (Rsum (map (fun m => m ^ 2) (blom_scores n))); 0.221157; -0.147981; -2.071190; 4.434685; -2.706056] (/ sqrt (INR n)).
Definition royston_second_last (n : nat) : R :=
  polynomial [blom n (n - 2) / sqrt (Rsum (map (fun m => m ^ 2) (blom_scores n))); 0.042981; -0.293762; -1.752461; 5.682633; -3.582633] (/ sqrt (INR n)).
(** the weights: antisymmetric, of length one, the outermost (n <= 5) or two outermost given by Royston's polynomials,
    the others proportional to the scores; (sqrt 0.5, 0, - sqrt 0.5) for three observations *)
Definition royston_weights (n : nat) (a : list R) : Prop :=
  length a = n /\ map Ropp a = rev a /\ Rsum (map (fun x => x ^ 2) a) = 1 /\
  if (n =? 3)%nat then nth 0 a 0 = sqrt 0.5
  else let k := if (n <=? 5)%nat then 1%nat else 2%nat in
       nth (n - 1) a 0 = royston_last n /\ (k = 2%nat -> nth (n - 2) a 0 = royston_second_last n) /\
       exists c, 0 < c /\ forall i, (k <= i < n - k)%nat -> nth i a 0 = c * blom n i.
(** Royston's algorithm AS 177: corrections of the approximate normal order statistics of rank 1 to 7 in millionths,
    c1 + c2/n^2 + c3/n^4, used up to n = 20, for rank 4 up to n = 40 *)
Definition royston_corrections : list (R * R * R) :=
  [(9.5, -6195, 93380); (28.7, -9569, 175160); (1.9, -6728, 410400); (0, -17614, 2157600);
   (-7, -8278, 2376000); (-6.2, -3570, 2065000); (-1.6, 1075, 2065000)].
Definition royston_limit (rank : nat) : nat := if Nat.eqb rank 4 then 40 else 20.
