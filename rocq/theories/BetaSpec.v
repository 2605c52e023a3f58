(** Notions used in the statements about beta statistics. *)
From Verif Require Import Base EdfSpec.
Local Open Scope R_scope.

(** what is used of the beta distribution and of scipy.special *)
Record beta_law (B : R -> R -> R -> R) (betaln : R -> R -> R) : Prop := {
  bl_cdf : forall a b, 0 < a -> 0 < b -> continuous_cdf (B a b);
  bl_zero : forall a b, 0 < a -> 0 < b -> B a b 0 = 0;
  bl_one : forall a b, 0 < a -> 0 < b -> B a b 1 = 1;
  bl_increasing : forall a b x y, 0 < a -> 0 < b -> 0 <= x -> x < y -> y <= 1 -> B a b x < B a b y;
  bl_mirror : forall a b x, 0 < a -> 0 < b -> B b a (1 - x) = 1 - B a b x;
  bl_betaln_sym : forall a b, betaln a b = betaln b a;
  bl_betaln_one : betaln 1 1 = 0 }.
(** the distribution with both parameters 1 *)
Definition unit_cdf (x : R) : R := Rmax 0 (Rmin 1 x).
(** the sample seen from the other end of the interval *)
Definition mirror (l : list R) : list R := map (fun x => 1 - x) l.
Definition in_unit (l : list R) : Prop := forall x, In x l -> 0 <= x <= 1.
(** unbiased sample variance *)
Definition variance1 (l : list R) : R := Rsum (map (fun x => (x - mean l) ^ 2) l) / (INR (length l) - 1).
(** no observation lies on one of the inner edges of k equal bins *)
Definition off_edges (k : nat) (l : list R) : Prop := forall x i, In x l -> (1 <= i < k)%nat -> x <> INR i / INR k.
(** sums of powers of the deviations, and the usual unbiased sample skewness and excess kurtosis made of them *)
Definition power_dev (k : nat) (l : list R) : R := Rsum (map (fun x => (x - mean l) ^ k) l).
Definition sample_skewness (l : list R) : R :=
  let n := INR (length l) in sqrt (n * (n - 1)) / (n - 2) * (power_dev 3 l / n / sqrt (power_dev 2 l / n) ^ 3).
Definition sample_excess_kurtosis (l : list R) : R :=
  let n := INR (length l) in
  ((n ^ 2 - 1) * (n * power_dev 4 l / power_dev 2 l ^ 2) - 3 * (n - 1) ^ 2) / ((n - 2) * (n - 3)).
(** skewness and excess kurtosis of the beta distribution *)
Definition theoretical_skewness (a b : R) : R := 2 * (b - a) * sqrt (a + b + 1) / ((a + b + 2) * sqrt (a * b)).
Definition theoretical_excess_kurtosis (a b : R) : R :=
  6 * ((a - b) ^ 2 * (a + b + 1) - a * b * (a + b + 2)) / (a * b * (a + b + 2) * (a + b + 3)).
