(** Notions used in the statements about the form of the exponentiality statistics. *)
From Verif Require Import Base.
Local Open Scope R_scope.

(** the sample in units of its mean *)
Definition relative (l : list R) : list R := map (fun x => x / mean l) l.
(** ** fractions of pairs and triples
    the share of the elements of a list with a property *)
Definition share {A} (P : A -> bool) (L : list A) : R := INR (count P L) / INR (length L).
(** all choices of two and of three observations *)
Fixpoint twos (l : list R) : list (R * R) := match l with [] => [] | x :: t => map (pair x) t ++ twos t end.
Fixpoint threes (l : list R) : list (R * (R * R)) := match l with [] => [] | x :: t => map (pair x) (twos t) ++ threes t end.
(** the smallest, middle and largest of three numbers *)
Definition least (a b c : R) : R := Rmin a (Rmin b c).
Definition middle (a b c : R) : R := Rmax (Rmin a b) (Rmin (Rmax a b) c).
Definition largest (a b c : R) : R := Rmax a (Rmax b c).

(** ** Lorenz curve: the share of the total owned by the k smallest *)
Definition lorenz (l : list R) (k : nat) : R := Rsum (firstn k (rsort l)) / Rsum l.

(** ** normalised spacings (n - i) (x_(i+1) - x_(i)), with x_(0) = 0 *)
Definition order (l : list R) (i : nat) : R := nth i (0 :: rsort l) 0.
Definition spacings (l : list R) : list R := map (fun i => INR (length l - i) * (order l (S i) - order l i)) (seq 0 (length l)).
(** the integer next to x, the even one of two *)
Definition nearest (r : nat) (x : R) : Prop := Rabs (INR r - x) <= 1 / 2 /\ (Rabs (INR r - x) = 1 / 2 -> Nat.Even r).

(** ** likelihoods *)
(** logarithm of the exponential density with mean mu, of the Weibull density with shape k and scale 1, and of the
    gamma density with shape a and mean 1 *)
Definition exponential_log (mu d : R) : R := - ln mu - d / mu.
Definition weibull_log (k y : R) : R := ln k + (k - 1) * ln y - Rpower y k.
Definition gamma_log (Gamma : R -> R) (a y : R) : R := a * ln a - ln (Gamma a) + (a - 1) * ln y - a * y.
(** log likelihoods of the data d when every value has its own mean, and when all have the same *)
Definition separate (d : list R) (w : R) : Prop := exists mus, length mus = length d /\ (forall mu, In mu mus -> 0 < mu) /\
  w = Rsum (map (fun p => exponential_log (fst p) (snd p)) (combine mus d)).
Definition common (d : list R) (w : R) : Prop := exists mu, 0 < mu /\ w = Rsum (map (exponential_log mu) d).
(** v is the maximum of a set of numbers *)
Definition maximum (v : R) (S : R -> Prop) : Prop := S v /\ forall w, S w -> w <= v.

(** ** others *)
Definition power_mean (p : R) (l : list R) : R := Rpower (mean (map (fun x => Rpower x p) l)) (1 / p).
Definition stabilised (p : R) : R := 2 / PI * asin (sqrt p).
Definition kochar_score (u : R) : R := 2 * (1 - u) * (1 - ln (1 - u)) - 1.
Definition smallest_in (m : R) (l : list R) : Prop := In m l /\ forall x, In x l -> m <= x.
(** all values are equal *)
Definition constant (l : list R) : Prop := forall x y, In x l -> In y l -> x = y.
(** the distribution function of the exponential law fitted by its mean, at the i-th order statistic *)
Definition fitted_exponential (l : list R) (i : nat) : R := 1 - exp (- (order l i / mean l)).
