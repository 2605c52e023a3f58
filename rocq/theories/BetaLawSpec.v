(** The beta law itself, for the statements about the characteristics the beta statistics compare samples with. *)
From Coquelicot Require Import Coquelicot.
From Verif Require Import Base NormalLaw BetaSpec.

(** the density up to its constant *)
Definition beta_weight (a b x : R) : R := Rpower x (a - 1) * Rpower (1 - x) (b - 1).
(** integral over the open unit interval, improper at both ends *)
Definition over_unit (f : R -> R) (v : R) : Prop := is_RInt_gen f (at_right 0) (at_left 1) v.
(** c is the constant, the value of the beta function *)
Definition beta_constant (a b c : R) : Prop := 0 < c /\ over_unit (beta_weight a b) c.
(** mean of g(X) for X with the beta law *)
Definition beta_expects (a b : R) (g : R -> R) (v : R) : Prop :=
  exists c, beta_constant a b c /\ over_unit (fun x => g x * (beta_weight a b x / c)) v.
(** Gaussian kernel estimate of a density with Scott's bandwidth *)
Definition scott_bandwidth (l : list R) : R := sqrt (variance1 l) * Rpower (INR (length l)) (- (1 / 5)).
Definition scott_density (l : list R) (x : R) : R :=
  let h := scott_bandwidth l in mean (map (fun xi => norm_pdf ((x - xi) / h) / h) l).
(** 200 equally spaced points from 0.01 to 0.99 *)
Definition grid_point (x : R) : Prop := exists i, (i < 200)%nat /\ x = 0.01 + INR i * (0.98 / 199).
(** Vasicek's entropy estimate of the increasing observations s with window m; ties count 0 *)
Definition spaced (s : list R) (m i : nat) : R := nth (Nat.min (i + m) (length s - 1)) s 0 - nth (i - m) s 0.
Definition vasicek_estimate (s : list R) (m : nat) : R :=
  mean (map (fun i => if Rlt_dec 0 (spaced s m i) then ln (INR (length s) / (2 * INR m) * spaced s m i) else 0) (seq 0 (length s))).
(** the digamma function as far as it is used: its recursion, and that it increases; both determine it up to a constant *)
Definition digamma_like (psi : R -> R) : Prop :=
  (forall x, 0 < x -> psi (x + 1) = psi x + / x) /\ forall x y, 0 < x -> x <= y -> psi x <= psi y.
