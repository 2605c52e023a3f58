(** Notions used in the statements about uniform statistics. *)
From Coquelicot Require Import Coquelicot.
From Verif Require Import Base.
Local Open Scope R_scope.

Definition within (a b : R) (l : list R) : Prop := forall x, In x l -> a <= x <= b.
Definition strictly_within (a b : R) (l : list R) : Prop := forall x, In x l -> a < x < b.
(** the sample seen from the other end of the interval *)
Definition reflected (a b : R) (l : list R) : list R := map (fun x => a + b - x) l.
(** a sample of the unit interval moved to [a, b] *)
Definition stretched (a b : R) (l : list R) : list R := map (fun x => a + (b - a) * x) l.
(** the sample of size n that fits the uniform distribution on [a, b] best: the midranks *)
Definition ideal_sample (a b : R) (n : nat) : list R := map (fun i => a + (b - a) * ((2 * INR (S i) - 1) / (2 * INR n))) (seq 0 n).
(** Systems of polynomials orthonormal for the uniform distribution on [0, 1].  Polynomials are written in t = 2x - 1;
    a system of orthonormal polynomials of every degree with positive leading coefficients is unique. *)
Definition horner (c : list R) (t : R) : R := fold_right (fun a acc => a + t * acc) 0 c.
Definition polynomial_of_degree (j : nat) (f : R -> R) : Prop :=
  exists c, length c = S j /\ 0 < last c 0 /\ forall x, f x = horner c (2 * x - 1).
Definition orthonormal (phi : nat -> R -> R) (ks : nat -> Prop) : Prop :=
  forall i j, ks i -> ks j -> is_RInt (fun x => phi i x * phi j x) 0 1 (if Nat.eqb i j then 1 else 0).
(** the product-limit estimator of the probability that an observation is not censored up to t, for different times:
    every censored time x <= t contributes 1 - 1 / (number of times >= x) *)
Definition product_limit (obs : list (R * bool)) (t : R) : R :=
  fold_right Rmult 1 (map (fun p => 1 - 1 / INR (length (filter (fun q => Rleb (fst p) (fst q)) obs)))
                          (filter (fun p => snd p && Rleb (fst p) t) obs)).
