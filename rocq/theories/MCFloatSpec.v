(** Specification vocabulary for Monte-Carlo decisions in binary64. *)
From Verif Require Import Base DecModel MTFloat MTFloatSpec.
From Flocq Require Import Core.

(** a simulation whose size converts to binary64 exactly *)
Definition simulated (limit : list R) : Prop := limit <> [] /\ (Z.of_nat (length limit) < 2 ^ 53)%Z.
(** the error of one, two and three operations on numbers of [0,1] *)
Definition p_value_error (alt : alternative) : R :=
  match alt with LEFT => ulp_half / 2 | RIGHT => ulp_half | TWO_TAILED => 2 * ulp_half end.
(** a level given as a fraction, read as the nearest binary64 number *)
Definition read_level (a b : nat) : R := fl (INR a / INR b).
(** two values of a list without another one between them *)
Definition neighbours (l : list R) (lo hi : R) : Prop :=
  In lo l /\ In hi l /\ lo <= hi /\ forall x, In x l -> x <= lo \/ hi <= x.
(** as many values of a list are at most [x] as [j] out of [k] *)
Definition share_at_most (l : list R) (x : R) (j k : nat) : Prop :=
  (count (fun y => Rleb y x) l * k = j * length l)%nat.
