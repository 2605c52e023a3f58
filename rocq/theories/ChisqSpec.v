(** The number of observations below a point. *)
From Verif Require Import Base.
Definition below (e : R) (l : list R) : R := INR (length (filter (fun x => Rltb x e) l)).
