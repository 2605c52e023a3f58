(** Statements about registries, phrased without the lookup and naming functions of the model. *)
From Coq Require Import String Ascii.
From Verif Require Import Base DecModel RegistryModel.
Local Open Scope string_scope.

(** the ranges named by the three validators *)
Definition in_range (v : validator) (x : R) : Prop :=
  match v with
  | PositiveNumber => (0 < x)%R
  | NonNegativeNumber => (0 <= x)%R
  | Probability => (0 <= x <= 1)%R
  end.

(** characters occurring in the [str] of a Python int or float *)
Definition numeric_char (c : ascii) : Prop := In c (list_ascii_of_string "0123456789.+-eainf").
Fixpoint chars (P : ascii -> Prop) (s : string) : Prop :=
  match s with "" => True | String c s' => P c /\ chars P s' end.
Definition numeric (s : string) : Prop := chars numeric_char s.

(** families whose generator has constructor parameters without a default *)
Definition needs_parameters (t : distribution_type) : Prop :=
  In t [CAUCHY; LAPLACE; LOGISTIC; STUDENT; TUKEY].

(** [d] is a dictionary (distinct keys) *)
Definition is_dict (d : list (string * R)) : Prop := NoDup (map fst d).
(** two dictionaries hold the same entries *)
Definition same_dict (d1 d2 : list (string * R)) : Prop :=
  forall k v, In (k, v) d1 <-> In (k, v) d2.
(** the dictionary that assigns [value] to every parameter of a descriptor *)
Definition assignment (d : descriptor) (value : string -> R) : list (string * R) :=
  map (fun p => (p_name p, value (p_name p))) (d_params d).
Definition default_assignment (d : descriptor) : list (string * R) :=
  map (fun p => (p_name p, p_default p)) (d_params d).

(** every statistic of the distribution is listed *)
Definition listed (loaded : list stat_class) (t : distribution_type) : Prop :=
  forall c, In c stat_classes -> sc_dist c = t -> In (sc_short c) (get_available_criteria loaded t).
