(** Model of statistics/alternative.py and of the alternative given to the constructors of the Kolmogorov-Smirnov statistics.

    The constructors take any Python value as alternative_type; it is looked at only when the statistic is executed or a test
    asks for its alternative.  A value that is not a member of AlternativeType (a string such as "left" included: AlternativeType
    is a plain Enum) equals none of the members. *)
From Verif Require Import Base DecModel EdfModel.

(** alternative.py:8-15, common.py:17: what may be given as alternative_type *)
Inductive alternative_argument := Member (a : alternative) | OtherValue.
(** alternative.py:58-76: the three classes *)
Inductive alternative_class := RightAlternative | LeftAlternative | TwoSidedAlternative.
(** alternative.py:58-62, 65-69, 72-76  [type] *)
Definition type_of (c : alternative_class) : alternative :=
  match c with RightAlternative => RIGHT | LeftAlternative => LEFT | TwoSidedAlternative => TWO_TAILED end.
(** alternative.py:46-55  [get_alternative] *)
Definition get_alternative (arg : alternative_argument) : result alternative_class :=
  match arg with
  | Member LEFT => Ok LeftAlternative
  | Member RIGHT => Ok RightAlternative
  | Member TWO_TAILED => Ok TwoSidedAlternative
  | OtherValue => Raise ValueError
  end.
(** common.py:53-71: the comparisons of [do_execute_statistic]; everything but RIGHT and LEFT takes the last branch *)
Definition ks_execute (arg : alternative_argument) (u : list R) : result R :=
  match arg with
  | Member RIGHT => ks_do_execute RIGHT u
  | Member LEFT => ks_do_execute LEFT u
  | _ => ks_do_execute TWO_TAILED u
  end.
(** what a test uses: the argument and the value on data *)
Record ks_object := { ks_argument : alternative_argument; ks_value : list R -> result R }.
(** normal.py:62-101 and its likes: the object built for the distribution function F *)
Definition new_ks (F : R -> R) (arg : alternative_argument) : ks_object :=
  {| ks_argument := arg; ks_value := fun rvs => ks_execute arg (map F (rsort rvs)) |}.
(** a resolver uses the values of the statistic; the second result is the number of samples it has evaluated *)
Definition counting_resolver := (list R -> result R) -> nat -> result (option (list R) * nat).
(** goodness_of_fit_test.py:142-147 with 46-61 and 96-112: value, resolver, alternative, decision.  The second result counts the
    samples evaluated up to the end or up to an exception raised after the resolver. *)
Definition run_test (meth : resolver -> decision_method) (res : counting_resolver) (o : ks_object) (rvs : list R) (level : R)
  : result (result test_result * nat) :=
  let! v := ks_value o rvs in
  let! ln := res (ks_value o) (length rvs) in
  Ok (let! c := get_alternative (ks_argument o) in
      decide (meth (fun _ _ => Ok (fst ln))) {| st_alternative := type_of c; st_execute := ks_value o |} v level (length rvs), S (snd ln)).
