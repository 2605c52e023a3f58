(** Model of the multiple-testing corrections in IEEE-754 binary64 (hypothesis_testing/multiple_testing/fwer.py, fdr.py,
    abstract_multiple_testing.py).  Every arithmetic operation is the exact result rounded to nearest-even ([fl], see
    MTFloat.v); nothing overflows because p-values lie in [0,1] and lists are shorter than 2^1000.  Comparisons, sorting
    and [min] are exact.  The libm [pow] of the Sidak formulas and the factor of Benjamini-Yekutieli (whose [sum] is
    compensated from Python 3.12 on, and uses libm's [log] above 10000 hypotheses) are parameters. *)
From Verif Require Import Base MTModel MTFloat.

(** an int operand converted to float *)
Definition of_int (n : nat) : R := fl (INR n).

Section Float.
Variables (pow : R -> nat -> R) (factor : nat -> R).

(** fwer.py:20-23 *)
Definition bonferroni_adjust_float (p : list R) : result (list R) :=
  let! _ := validate_p_values p in
  Ok (map (fun x => bonferroni_float x (length p)) p).
(** fwer.py:53-56 *)
Definition sidak_adjust_float (p : list R) : result (list R) :=
  let! _ := validate_p_values p in
  Ok (map (fun x => sidak_float pow x (length p)) p).
(** fwer.py:90-105 *)
Definition holm_adjust_float (p : list R) : result (list R) :=
  let n := length p in
  match p with
  | [] => Ok []
  | _ =>
    let s := sorted_indices p in
    let adjusted := assign_loop n s (fun i idx => Rmin 1 (fl (get p idx * of_int (n - i)))) in
    Ok (fold_left (holm_step s) (downrange n) adjusted)
  end.
(** fwer.py:121-124 *)
Definition sidak_holm_adjust_float (p : list R) : result (list R) :=
  match p with [] => Ok [] | _ => Ok (map (fun x => Rmin 1 (sidak_float pow x (length p))) p) end.
(** fdr.py:34 evaluated from left to right without compensation *)
Definition factor_plain (n : nat) : R := fold_left (fun s i => fl (s + fl (1 / of_int i))) (seq 1 n) 0.
(** fdr.py:27-52; [p_values[idx] * n * c / rank] is evaluated from left to right *)
Definition by_adjust_float (p : list R) : result (list R) :=
  let n := length p in
  match p with
  | [] => Ok []
  | _ =>
    let s := sorted_indices p in
    let adjusted := assign_loop n s (fun i idx =>
      Rmin 1 (fl (fl (fl (get p idx * of_int n) * factor n) / of_int (i + 1)))) in
    let current_min := get adjusted (nth (n - 1) s 0%nat) in
    Ok (fst (fold_left (by_step s) (downrange n) (adjusted, current_min)))
  end.
Definition adjust_float (mt : method) : list R -> result (list R) :=
  match mt with
  | Bonferroni => bonferroni_adjust_float
  | Sidak => sidak_adjust_float
  | Holm => holm_adjust_float
  | SidakHolm => sidak_holm_adjust_float
  | BenjaminiYekutieli => by_adjust_float
  end.
(** abstract_multiple_testing.py:28-31 *)
Definition mt_test_float (mt : method) (p : list R) (threshold : R) : result (list bool * list R) :=
  let! _ := validate_p_values p in
  let! adjusted := adjust_float mt p in
  Ok (map (fun a => Rltb a threshold) adjusted, adjusted).
End Float.
