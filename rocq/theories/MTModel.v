(** Model of pysatl_criterion/hypothesis_testing/multiple_testing (abstract_multiple_testing.py,
    fwer.py, fdr.py).  Numbers are exact reals; the float behaviour is treated in MTFloat.v. *)
From Verif Require Import Base.
From Coq Require Import NArith.

(** list indexing [p_values[i]]; every index used below is proved to be in range *)
Definition get (l : list R) (i : nat) : R := nth i l 0.

(** abstract_multiple_testing.py:16-17  [_validate_p_values] *)
Definition p_values_valid (p : list R) : bool := forallb (fun x => Rleb 0 x && Rleb x 1) p.
Definition validate_p_values (p : list R) : result unit :=
  if negb (p_values_valid p) then Raise ValueError else Ok tt.

(** fwer.py:20-23  [BonferroniMultipleTesting.adjust] *)
Definition bonferroni_adjust (p : list R) : result (list R) :=
  let! _ := validate_p_values p in
  let m := length p in
  Ok (map (fun p_value => Rmin (p_value * INR m) 1) p).

(** fwer.py:53-56  [SidakMultipleTesting.adjust] *)
Definition sidak_adjust (p : list R) : result (list R) :=
  let! _ := validate_p_values p in
  let m := length p in
  Ok (map (fun p_value => 1 - (1 - p_value) ^ m) p).

(** [sorted(range(n), key=lambda i: p_values[i])]: stable sort of the indices by key
    (fwer.py:94, fdr.py:36).  Insertion from the right keeps equal keys in input order. *)
Fixpoint kinsert (key : nat -> R) (i : nat) (l : list nat) : list nat :=
  match l with
  | [] => [i]
  | j :: l' => if Rleb (key i) (key j) then i :: l else j :: kinsert key i l'
  end.
Fixpoint ksort (key : nat -> R) (l : list nat) : list nat :=
  match l with [] => [] | i :: l' => kinsert key i (ksort key l') end.
Definition sorted_indices (p : list R) : list nat := ksort (get p) (seq 0 (length p)).

(** [enumerate(l)] *)
Definition enumerate (l : list nat) : list (nat * nat) := combine (seq 0 (length l)) l.

(** [for i, idx in enumerate(sorted_indices): adjusted[idx] = value i idx]
    starting from [[0.0] * n]  (fwer.py:95-99, fdr.py:37-42) *)
Definition assign_loop (n : nat) (s : list nat) (value : nat -> nat -> R) : list R :=
  fold_left (fun adjusted '(i, idx) => upd adjusted idx (value i idx)) (enumerate s) (repeat 0 n).

(** [range(n - 2, -1, -1)]: n-2, ..., 1, 0 *)
Definition downrange (n : nat) : list nat := rev (seq 0 (n - 1)).

(** fwer.py:101-103  body of the second loop of [Holm.adjust] *)
Definition holm_step (s : list nat) (adjusted : list R) (i : nat) : list R :=
  let si := nth i s 0%nat in
  let sj := nth (i + 1) s 0%nat in
  if Rltb (get adjusted sj) (get adjusted si)
  then upd adjusted si (get adjusted sj) else adjusted.

(** fwer.py:90-105  [Holm.adjust] (no validation inside [adjust]) *)
Definition holm_adjust (p : list R) : result (list R) :=
  let n := length p in
  match p with
  | [] => Ok []
  | _ =>
    let s := sorted_indices p in
    let adjusted := assign_loop n s (fun i idx => Rmin 1 (get p idx * INR (n - i))) in
    Ok (fold_left (holm_step s) (downrange n) adjusted)
  end.

(** fwer.py:121-124  [SidakHolm.adjust] *)
Definition sidak_holm_adjust (p : list R) : result (list R) :=
  let n := length p in
  match p with
  | [] => Ok []
  | _ => Ok (map (fun x => Rmin 1 (1 - (1 - x) ^ n)) p)
  end.

(** fdr.py:32  the literal added to [math.log(n)] *)
Definition gamma_literal : R := 0.5772156649015328606065120900824024310421.

(** fdr.py:31-34  the correction factor [c] *)
Definition by_factor (n : nat) : R :=
  if N.ltb 10000 (N.of_nat n) then ln (INR n) + gamma_literal
  else Rsum (map (fun i => 1 / INR i) (seq 1 n)).

(** fdr.py:45-50  body of the second loop of [BenjaminiYekutieli.adjust];
    the state is (adjusted, current_min) *)
Definition by_step (s : list nat) (st : list R * R) (i : nat) : list R * R :=
  let '(adjusted, current_min) := st in
  let idx := nth i s 0%nat in
  if Rltb current_min (get adjusted idx)
  then (upd adjusted idx current_min, current_min)
  else (adjusted, get adjusted idx).

(** fdr.py:27-52  [BenjaminiYekutieli.adjust] *)
Definition by_adjust (p : list R) : result (list R) :=
  let n := length p in
  match p with
  | [] => Ok []
  | _ =>
    let c := by_factor n in
    let s := sorted_indices p in
    let adjusted :=
      assign_loop n s (fun i idx => Rmin 1 (get p idx * INR n * c / INR (i + 1))) in
    let current_min := get adjusted (nth (n - 1) s 0%nat) in
    Ok (fst (fold_left (by_step s) (downrange n) (adjusted, current_min)))
  end.

(** the five subclasses of [AbstractMultipleTesting] *)
Inductive method := Bonferroni | Sidak | Holm | SidakHolm | BenjaminiYekutieli.

Definition adjust (mt : method) : list R -> result (list R) :=
  match mt with
  | Bonferroni => bonferroni_adjust
  | Sidak => sidak_adjust
  | Holm => holm_adjust
  | SidakHolm => sidak_holm_adjust
  | BenjaminiYekutieli => by_adjust
  end.

(** abstract_multiple_testing.py:28-31  [AbstractMultipleTesting.test]; the overrides in
    fwer.py:35 and fwer.py:69 only call it *)
Definition mt_test (mt : method) (p : list R) (threshold : R) : result (list bool * list R) :=
  let! _ := validate_p_values p in
  let! adjusted := adjust mt p in
  Ok (map (fun a => Rltb a threshold) adjusted, adjusted).
