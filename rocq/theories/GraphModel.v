(** Model of statistics/goodness_of_fit/graph_goodness_of_fit.py and of the derived graph statistics in
    normal.py:2426-2510, exponent.py:1295-1463 and gamma.py:797-990.

    Samples are lists of reals, vertices are list positions.  The two statistics that sort the caller's
    container in place return the container after the call next to the value. *)
From Coq Require Import ZArith.
From Verif Require Import Base.

(** ** Thresholds *)
(** lines 47-49; Python's [max]/[min] of an empty sequence raise ValueError *)
Definition dist_base (rvs : list R) : result R :=
  match rvs with [] => Raise ValueError | _ => Ok ((Rmaxl 0 rvs - Rminl 0 rvs) / 10) end.
(** exponent.py:1320-1331 *)
Definition dist_exponential (rvs : list R) : result R :=
  let! base := dist_base rvs in
  Ok (if Reqb (mean rvs) 0 then base else base / mean rvs).
(** [np.var] with ddof=0 *)
Definition np_var (l : list R) : R := mean (map (fun x => (x - mean l) ^ 2) l).
(** normal.py:2439-2444 *)
Definition dist_normal (rvs : list R) : result R :=
  let! base := dist_base rvs in
  Ok (if Reqb (np_var rvs) 0 then base else base / np_var rvs).

(** ** Adjacency list, lines 34-45: [adjacency_list[v].append(w)] is [push g v w] *)
Definition push (g : list (list nat)) (v w : nat) : list (list nat) := upd g v (nth v g [] ++ [w]).
Definition adj_inner (rvs : list R) (dist : R) (i : nat) (g : list (list nat)) (j : nat) : list (list nat) :=
  if Rltb (Rabs (nth i rvs 0 - nth j rvs 0)) dist then push (push g i j) j i else g.
Definition adj_outer (rvs : list R) (dist : R) (g : list (list nat)) (i : nat) : list (list nat) :=
  fold_left (adj_inner rvs dist i) (seq 0 i) (g ++ [[]]).
Definition make_adjacency_list (rvs : list R) (dist : R) : list (list nat) :=
  fold_left (adj_outer rvs dist) (seq 0 (length rvs)) [].

(** ** Statistics of the adjacency list *)
Definition sum_nat (l : list nat) : nat := fold_right Nat.add 0%nat l.
Definition max_nat (l : list nat) : nat := fold_right Nat.max 0%nat l.
(** line 67 *)
Definition edges_number (g : list (list nat)) : nat := Nat.div (sum_nat (map (@length nat) g)) 2.
(** line 94 (degrees are never negative, so the neutral element 0 does not matter for g <> []) *)
Definition max_degree (g : list (list nat)) : result nat :=
  match g with [] => Raise ValueError | _ => Ok (max_nat (map (@length nat) g)) end.
(** lines 121-122; [degrees != 0] compares a list with 0 and is always true; the mean of [] is nan *)
Definition average_degree (g : list (list nat)) : npval :=
  match g with [] => NonFinite | _ => Fin (mean (map (fun row => INR (length row)) g)) end.

(** lines 149-164.  [visited] is a set, kept as a list; the stack's top is the head of the list, so
    [stack.extend(it)] pushes the reversed iterable.  [None] is running out of fuel. *)
Definition memb (v : nat) (s : list nat) : bool := if in_dec Nat.eq_dec v s then true else false.
Fixpoint dfs (fuel : nat) (g : list (list nat)) (visited stack : list nat) : option (list nat) :=
  match stack with
  | [] => Some visited
  | v :: rest =>
    match fuel with
    | O => None
    | S fuel' =>
      if memb v visited then dfs fuel' g visited rest
      else let visited' := v :: visited in
           dfs fuel' g visited' (rev (filter (fun w => negb (memb w visited')) (nth v g [])) ++ rest)
    end
  end.
Definition cc_step (g : list (list nat)) (st : option (list nat * nat)) (node : nat) : option (list nat * nat) :=
  match st with
  | None => None
  | Some (visited, components) =>
    if memb node visited then Some (visited, components)
    else match dfs (S (sum_nat (map (@length nat) g))) g visited [node] with
         | None => None
         | Some visited' => Some (visited', S components)
         end
  end.
Definition connected_components (g : list (list nat)) : option nat :=
  match fold_left (cc_step g) (seq 0 (length g)) (Some ([], 0%nat)) with
  | Some (_, components) => Some components
  | None => None
  end.

(** lines 15-21, for a threshold function [D] (the [_compute_dist] of the class) and the statistic [S]
    of the adjacency list ([get_graph_stat] of the class) *)
Definition graph_execute {A} (D : list R -> result R) (S : list (list nat) -> A) (rvs : list R) : result A :=
  let! dist := D rvs in Ok (S (make_adjacency_list rvs dist)).
Definition edges_stat D rvs := graph_execute D edges_number rvs.
Definition max_degree_stat D rvs := let! r := graph_execute D max_degree rvs in r.
Definition average_degree_stat D rvs := graph_execute D average_degree rvs.
Definition components_stat D rvs := graph_execute D connected_components rvs.

(** ** Clique number, lines 190-202.  The inner while loop advances [right]; [xs] is the sorted data. *)
Fixpoint clique_while (fuel : nat) (xs : list R) (dist : R) (left right : nat) : nat :=
  match fuel with
  | O => right
  | S fuel' =>
    if Nat.ltb right (length xs) && Rltb (nth right xs 0) (nth left xs 0 + dist)
    then clique_while fuel' xs dist left (S right) else right
  end.
(** [todo] counts the remaining values of [left_border]; the fuel of the while loop is exact:
    [right] cannot pass [len(rvs)] *)
Fixpoint clique_for (todo : nat) (xs : list R) (dist : R) (left right : nat) (clique : Z) : Z :=
  match todo with
  | O => clique
  | S todo' =>
    let right' := clique_while (length xs - right) xs dist left right in
    if Nat.eqb right' (length xs)
    then Z.max clique (Z.of_nat right' - Z.of_nat left + 1)%Z
    else clique_for todo' xs dist (S left) right' (Z.max clique (Z.of_nat right' - Z.of_nat left)%Z)
  end.
Definition clique_stat (D : list R -> result R) (rvs : list R) : result (list R * Z) :=
  let! dist := D rvs in
  let xs := rsort rvs in
  Ok (xs, clique_for (length xs) xs dist 0 0 0%Z).

(** ** Independence number, lines 228-243.  [if not rvs] is the emptiness test of a list, but on a numpy
    array it is the truth value of the single element and ValueError for two or more elements. *)
Inductive container := PyList | NdArray.
Definition py_not (k : container) (rvs : list R) : result bool :=
  match k, rvs with
  | _, [] => Ok true
  | PyList, _ => Ok false
  | NdArray, [x] => Ok (Reqb x 0)
  | NdArray, _ => Raise ValueError
  end.
Fixpoint indep_for (rest : list R) (dist last : R) (stat : nat) : nat :=
  match rest with
  | [] => stat
  | x :: rest' => if Rleb (last + dist) x then indep_for rest' dist x (S stat)
                  else indep_for rest' dist last stat
  end.
Definition independence_of (xs : list R) (dist : R) : nat :=
  match xs with [] => 0%nat | x :: rest => indep_for rest dist x 1%nat end.
Definition independence_stat (k : container) (D : list R -> result R) (rvs : list R) : result (list R * nat) :=
  let! empty := py_not k rvs in
  if empty then Ok (rvs, 0%nat)
  else let! dist := D rvs in
       let xs := rsort rvs in
       Ok (xs, independence_of xs dist).

(** ** gamma.py:820-848: the graph of the hypothesised cdf values, an unaliased Python list *)
Definition gamma_graph {A} (F : R -> R) (stat : list R -> result A) (rvs : list R) : result A :=
  match rvs with [] => Raise ValueError | _ => stat (map F (rsort rvs)) end.
