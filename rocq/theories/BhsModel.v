(** Model of BHSNormalityGofStatistic (statistics/goodness_of_fit/normal.py:1966-2306).

    The statistic combines three medcouples.  Each is the median of a table of h1 x h2 kernel values, found by a
    search whose inner function, whi_med_i, is a [while True] loop without a bound.  A Coq function ends, so the model
    takes a number of rounds, [fuel], that the inner loop may use in one call: [None] says that the loop is still
    running after them.  The program returns when some number of rounds is enough and does not return when none is.

    Simplifications: arithmetic is exact; infinite observations (line 2049) are left out; the printing (2071, 2099,
    2135, ...) is left out, so the second entry of [iter_], read only to decide what to print, is not kept.  Lists keep
    the 1-based indices of the code where they show: [x] starts with the unused entry x[0] = 0.0 (line 2046). *)
From Coq Require Import ZArith.
From Verif Require Import Base DecModel EdfModel GraphModel NormalLaw ExpModel NormModel.
Local Open Scope R_scope.

(** eps = [2.220446e-16, 2.225074e-308], line 1999 *)
Definition bhs_eps0 : R := 2.220446 / 10 ^ 16.
Definition bhs_eps1 : R := 2.225074 / 10 ^ 308.
(** eps[0] * (eps[0] + abs(v)), lines 2060, 2065, 2088, 2167 *)
Definition bhs_tol (v : R) : R := bhs_eps0 * (bhs_eps0 + Rabs v).

(** h_kern, lines 2266-2270; np.sign of an integer *)
Definition h_kern (a b : R) (ai bi ab : nat) : R :=
  if Rltb (Rabs (a - b)) (2 * bhs_eps1) || Rltb 0 b
  then IZR (Z.sgn (Z.of_nat ab - Z.of_nat (ai + bi)))
  else (a + b) / (a - b).

(** ** whi_med_i, lines 2273-2306 *)
(** the arguments [a] and [w], which the function overwrites, and its variables [n] and [w_rest] *)
Record whi_state := WS { ws_a : list R; ws_w : list nat; ws_n : nat; ws_rest : nat }.
(** the first n entries *)
Definition whi_cells (s : whi_state) : list (R * nat) := combine (firstn (ws_n s) (ws_a s)) (firstn (ws_n s) (ws_w s)).
(** trial, lines 2278-2280: the whole list [a] is sorted, not its first n entries *)
Definition whi_trial (s : whi_state) : R := nth (ws_n s / 2) (rsort (ws_a s)) 0.
(** w_left and w_mid, lines 2282-2283 *)
Definition whi_weight (p : R -> bool) (s : whi_state) : nat :=
  list_sum (map snd (filter (fun q => p (fst q)) (whi_cells s))).
(** the candidates overwrite the beginning of both lists, lines 2286-2299 and 2303-2306 *)
Definition whi_keep (p : R -> bool) (s : whi_state) (rest : nat) : whi_state :=
  let c := filter (fun q => p (fst q)) (whi_cells s) in
  WS (map fst c ++ skipn (length c) (ws_a s))%list (map snd c ++ skipn (length c) (ws_w s))%list (length c) rest.
(** one round of the loop: a further state, or the returned value *)
Definition whi_round (tot : nat) (s : whi_state) : whi_state + R :=
  let trial := whi_trial s in
  let w_left := whi_weight (fun v => Rltb v trial) s in
  let w_mid := whi_weight (fun v => Reqb v trial) s in
  if (tot <? 2 * (ws_rest s + w_left))%nat then inl (whi_keep (fun v => Rltb v trial) s (ws_rest s))
  else if (2 * (ws_rest s + w_left + w_mid) <=? tot)%nat
  then inl (whi_keep (fun v => Rltb trial v) s (ws_rest s + w_left + w_mid))
  else inr trial.
Fixpoint whi_loop (fuel tot : nat) (s : whi_state) : option (R * whi_state) :=
  match fuel with
  | O => None
  | S f => match whi_round tot s with inr v => Some (v, s) | inl s' => whi_loop f tot s' end
  end.
(** w_tot sums the whole list of weights, line 2274 *)
Definition whi_med_i (fuel : nat) (a : list R) (w : list nat) (n : nat) : option (R * whi_state) :=
  whi_loop fuel (list_sum w) (WS a w n 0).

(** ** mc_c_d, lines 2022-2263 *)
(** number of entries at the beginning of the list above a bound, lines 2089-2090 and 2095-2097 *)
Fixpoint run_above (c : R) (l : list R) : nat :=
  match l with [] => O | v :: r => if Rltb c v then S (run_above c r) else O end.
(** [while j <= h1 and c(j): j += 1] and [while j >= 1 and c(j): j -= 1] *)
Fixpoint advance (c : nat -> bool) (steps j : nat) : nat :=
  match steps with O => j | S s => if c j then advance c s (S j) else j end.
Fixpoint retreat (c : nat -> bool) (j : nat) : nat :=
  match j with O => O | S j' => if c j then retreat c j' else j end.

Section Table.
(** the scaled sample with its unused first entry, the start of [x2] in it (line 2094), and the size of the table *)
Context (x : list R) (start h1 h2 : nat).
(** self.h_kern(x[k], x2[i - 1], k, i, h1 + 1, eps[1]) *)
Definition cell (k i : nat) : R := h_kern (nth k x 0) (nth (start + i - 1) x 0) k i (h1 + 1).

(** left, right, work, iwt, nr, nl, neq, trial and is_found; med_c is trial when is_found *)
Record mc_state := MC { mc_left : list nat; mc_right : list nat; mc_work : list R; mc_iwt : list nat;
  mc_nr : nat; mc_nl : nat; mc_neq : nat; mc_trial : R; mc_found : bool }.
(** (i, left[i], right[i]) for i = 1 .. h2 *)
Definition bounds (s : mc_state) : list (nat * (nat * nat)) := combine (seq 1 h2) (combine (mc_left s) (mc_right s)).
Definition is_open (r : nat * (nat * nat)) : bool := (fst (snd r) <=? snd (snd r))%nat.
(** iwt[j] and work[j], lines 2139-2142 *)
Definition row_weight (r : nat * (nat * nat)) : nat := (snd (snd r) - fst (snd r) + 1)%nat.
Definition row_value (r : nat * (nat * nat)) : R := cell (fst (snd r) + row_weight r / 2) (fst r).
(** p[i], lines 2171-2178, for the rows in the order of the list *)
Fixpoint p_scan (trial : R) (rows : list nat) (j : nat) : list nat :=
  match rows with
  | [] => []
  | i :: r => let j' := advance (fun j => Rltb (bhs_tol trial) (cell j i - trial)) (h1 + 1 - j) j in
              (j' - 1)%nat :: p_scan trial r j'
  end.
(** q[i], lines 2180-2189 *)
Fixpoint q_scan (trial : R) (rows : list nat) (j : nat) : list nat :=
  match rows with
  | [] => []
  | i :: r => let j' := retreat (fun j => Rltb (bhs_tol trial) (trial - cell j i)) j in
              (j' + 1)%nat :: q_scan trial r j'
  end.
(** left[i] - right[i] - 1 where positive, lines 2218-2219 and 2231-2232 *)
Definition crossed (left right : list nat) : nat :=
  list_sum (map (fun r => fst r - snd r - 1)%nat (combine left right)).
(** one iteration, lines 2136-2233 *)
Definition mc_iteration (fuel knew : nat) (s : mc_state) : option mc_state :=
  let open := filter is_open (bounds s) in
  let j := length open in
  let work := (map row_value open ++ skipn j (mc_work s))%list in
  let iwt := (map row_weight open ++ skipn j (mc_iwt s))%list in
  match whi_med_i fuel work iwt j with
  | None => None
  | Some (trial, w) =>
      let p := rev (p_scan trial (rev (seq 1 h2)) 1) in
      let q := q_scan trial (seq 1 h2) h1 in
      let sum_p := list_sum p in
      let sum_q := list_sum (map (fun v => v - 1)%nat q) in
      Some (if (knew <=? sum_p)%nat
            then MC (mc_left s) p (ws_a w) (ws_w w) sum_p (mc_nl s) (mc_neq s + crossed (mc_left s) p) trial false
            else if (knew <=? sum_q)%nat
            then MC (mc_left s) (mc_right s) (ws_a w) (ws_w w) (mc_nr s) (mc_nl s) (mc_neq s) trial true
            else MC q (mc_right s) (ws_a w) (ws_w w) (mc_nr s) sum_q (mc_neq s + crossed q (mc_right s)) trial false)
  end.
(** nr - nl + neq > n, line 2134 *)
Definition mc_wide (n : nat) (s : mc_state) : bool := (n + mc_nl s <? mc_nr s + mc_neq s)%nat.
(** the loop of line 2134, with the number of iterations still allowed; also the number of iterations done *)
Fixpoint mc_loop (fuel n knew allowed it : nat) (s : mc_state) : option (mc_state * nat) :=
  if negb (mc_found s) && mc_wide n s
  then match allowed with
       | O => Some (s, it)
       | S r => match mc_iteration fuel knew s with None => None | Some s' => mc_loop fuel n knew r (S it) s' end
       end
  else Some (s, it).
(** lines 2235-2255: the table entries left over are written to [work], and only its first knew - nl entries are
    sorted *)
Definition mc_result (n knew : nat) (s : mc_state) : result R :=
  if mc_found s then Ok (mc_trial s)
  else if mc_wide n s then Ok (mc_trial s)
  else
    let rest := flat_map (fun r => map (fun k => - cell k (fst r)) (seq (fst (snd r)) (row_weight r)))
                  (filter is_open (bounds s)) in
    let work := (rest ++ skipn (length rest) (mc_work s))%list in
    if (n <? length rest)%nat then Raise IndexError
    else if (n <? knew - mc_nl s)%nat then Raise IndexError
    else Ok (- nth (knew - mc_nl s - 1) (rsort (firstn (knew - mc_nl s) work)) 0).
End Table.

(** the medcouple and the number of iterations; [max_it] is iter_[0] on entry *)
Definition mc_c_d (fuel max_it : nat) (z : list R) : option (result (R * nat)) :=
  let n := length z in
  if (n <? 3)%nat then Some (Ok (0, 0%nat)) else
  (** lines 2046-2058 *)
  let s := rsort (map Ropp z) in
  let med := if Nat.even n then (nth (n / 2 - 1) s 0 + nth (n / 2) s 0) / 2 else nth (n / 2) s 0 in
  (** lines 2060-2069 *)
  if Rltb (Rabs (nth 0 s 0 - med)) (bhs_tol med) then Some (Ok (-1, 0%nat)) else
  if Rltb (Rabs (nth (n - 1) s 0 - med)) (bhs_tol med) then Some (Ok (1, 0%nat)) else
  (** lines 2075-2083 *)
  let den := -2 * Rmax (- (nth 0 s 0 - med)) (nth (n - 1) s 0 - med) in
  let xs := map (fun v => (v - med) / den) s in
  let x_eps := bhs_tol (med / den) in
  (** lines 2087-2103 *)
  let above := run_above x_eps xs in
  let mid := run_above (- x_eps) (skipn above xs) in
  let h1 := (above + mid)%nat in
  let h2 := (n - above)%nat in
  (** lines 2108-2127; x2 = x[j - 1:] with j = above + 1 *)
  let x := 0 :: xs in
  let nr := (h1 * h2)%nat in
  let knew := (nr / 2 + 1)%nat in
  let s0 := MC (repeat 1%nat h2) (repeat h1 h2) (repeat 0 n) (repeat 0%nat n) nr 0 0 (-2) false in
  match mc_loop x above h1 h2 fuel n knew max_it 0 s0 with
  | None => None
  | Some (s1, it) =>
      Some (match mc_result x above h1 h2 n knew s1 with Ok v => Ok (v, it) | Raise e => Raise e end)
  end.

(** ** stat16, lines 1986-2018 *)
(** omega and inv_v, lines 2006-2015 *)
Definition bhs_omega : R := 0.198828.
Definition bhs_inv : list (list R) :=
  [[0.8571890822945882; -0.1051268907484579; 0.1051268907484580];
   [-0.1051268907484579; 0.3944817329840534; -0.01109532299714422];
   [0.1051268907484579; -0.01109532299714422; 0.3944817329840535]].
(** n * np.dot(vec, np.dot(inv_v, vec)), lines 2007 and 2017 *)
Definition bhs_value (n : nat) (w1 w2 w3 : R) : R :=
  let vec := [w1 - 0; - w2 - bhs_omega; w3 - bhs_omega] in
  INR n * dot vec (map (fun row => dot row vec) bhs_inv).
(** the three calls share [iter_], so that each is allowed as many iterations as the call before it made; the lower
    part of an odd sample gets its median *)
Definition bhs (fuel : nat) (rvs : list R) : option outcome :=
  let n := length rvs in
  if (3 <? n)%nat then
    let s := rsort rvs in
    let cut := ((n + 1) / 2)%nat in
    match mc_c_d fuel 1000 rvs with
    | None => None
    | Some (Raise e) => Some (Raise e)
    | Some (Ok (w1, it1)) =>
        match mc_c_d fuel it1 (firstn cut s) with
        | None => None
        | Some (Raise e) => Some (Raise e)
        | Some (Ok (w2, it2)) =>
            match mc_c_d fuel it2 (skipn cut s) with
            | None => None
            | Some (Raise e) => Some (Raise e)
            | Some (Ok (w3, _)) => Some (Ok (Some (Fin (bhs_value n w1 w2 w3))))
            end
        end
    end
  else Some (Ok None).
