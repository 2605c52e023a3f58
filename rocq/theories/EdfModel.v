(** Model of statistics/goodness_of_fit/common.py and of the statistics based on the empirical
    distribution function in uniform.py, gamma.py, beta.py, student.py and log_normal.py.

    Arrays are lists of reals.  [u] always stands for the array [cdf_vals] (the hypothesised cdf at the
    sorted sample).  The cdf of scipy is an argument, except for the uniform distribution where it is
    defined; what theorems need about it is stated there.  Empty samples follow numpy: argmax/max of an
    empty array raises ValueError, a Python integer division by zero raises ZeroDivisionError. *)
From Verif Require Import Base DecModel.

(** ** common.py *)
(** lines 76, 84 *)
Definition d_plus (u : list R) : list R := imap (fun i x => INR (S i) / len u - x) u.
Definition d_minus (u : list R) : list R := imap (fun i x => x - INR i / len u) u.
(** [a[a.argmax()]], also [np.max(a)] *)
Definition np_max (a : list R) : result R :=
  match a with [] => Raise ValueError | _ => Ok (Rmaxl 0 a) end.
(** lines 27-71  [KSStatistic.do_execute_statistic]; LillieforsTest (117-126) is the TWO_TAILED case *)
Definition ks_do_execute (alt : alternative) (u : list R) : result R :=
  let! _ := np_max (d_minus u) in
  match alt with
  | RIGHT => np_max (d_plus u)
  | LEFT => np_max (d_minus u)
  | TWO_TAILED =>
    let! dp := np_max (d_plus u) in
    let! dm := np_max (d_minus u) in
    Ok (if Rltb dm dp then dp else dm)
  end.
(** lines 110-114  [ADStatistic.do_execute_statistic] on finite logarithms *)
Definition ad_do_execute (log_cdf log_sf : list R) : R :=
  let n := len log_cdf in
  - n - Rsum (imap (fun i p => (2 * INR (S i) - 1) / n * (fst p + snd p)) (combine log_cdf (rev log_sf))).
(** with [logcdf]/[logsf] of scipy: a cdf value 0 or 1 has an infinite logarithm and the sum is infinite *)
Definition ad_of_cdf (u : list R) : npval :=
  if forallb (fun x => Rltb 0 x && Rltb x 1) u
  then Fin (ad_do_execute (map ln u) (map (fun x => ln (1 - x)) u))
  else NonFinite.
(** lines 139-145  [CrammerVonMisesStatistic.do_execute_statistic] *)
Definition cvm_do_execute (u : list R) : result R :=
  match u with
  | [] => Raise ZeroDivisionError
  | _ => let n := len u in
         Ok (1 / (12 * n) + Rsum (imap (fun i x => ((2 * INR (S i) - 1) / (2 * n) - x) ^ 2) u))
  end.
(** lines 187-196  [MinToshiyukiStatistic.do_execute_statistic]; 1/(u(1-u)) must be finite *)
Definition mt_do_execute (u : list R) : npval :=
  if forallb (fun x => Rltb 0 x && Rltb x 1) u && negb (Nat.eqb (length u) 0)
  then Fin (Rsum (imap (fun i x => Rmax (INR (S i) / len u - x) (x - INR i / len u) * sqrt (1 / (x * (1 - x)))) u)
            / sqrt (len u))
  else NonFinite.

(** lines 160-179  [Chi2Statistic.do_execute_statistic]: one term; None stands for inf/nan.
    special.xlogy(0, y) is 0. *)
Definition xlogy (x y : R) : R := if Reqb x 0 then 0 else x * ln y.
Definition pd_term (lambda_ o e : R) : option R :=
  if Reqb lambda_ 1 then (if Reqb e 0 then None else Some ((o - e) ^ 2 / e))
  else if Reqb lambda_ 0 then (if Reqb e 0 then None else Some (2 * xlogy o (o / e)))
  else if Reqb lambda_ (-1) then (if Reqb o 0 then None else Some (2 * xlogy e (e / o)))
  else if Reqb e 0 then None
  else if Reqb o 0 then (if Rltb 0 lambda_ then Some 0 else None)
  else Some (o * (Rpower (o / e) lambda_ - 1) / (0.5 * lambda_ * (lambda_ + 1))).
Fixpoint pd_sum (lambda_ : R) (f_obs f_exp : list R) : option R :=
  match f_obs, f_exp with
  | o :: f_obs', e :: f_exp' =>
    match pd_term lambda_ o e, pd_sum lambda_ f_obs' f_exp' with
    | Some t, Some s => Some (t + s)
    | _, _ => None
    end
  | _, _ => Some 0
  end.
Definition power_divergence (lambda_ : R) (f_obs f_exp : list R) : npval :=
  match pd_sum lambda_ f_obs f_exp with Some s => Fin s | None => NonFinite end.

(** ** [np.histogram] with increasing inner edges; the outer edges enclose every observation, either
    because they are infinite or because the sample was validated. Bins are half open on the right. *)
Fixpoint histogram (inner : list R) (sample : list R) : list nat :=
  match inner with
  | [] => [length sample]
  | e :: inner' => length (filter (fun x => Rltb x e) sample)
                   :: histogram inner' (filter (fun x => negb (Rltb x e)) sample)
  end.

(** ** Watson, Kuiper on cdf values *)
(** gamma.py:333-337 *)
Definition watson_gamma_of (u : list R) : result R :=
  match u with
  | [] => Raise ValueError
  | _ => let n := len u in
    let w_squared := 1 / (12 * n) + Rsum (imap (fun i x => (x - (2 * INR (S i) - 1) / (2 * n)) ^ 2) u) in
    let mean_adj := Rsum u - n / 2 in
    Ok (w_squared - mean_adj ^ 2 / n)
  end.
(** beta.py:369-377, student.py:298-308 *)
Definition watson_of (u : list R) : result R :=
  let! w2 := cvm_do_execute u in
  Ok (w2 - len u * (mean u - 0.5) ^ 2).
(** gamma.py:386-395, beta.py:427-434, student.py:248-251, uniform.py:413-415 *)
Definition kuiper_of (u : list R) : result R :=
  let! dp := np_max (d_plus u) in
  let! dm := np_max (d_minus u) in
  Ok (dp + dm).
(** uniform.py:352-357, on the standardised sorted sample *)
Definition watson_uniform_of (z : list R) : result R :=
  match z with
  | [] => Raise ZeroDivisionError
  | _ => let n := len z in
    Ok (Rsum (imap (fun i x => (x - INR (S i) / n + 0.5 / n - mean z) ^ 2) z) / n + 1 / (12 * n ^ 2))
  end.

(** ** Spacings *)
Fixpoint diff (l : list R) : list R :=
  match l with x :: ((y :: _) as l') => (y - x) :: diff l' | _ => [] end.
Definition spacings (lo : R) (u : list R) (hi : R) : list R := diff (lo :: u ++ [hi]).
(** uniform.py:462-465, gamma.py:444-447 *)
Definition greenwood_of (u : list R) : R := Rsum (map (fun d => d ^ 2) (spacings 0 u 1)).
(** gamma.py:493-504 *)
Definition moran_of (u : list R) : result R :=
  match u with
  | [] => Raise ValueError
  | _ => let sp := spacings 0 u 1 in
    if existsb (fun d => Rleb d 0) sp then Raise ValueError
    else Ok (- Rsum (map (fun d => ln (len u * d)) sp))
  end.
(** uniform.py:907-917 *)
Definition sherman_of (a b : R) (x : list R) : R :=
  let expected := (b - a) / (len x + 1) in
  0.5 * Rsum (map (fun d => Rabs (d - expected)) (spacings a x b)).
(** uniform.py:960-970, log_normal.py:196-207 *)
Fixpoint consecutive_products (l : list R) : R :=
  match l with x :: ((y :: _) as l') => x * y + consecutive_products l' | _ => 0 end.
Definition quesenberry_miller_of (a b : R) (x : list R) : R :=
  let sp := spacings a x b in
  Rsum (map (fun d => d ^ 2) sp) + consecutive_products sp.

(** ** uniform.py *)
(** 25-29 *)
Definition uniform_ctor (a b : R) : result (R * R) := if Rleb b a then Raise ValueError else Ok (a, b).
(** 55-68 *)
Definition uniform_validate (a b : R) (rvs : list R) : result (list R) :=
  if existsb (fun x => Rltb x a || Rltb b x) rvs then Raise ValueError else Ok rvs.
(** [scipy.stats.uniform.cdf(x, loc=a, scale=b-a)] *)
Definition uniform_cdf (a b x : R) : R :=
  if Rltb x a then 0 else if Rltb b x then 1 else (x - a) / (b - a).
Definition uniform_std (a b : R) (x : list R) : list R := map (fun v => (v - a) / (b - a)) x.
(** 104-115, 228-239 (Lilliefors: TWO_TAILED) *)
Definition ks_uniform (a b : R) (alt : alternative) (rvs : list R) : result R :=
  let! rvs := uniform_validate a b rvs in
  ks_do_execute alt (map (uniform_cdf a b) (rsort rvs)).
(** 145-157 *)
Definition ad_uniform (a b : R) (rvs : list R) : result npval :=
  let! rvs := uniform_validate a b rvs in
  Ok (ad_of_cdf (map (uniform_cdf a b) (rsort rvs))).
(** 187-198 *)
Definition cvm_uniform (a b : R) (rvs : list R) : result R :=
  let! rvs := uniform_validate a b rvs in
  cvm_do_execute (map (uniform_cdf a b) (rsort rvs)).
(** 282-302; [bins] is the number of bins after the rule of lines 285-297 (at least 2) *)
Definition chi2_uniform (a b lambda_ : R) (bins : nat) (rvs : list R) : result npval :=
  let! rvs := uniform_validate a b rvs in
  let inner := map (fun i => a + (b - a) * INR (S i) / INR bins) (seq 0 (bins - 1)) in
  let observed := map INR (histogram inner rvs) in
  let expected := repeat (len rvs / INR bins) bins in
  Ok (power_divergence lambda_ observed expected).
(** 339-357 *)
Definition watson_uniform (a b : R) (rvs : list R) : result R :=
  let! rvs := uniform_validate a b rvs in
  watson_uniform_of (uniform_std a b (rsort rvs)).
(** 394-417 (the branch of line 405 computes the same values when a=0 and b=1) *)
Definition kuiper_uniform (a b : R) (rvs : list R) : result R :=
  let! rvs := uniform_validate a b rvs in
  kuiper_of (if negb (Reqb a 0) || negb (Reqb b 1) then uniform_std a b (rsort rvs) else rsort rvs).
(** 451-467 *)
Definition greenwood_uniform (a b : R) (rvs : list R) : result R :=
  let! rvs := uniform_validate a b rvs in
  Ok (greenwood_of (uniform_std a b (rsort rvs))).
(** 898-917 *)
Definition sherman_uniform (a b : R) (rvs : list R) : result R :=
  let! rvs := uniform_validate a b rvs in
  Ok (sherman_of a b (rsort rvs)).
(** 951-972 *)
Definition qm_uniform (a b : R) (rvs : list R) : result R :=
  let! rvs := uniform_validate a b rvs in
  Ok (quesenberry_miller_of a b (rsort rvs)).

(** ** The classes of gamma.py, beta.py, student.py, log_normal.py that sort the sample, apply the cdf
    [F] of the hypothesised distribution and call the functions above:
    gamma.py:132-134, 190-192, 233-236, 277-279, 325-337, 383-395, 442-447, 493-504, 546-548;
    beta.py:122-124, 161-171, 213-215, 257-259, 365-377, 423-434 (after validation);
    student.py:113-117, 154-159, 196-200, 241-251, 292-308, 457-459 (F x = t.cdf((x-loc)/scale, df));
    log_normal.py:109-111, 148-150, 191-209. *)
Section Cdf.
Variable F : R -> R.
Definition cdf_vals (rvs : list R) : list R := map F (rsort rvs).
Definition ks_stat (alt : alternative) (rvs : list R) : result R := ks_do_execute alt (cdf_vals rvs).
Definition ad_stat (rvs : list R) : npval := ad_of_cdf (cdf_vals rvs).
Definition cvm_stat (rvs : list R) : result R := cvm_do_execute (cdf_vals rvs).
Definition watson_stat (rvs : list R) : result R := watson_of (cdf_vals rvs).
Definition watson_gamma_stat (rvs : list R) : result R := watson_gamma_of (cdf_vals rvs).
Definition kuiper_stat (rvs : list R) : result R := kuiper_of (cdf_vals rvs).
Definition mt_stat (rvs : list R) : npval := mt_do_execute (cdf_vals rvs).
(** gamma.py:442-447 (negative spacings cannot occur with sorted cdf values in [0,1] but are checked) *)
Definition greenwood_stat (rvs : list R) : result R :=
  if existsb (fun d => Rltb d 0) (spacings 0 (cdf_vals rvs) 1) then Raise ValueError
  else Ok (greenwood_of (cdf_vals rvs)).
Definition moran_stat (rvs : list R) : result R := moran_of (cdf_vals rvs).
(** log_normal.py:191-209: cdf first, then sort *)
Definition qm_lognormal_stat (rvs : list R) : R := quesenberry_miller_of 0 1 (rsort (map F rvs)).
End Cdf.

(** gamma.py:574-594 and student.py:512-528: equiprobable bins, inner edges given by the ppf *)
Definition binned_stat (ppf : R -> R) (lambda_ : R) (bins : nat) (rvs : list R) : result npval :=
  match rvs with
  | [] => Raise ValueError
  | _ =>
    let inner := map (fun i => ppf (INR (S i) / INR bins)) (seq 0 (bins - 1)) in
    Ok (power_divergence lambda_ (map INR (histogram inner rvs)) (repeat (len rvs / INR bins) bins))
  end.
