(** Model of estimation/maximum_likelihood/function_for_maximum_likelihood.py and maximum_likelihood.py.

    Data are Python lists or one-dimensional numpy arrays of floats or integers, read as real numbers; arithmetic is
    exact (no underflow of the densities).  Python lists do not support elementwise comparison with a number
    ([dataArray <= 0] raises TypeError), and comparing a list with [==] gives False.  [math.log] of 0 raises
    ValueError; [np.log] of 0 is -inf, whose exponential is 0.  [math.comb] and [math.factorial] refuse floats
    (Python 3.10 and later).  The numerical procedures of scipy ([root_scalar], [minimize_scalar], [*.fit]) are parameters. *)
From Coq Require Import String ZArith.
From Verif Require Import Base NormModel.

Inductive kind := KList | KFloat | KInt.
(** a number, inf or nan *)
Inductive likval := Val (x : R) | PlusInf | NaN.
(** an operation that Python lists do not support *)
Definition elementwise {A} (c : kind) (r : result A) : result A := match c with KList => Raise TypeError | _ => r end.
(** [np.all(dataArray == v)] *)
Definition all_equal (c : kind) (v : R) (l : list R) : bool :=
  match c with KList => false | _ => forallb (fun x => Reqb x v) l end.
Definition any_neg (l : list R) : bool := existsb (fun x => Rltb x 0) l.
Definition any_nonpos (l : list R) : bool := existsb (fun x => Rleb x 0) l.
Definition prod (l : list R) : R := fold_right Rmult 1 l.
(** [np.exp(np.sum(logpdf))] *)
Definition exp_sum_logpdf (f : R -> R) (l : list R) : R :=
  if forallb (fun x => Rltb 0 (f x)) l then exp (Rsum (map (fun x => ln (f x)) l)) else 0.
(** [np.floor(x) == x], [np.mod(x, 1) == 0] *)
Definition is_int (x : R) : bool := Reqb (IZR (Int_part x)) x.
Definition to_nat (x : R) : nat := Z.to_nat (Int_part x).

(** 38-56 *)
Definition lf_uniform (c : kind) (l : list R) : result likval :=
  match l with
  | [] => Raise ValueError
  | _ => let a := Rminl 0 l in let b := Rmaxl 0 l in
         if Reqb a b then Ok (Val 0) else Ok (Val (exp (- len l * ln (b - a))))
  end.
(** 60-83 *)
Definition lf_normal (c : kind) (l : list R) : result likval :=
  match l with
  | [] => Raise ZeroDivisionError
  | _ => let m := Rsum l / len l in
         let variance := Rsum (map (fun x => (x - m) ^ 2) l) / len l in
         if Reqb variance 0 then Ok (Val 0)
         else Ok (Val (exp (Rsum (map (fun x => ln (1 / sqrt (2 * PI * variance) * exp (- (x - m) ^ 2 / (2 * variance)))) l))))
  end.
(** 87-114 *)
Definition lf_lognormal (c : kind) (l : list R) : result likval :=
  if any_nonpos l then Ok (Val 0) else
  match l with
  | [] => Raise ZeroDivisionError
  | _ => let d := map ln l in
         let m := Rsum d / len l in
         let variance := Rsum (map (fun x => (x - m) ^ 2) d) / len l in
         if Reqb variance 0 then Ok (Val 0)
         else Ok (Val (exp (Rsum (map (fun x => ln (1 / (x * sqrt (2 * PI * variance)) * exp (- (ln x - m) ^ 2 / (2 * variance)))) l))))
  end.
(** 118-143 *)
Definition lf_exponential (c : kind) (l : list R) : result likval :=
  if any_neg l then Ok (Val 0)
  else if all_equal c 0 l then Ok (Val 0)
  else if Reqb (Rsum l) 0 then Raise ZeroDivisionError
  else let lam := len l / Rsum l in
       Ok (Val (exp (Rsum (map (fun x => ln (lam * exp (- lam * x))) l)))).
(** 159-163: the function whose root is taken as the shape *)
Definition weibull_g (l : list R) (k : R) : R :=
  let xk := map (fun x => Rpower x k) l in
  (1 - ln (mean xk)) / k + mean (map ln l) - Rsum (map (fun x => Rpower x k * ln x) l) / Rsum xk.
(** 147-176; [root] stands for root_scalar(bisect) on [0.1, 10], which stops with ValueError on nan *)
Definition lf_weibull (root : list R -> R) (c : kind) (l : list R) : result likval :=
  elementwise c
  (if any_nonpos l then Ok (Val 0) else
   match l with
   | [] => Raise ValueError
   | _ => if Rltb 0 (weibull_g l 0.1 * weibull_g l 10) then Ok (Val 0)
          else let k := root l in
               let lam := Rpower (mean (map (fun x => Rpower x k) l)) (1 / k) in
               Ok (Val (prod (map (fun x => k / lam * Rpower (x / lam) (k - 1) * exp (- Rpower (x / lam) k)) l)))
   end).
(** [dist.logpdf(x, ..., loc, scale)] from the standard density *)
Definition loc_scale_pdf (f : R -> R) (loc scale x : R) : R := f ((x - loc) / scale) / scale.
(** 180-197; [pdf shape] is the standard gamma density, [fit] is gamma.fit(data, floc=0) *)
Definition lf_gamma (pdf : R -> R -> R) (fit : list R -> result (R * R)) (c : kind) (l : list R) : result likval :=
  elementwise c
  (if any_nonpos l then Ok (Val 0) else
   match l with
   | [] => Raise IndexError
   | x0 :: _ => if all_equal c x0 l then Ok (Val 0)
                else let! (shape, scale) := fit l in Ok (Val (exp_sum_logpdf (loc_scale_pdf (pdf shape) 0 scale) l))
   end).
(** 201-228; [gammaln] of scipy.special, [fit] is beta.fit(data, floc=0, fscale=1) *)
Definition lf_beta (gammaln : R -> R) (fit : list R -> result (R * R)) (c : kind) (l : list R) : result likval :=
  match l with
  | [] => Ok (Val 0)
  | x0 :: _ => elementwise c
    (if existsb (fun x => Rleb x 0 || Rleb 1 x) l || all_equal c x0 l then Ok (Val 0)
     else let! (a, b) := fit l in
          Ok (Val (exp (len l * (gammaln (a + b) - gammaln a - gammaln b) + (a - 1) * Rsum (map ln l)
                        + (b - 1) * Rsum (map (fun x => ln (1 - x)) l)))))
  end.
(** 232-258 *)
Definition lf_cauchy (pdf : R -> R) (fit : list R -> result (R * R)) (c : kind) (l : list R) : result likval :=
  match l with
  | [] => Raise IndexError
  | x0 :: _ => if all_equal c x0 l then Ok (Val 0)
               else let! (loc, scale) := fit l in
                    if Rleb scale 0 then Ok (Val 0) else Ok (Val (exp_sum_logpdf (loc_scale_pdf pdf loc scale) l))
  end.
(** 262-279; [fit] is chi2.fit(data, floc=0): degrees of freedom and scale *)
Definition lf_chi_squared (pdf : R -> R -> R) (fit : list R -> result (R * R)) (c : kind) (l : list R) : result likval :=
  if any_nonpos l then Ok (Val 0)
  else let! (df, scale) := fit l in Ok (Val (exp_sum_logpdf (loc_scale_pdf (pdf df) 0 scale) l)).
(** 283-297 *)
Definition lf_t (pdf : R -> R -> R) (fit : list R -> result (R * R * R)) (c : kind) (l : list R) : result likval :=
  match l with
  | [] => Raise IndexError
  | x0 :: _ => if all_equal c x0 l then Ok (Val 0)
               else let! (df, loc, scale) := fit l in Ok (Val (exp_sum_logpdf (loc_scale_pdf (pdf df) loc scale) l))
  end.
(** 301-315 *)
Definition lf_fisher (pdf : R -> R -> R -> R) (fit : list R -> result (R * R * R)) (c : kind) (l : list R) : result likval :=
  elementwise c
  (if any_nonpos l then Ok (Val 0) else
   match l with
   | [] => Raise IndexError
   | x0 :: _ => if all_equal c x0 l then Ok (Val 0)
                else let! (dfn, dfd, scale) := fit l in Ok (Val (exp_sum_logpdf (loc_scale_pdf (pdf dfn dfd) 0 scale) l))
   end).
(** 319-334; rayleigh.fit with floc=0 is analytic, scale = sqrt(sum x^2 / (2n)), and refuses data that are not
    strictly positive; for an empty array the sum of no logarithms is 0 *)
Definition lf_rayleigh (c : kind) (l : list R) : result likval :=
  elementwise c
  (if any_neg l then Ok (Val 0)
   else if any_nonpos l then Raise FitError
   else match l with
        | [] => Ok (Val 1)
        | _ => let s := sqrt (Rsum (map (fun x => x ^ 2) l) / (2 * len l)) in
               Ok (Val (exp_sum_logpdf (loc_scale_pdf (fun x => x * exp (- x ^ 2 / 2)) 0 s) l))
        end).
(** 350-354 *)
Definition wigner_nll (l : list R) (r : R) : R :=
  - (len l * ln (2 / (PI * r ^ 2)) + 0.5 * Rsum (map (fun x => ln (r ^ 2 - x ^ 2)) l)).
(** 338-363; [minimise lo hi l] is [minimize_scalar(..., bounds=(lo, hi), method="bounded")]: success and minimiser *)
Definition lf_wigner (minimise : R -> R -> list R -> bool * R) (c : kind) (l : list R) : result likval :=
  match l with
  | [] => Raise IndexError
  | x0 :: _ => if all_equal c x0 l then Ok (Val 0)
               else elementwise c
                    (let max_abs_x := Rmaxl 0 (map Rabs l) in
                     let (success, r) := minimise (max_abs_x + 1e-6) (max_abs_x + 10) l in
                     if success then Ok (Val (exp (- wigner_nll l r))) else Ok (Val 0))
  end.
(** 367-393 *)
Definition lf_pareto (c : kind) (l : list R) : result likval :=
  elementwise c
  (if any_nonpos l then Ok (Val 0) else
   match l with
   | [] => Raise ValueError
   | _ => let x_m := Rminl 0 l in
          let s := Rsum (map (fun x => ln (x / x_m)) l) in
          if Reqb s 0 then Ok PlusInf
          else let alpha := len l / s in
               Ok (Val (exp (len l * ln alpha + len l * alpha * ln x_m - (alpha + 1) * Rsum (map ln l))))
   end).
(** 397-415; [dataArray - mu] with a numpy float also works for lists *)
Definition lf_laplace (c : kind) (l : list R) : result likval :=
  match l with
  | [] => Ok NaN
  | _ => let mu := median l in
         let b := mean (map (fun x => Rabs (x - mu)) l) in
         if Reqb b 0 then Ok PlusInf
         else Ok (Val (exp (- len l * ln (2 * b) - 1 / b * Rsum (map (fun x => Rabs (x - mu)) l))))
  end.
(** 422-438 *)
Definition lf_discrete_uniform (c : kind) (l : list R) : result likval :=
  match l with
  | [] => Raise ValueError
  | _ => let support_size := Rmaxl 0 l - Rminl 0 l + 1 in Ok (Val (exp (- len l * ln support_size)))
  end.
(** 442-463 *)
Definition lf_bernoulli (c : kind) (l : list R) : result likval :=
  if negb (forallb (fun x => Reqb x 0 || Reqb x 1) l) then Ok (Val 0) else
  match l with
  | [] => Ok NaN
  | _ => let p := Rsum l / len l in
         if Reqb p 0 || Reqb p 1 then Ok (Val 1)
         else Ok (Val (exp (Rsum l * ln p + (len l - Rsum l) * ln (1 - p))))
  end.
(** 467-494; no trials (n = 0) give p = nan *)
Definition lf_binomial (c : kind) (l : list R) (n : nat) : result likval :=
  elementwise c
  (if existsb (fun x => Rltb x 0 || Rltb (INR n) x || negb (is_int x)) l then Ok (Val 0) else
   match l with
   | [] => Ok (Val 1)
   | _ =>
     let p := Rsum l / (len l * INR n) in
     if negb (n =? 0)%nat && (Reqb p 0 || Reqb p 1)
     then Ok (Val (if forallb (fun x => Reqb x 0) l || forallb (fun x => Reqb x (INR n)) l then 1 else 0))
     else match c with
          | KInt => if (n =? 0)%nat then Ok NaN
                    else Ok (Val (exp (Rsum (map (fun x => ln (INR (choose n (to_nat x))) + x * ln p + (INR n - x) * ln (1 - p)) l))))
          | _ => Raise TypeError
          end
   end).
(** 498-515; [log(lam)] is evaluated before [factorial(x)] *)
Definition lf_poisson (c : kind) (l : list R) : result likval :=
  elementwise c
  (if any_neg l || negb (forallb is_int l) then Ok (Val 0) else
   match l with
   | [] => Ok (Val 1)
   | _ => let lam := Rsum l / len l in
          if Reqb lam 0 then Raise ValueError
          else match c with
               | KInt => Ok (Val (exp (Rsum (map (fun x => x * ln lam - lam - ln (INR (fact (to_nat x)))) l))))
               | _ => Raise TypeError
               end
   end).
(** 519-537 *)
Definition lf_geometric (c : kind) (l : list R) : result likval :=
  elementwise c
  (if existsb (fun x => Rltb x 1) l || negb (forallb is_int l) then Ok (Val 0) else
   match l with
   | [] => Ok NaN
   | _ => let p := len l / Rsum l in
          if Reqb p 1 then Raise ValueError
          else Ok (Val (exp (len l * ln p + (Rsum l - len l) * ln (1 - p))))
   end).

(** ** maximum_likelihood.py *)
(** 20-29: the loop over functions of one argument; a comparison with nan is False *)
Definition exceeds (r : likval) (best : likval) : bool :=
  match r, best with
  | Val x, Val y => Rltb y x
  | PlusInf, Val _ => true
  | _, _ => false
  end.
Fixpoint max_loop {D} (functions : list (string * (D -> result likval))) (d : D) (best : option string * likval) : result (option string * likval) :=
  match functions with
  | [] => Ok best
  | (name, f) :: rest =>
    let! r := f d in
    max_loop rest d (if exceeds r (snd best) then (Some name, r) else best)
  end.
Definition find_max {D} (functions : list (string * (D -> result likval))) (d : D) : result (option string) :=
  let! best := max_loop functions d (None, Val 0) in Ok (fst best).
(** the numerical procedures of scipy and its densities *)
Record scipy := Scipy {
  sp_root : list R -> R; sp_minimise : R -> R -> list R -> bool * R;
  sp_gammaln : R -> R; sp_gamma_pdf : R -> R -> R; sp_cauchy_pdf : R -> R; sp_chi2_pdf : R -> R -> R;
  sp_t_pdf : R -> R -> R; sp_f_pdf : R -> R -> R -> R;
  sp_gamma_fit : list R -> result (R * R); sp_beta_fit : list R -> result (R * R); sp_cauchy_fit : list R -> result (R * R);
  sp_chi2_fit : list R -> result (R * R); sp_t_fit : list R -> result (R * R * R); sp_f_fit : list R -> result (R * R * R) }.
Definition dataset := (kind * list R)%type.
(** a call with a required argument missing, or of scipy's optimisers with the data as first argument *)
Definition bad_call (d : dataset) : result likval := Raise TypeError.
(** 13-15: [inspect.getmembers(module, inspect.isfunction)], in alphabetical order, including the two Python functions
    that the module imports from scipy.optimize; the functions of [math], numpy and scipy.special are not Python functions *)
Definition module_functions (S : scipy) : list (string * (dataset -> result likval)) :=
  let on f (d : dataset) := f (fst d) (snd d) in
  ([("likelihood_function_bernoulli", on lf_bernoulli);
    ("likelihood_function_beta", on (lf_beta (sp_gammaln S) (sp_beta_fit S)));
    ("likelihood_function_binomial", bad_call);
    ("likelihood_function_cauchy", on (lf_cauchy (sp_cauchy_pdf S) (sp_cauchy_fit S)));
    ("likelihood_function_chi_squared", on (lf_chi_squared (sp_chi2_pdf S) (sp_chi2_fit S)));
    ("likelihood_function_discrete_uniform", on lf_discrete_uniform);
    ("likelihood_function_exponential", on lf_exponential);
    ("likelihood_function_fisher", on (lf_fisher (sp_f_pdf S) (sp_f_fit S)));
    ("likelihood_function_gamma", on (lf_gamma (sp_gamma_pdf S) (sp_gamma_fit S)));
    ("likelihood_function_geometric", on lf_geometric);
    ("likelihood_function_laplace", on lf_laplace);
    ("likelihood_function_lognormal", on lf_lognormal);
    ("likelihood_function_normal", on lf_normal);
    ("likelihood_function_pareto", on lf_pareto);
    ("likelihood_function_poisson", on lf_poisson);
    ("likelihood_function_rayleigh", on lf_rayleigh);
    ("likelihood_function_t_distribution", on (lf_t (sp_t_pdf S) (sp_t_fit S)));
    ("likelihood_function_uniform_continuous", on lf_uniform);
    ("likelihood_function_weibull", on (lf_weibull (sp_root S)));
    ("likelihood_function_wigner", on (lf_wigner (sp_minimise S)));
    ("minimize_scalar", bad_call);
    ("root_scalar", bad_call)])%string.
(** 7-29 *)
Definition find_max_probability_function (S : scipy) (d : dataset) : result (option string) := find_max (module_functions S) d.
(** 32-48: the truth value of an array of one element is that of the element, of several elements it raises ValueError;
    the function has no return statement: [Ok tt] is None *)
Definition find_result_of_likelihood_function (S : scipy) (d : dataset) : result unit :=
  match snd d with
  | [] => Raise ValueError
  | [x] => if Reqb x 0 then Raise ValueError else let! _ := find_max_probability_function S d in Ok tt
  | _ => Raise ValueError
  end.
(** 1-4: the absolute import succeeds only if the directory of the module is on the search path *)
Definition import_maximum_likelihood (directory_on_path : bool) : result unit :=
  if directory_on_path then Ok tt else Raise ModuleNotFoundError.
