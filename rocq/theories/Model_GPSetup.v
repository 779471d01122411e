(** Making and refitting a Gaussian process: bayes_optim/surrogate/gaussian_process/gpr.py (constructor, checks of parameters and
    data, the loop of [fit] over several calls), trend.py (input check) and __init__.py (checks of the scikit-learn wrapper).
    Numbers are rationals.  What the checks do not look at is left out: the values of the observations, verbose, random_state,
    wait_iter and eval_budget. *)
From Coq Require Import List Bool Arith ZArith QArith String.
Import ListNotations.
Open Scope nat_scope.

Inductive exn := TypeError | ValueError | AssertionError | AttributeError | WrongSize | Undetermined.
(** No counterpart in the code: a value or an exception. *)
Inductive res (A : Type) := Ok (a : A) | Raise (e : exn).
Arguments Ok {A}. Arguments Raise {A}.
(** No counterpart in the code: an exception skips what follows. *)
Definition bind {A B} (r : res A) (f : A -> res B) : res B := match r with Ok a => f a | Raise e => Raise e end.
Notation "'let*' x := r 'in' f" := (bind r (fun x => f)) (at level 200, x pattern, r at level 100, f at level 200).

(** A float: a finite number, or an infinity or NaN. *)
Inductive num := Fin (q : Q) | NonFinite.
(** The argument corr: the name of a kernel or a function (gpr.py 201-207, 214). *)
Inductive corr := Named (s : string) | Callable.
(** A number or a numpy array; None is falsy like zero. *)
Inductive nug := NoNugget | Scalar (q : Q) | Arr (l : list Q).
(** trend.py 10-38 and 145-151: the number of features, the number of coefficients and whether they are given; a regression model. *)
Inductive trend := Basis (n_feature n_dim : nat) (beta_given : bool) | Nonparametric.
(** The three values of estimation_mode (gpr.py 256-263). *)
Inductive mode := Noiseless | NoiseEstim | Noisy.

(** The keyword arguments of the constructor. *)
Record args := Args { a_mean : option trend; a_corr : corr; a_theta0 : option (list num); a_thetaL : option (list num);
  a_thetaU : option (list num); a_nugget : nug; a_noise_estim : bool; a_optimizer : string; a_likelihood : string }.

(** The attributes that the constructor sets.  g_noise: the entries of noise_var (the number 0 is one entry). *)
Record gp := GP { g_mean : trend; g_corr : corr; g_theta0 : option (list num); g_thetaL : list num; g_thetaU : list num;
  g_noise : list Q; g_mode : mode; g_optimizer : string }.

(** np.isfinite. *)
Definition finite (x : num) : bool := match x with Fin _ => true | NonFinite => false end.
(** np.isfinite(np.array(t).flatten()).all(): None gives an array of objects, for which isfinite is not defined. *)
Definition isfinite_all (t : option (list num)) : res bool := match t with None => Raise TypeError | Some l => Ok (forallb finite l) end.
(** The truth value of a number. *)
Definition nonzero (q : Q) : bool := negb (Qeq_bool q 0).
(** The truth value of an array: of its only entry; False (deprecated) if it is empty; otherwise ambiguous. *)
Definition truth (l : list Q) : res bool := match l with [] => Ok false | [q] => Ok (nonzero q) | _ => Raise ValueError end.
(** The truth value of the argument nugget. *)
Definition nugget_truth (n : nug) : res bool := match n with NoNugget => Ok false | Scalar q => Ok (nonzero q) | Arr l => truth l end.
(** 252  noise_var = np.atleast_1d(nugget) if nugget else 0 *)
Definition noise_var (n : nug) : res (list Q) :=
  let* b := nugget_truth n in
  Ok (if b then match n with Scalar q => [q] | Arr l => l | NoNugget => [] end else [0%Q]).

(** 211-277  the constructor *)
Definition construct (a : args) : res gp :=
  let* okL := isfinite_all (a_thetaL a) in
  let* ok := (if okL then isfinite_all (a_thetaU a) else Ok false) in
  if negb ok then Raise ValueError
  else
    let* nv := noise_var (a_nugget a) in
    let* b := truth nv in
    let m := if negb (b || a_noise_estim a) then Noiseless else if a_noise_estim a then NoiseEstim else Noisy in
    if negb (existsb (String.eqb (a_likelihood a)) ["concentrated"%string; "restricted"%string]) then Raise AssertionError
    else
      let tL := match a_thetaL a with Some l => l | None => [] end in
      let tU := match a_thetaU a with Some l => l | None => [] end in
      Ok (GP (match a_mean a with Some t => t | None => Basis (List.length tU) 1 true end) (a_corr a) (a_theta0 a) tL tU nv m (a_optimizer a)).

(** The comparisons x <= 0 and u < l; a NaN compares false, an infinity does not get past the constructor. *)
Definition le0 (x : num) : bool := match x with Fin q => Qle_bool q 0 | NonFinite => false end.
(** u < l of the same check. *)
Definition lt (x y : num) : bool := match x, y with Fin a, Fin b => negb (Qle_bool b a) | _, _ => false end.

(** 201-207 *)
Definition correlation_types : list string :=
  ["absolute_exponential"%string; "squared_exponential"%string; "generalized_exponential"%string; "cubic"%string; "matern"%string].
(** 1199-1248  _check_params.  The bounds are arrays here, never None: the branches for None are not reached. *)
Definition check_params (g : gp) : res gp :=
  let* g := match g_corr g with
            | Callable => Ok g
            | Named s => if existsb (String.eqb s) correlation_types
                         then Ok (GP (g_mean g) Callable (g_theta0 g) (g_thetaL g) (g_thetaU g) (g_noise g) (g_mode g) (g_optimizer g))
                         else Raise ValueError
            end in
  if negb (List.length (g_thetaL g) =? List.length (g_thetaU g)) then Raise ValueError
  else if match g_theta0 g with Some t => negb (List.length t =? List.length (g_thetaL g)) | None => false end then Raise ValueError
  else if existsb le0 (g_thetaL g) || existsb (fun ul => lt (fst ul) (snd ul)) (combine (g_thetaU g) (g_thetaL g)) then Raise ValueError
  else if negb (existsb (String.eqb (g_optimizer g)) ["BFGS"%string; "CMA"%string]) then Raise ValueError
  else Ok g.

(** trend.py 51-58  check_input for an array with r rows and c columns: the number of rows of the array that is used. *)
Definition check_input (n_feature r c : nat) : res nat :=
  if c =? n_feature then Ok r else if r =? n_feature then Ok c else Raise WrongSize.

(** 279-311  _check_data for r points with c coordinates (check_X_y has passed): the attributes X and y are set first. *)
Definition check_data (g : gp) (r c : nat) : res gp :=
  let* g := check_params g in
  match g_mean g with
  | Basis f p false => let* rows := check_input f r c in if r <? p then Raise Undetermined else Ok g
  | _ => Ok g
  end.

(** 790-811, called in the [try] of 944-946, 955-957 and 972-974, after the Cholesky factorisation: the trend at the training
    points (for an estimated trend it has been evaluated by check_data).  Exception is not among the exceptions that are caught
    there, AttributeError (estimate_trend of a nonparametric trend) neither.  Ok: the number of rows of the trend's values. *)
Definition trend_rows (g : gp) (r c : nat) : res nat :=
  match g_mean g with
  | Basis f _ _ => check_input f r c
  | Nonparametric => Raise AttributeError
  end.

(** ** Several calls of fit on one model *)
Section Fits.
Variable (Data Theta : Type).
(** 1058-1197  _optimize_hyperparameter with the final evaluation of the likelihood: from the mode, the noise variance, the
    starting point (theta_ of the last fit, 1098), the data and the state of the generator; the correlation parameters found, and
    None if the likelihood there is infinite, otherwise the estimated noise variance (used in mode noise_estim only). *)
Variable search : mode -> Q -> option Theta -> Data -> nat -> Theta * option Q.
(** st_rejected counts the rejected attempts since the model was made (not in the code). *)
Record st := St { st_mode : mode; st_noise : Q; st_theta : option Theta; st_clock : nat; st_rejected : nat }.

(** 384-404; None: still running after [fuel] attempts. *)
Fixpoint fit (fuel : nat) (s : st) (d : Data) : option st :=
  match fuel with
  | 0 => None
  | S k =>
      match search (st_mode s) (st_noise s) (st_theta s) d (st_clock s) with
      | (_, None) =>
          match st_mode s with
          | Noiseless => fit k (St Noisy (1 # 100000) (st_theta s) (S (st_clock s)) (S (st_rejected s))) d
          | m => fit k (St m (st_noise s * 10) (st_theta s) (S (st_clock s)) (S (st_rejected s))) d
          end
      | (th, Some nv) =>
          Some (St (st_mode s) (match st_mode s with Noiseless => 0 | NoiseEstim => nv | Noisy => st_noise s end)
                   (Some th) (S (st_clock s)) (st_rejected s))
      end
  end.
(** One call after the other; each with its own bound on the attempts. *)
Fixpoint fits (s : st) (l : list (nat * Data)) : option st :=
  match l with
  | [] => Some s
  | (fuel, d) :: l => match fit fuel s d with Some s' => fits s' l | None => None end
  end.
(** The state of a new process: no attempts made. *)
Definition made (m : mode) (noise : Q) : st := St m noise None 0 0.
End Fits.

(** 374-417  fit of a new model to [data], r points with c coordinates.  If the values of the trend have another number of rows,
    solve_triangular raises ValueError in every evaluation, which is caught: the likelihood is -inf. *)
Definition whole_fit {Data Theta} (search : mode -> Q -> option Theta -> Data -> nat -> Theta * option Q) (fuel : nat) (g : gp) (r c : nat) (data : Data) : option (res (st Theta)) :=
  match check_data g r c with
  | Raise e => Some (Raise e)
  | Ok g =>
      match trend_rows g r c with
      | Raise e => Some (Raise e)
      | Ok rows =>
          option_map Ok
            (fit Data Theta (fun m nv th d i => let (th', o) := search m nv th d i in (th', if rows =? r then o else None)) fuel
               (made Theta (g_mode g) (hd 0%Q (g_noise g))) data)
      end
  end.

(** ** predict after a fit that failed *)
(** The number of training points in X (set at 285) and in gamma (set at 788). *)
Record sizes := Sizes { s_X : nat; s_gamma : option nat }.
(** 285, 788: X is replaced before the checks that may raise. *)
Definition refit (s : sizes) (r : nat) (outcome : res unit) : sizes :=
  match outcome with Ok _ => Sizes r (Some r) | Raise _ => Sizes r (s_gamma s) end.
(** 460-490  predict, as far as shapes go: r has a column for each row of X, gamma a row for each point of the last completed fit. *)
Definition predict (s : sizes) : res unit :=
  match s_gamma s with None => Raise AttributeError | Some n => if s_X s =? n then Ok tt else Raise ValueError end.

(** ** __init__.py: the scikit-learn wrapper *)
(** gaussian_process/__init__.py 64-68  _set_length_scale_bounds: arrays of pairs; bounds are those of the domain (dim of them).  Broadcasting k rows with dim
    rows works if the numbers are equal or one of them is one. *)
Definition scale_pair (p b : Q * Q) : Q * Q := ((fst p * (snd b - fst b))%Q, (snd p * (snd b - fst b))%Q).
(** gaussian_process/__init__.py 64-68: the bounds of the length scales. *)
Definition length_scale_bounds (pairs bounds : list (Q * Q)) : res (list (Q * Q)) :=
  let pairs := match pairs with [p] => repeat p (List.length bounds) | _ => pairs end in
  if List.length pairs =? List.length bounds then Ok (map (fun pb => scale_pair (fst pb) (snd pb)) (combine pairs bounds))
  else match bounds with
       | [b] => Ok (map (fun p => scale_pair p b) pairs)
       | _ => match pairs with [p] => Ok (map (scale_pair p) bounds) | _ => Raise ValueError end
       end.
(** gaussian_process/__init__.py 91-108  _check_dims: the columns of X; the columns of y, None if y is one-dimensional. *)
Definition check_dims (dim n_obj : nat) (columns : nat) (y_columns : option nat) : res unit :=
  if negb (dim =? columns) then Raise ValueError
  else match y_columns with
       | None => if n_obj =? 1 then Ok tt else Raise ValueError
       | Some k => if n_obj =? k then Ok tt else Raise ValueError
       end.
(** gaussian_process/__init__.py 125-146  fit: the columns of y that are handed to scikit-learn's models, one model for each; None is y itself. *)
Definition columns_fitted (dim n_obj columns : nat) (y_columns : option nat) : res (list (option nat)) :=
  let* _ := check_dims dim n_obj columns y_columns in
  Ok (map (fun i => match y_columns with None => None | Some _ => Some i end) (seq 0 n_obj)).
