(** The Metropolis-Hastings sampler under constraints: bayes_optim/search_space/samplers.py 76-78, 98-152 and 164-199.
    Real arithmetic.  The random numbers of a step are arguments: for each row and column a uniform number and a position for the
    proposal and a uniform number for the acceptance. *)
From Coq Require Import Reals ZArith List Bool.
From Verif Require Import Lib_Normal.
Import ListNotations.
Open Scope R_scope.

Definition total (l : list R) : R := fold_right Rplus 0 l.
(** No counterpart in the code: all values exist, or the call raises. *)
Fixpoint all_some {A} (l : list (option A)) : option (list A) :=
  match l with
  | [] => Some []
  | Some a :: l' => option_map (cons a) (all_some l')
  | None :: _ => None
  end.
(** No counterpart in the code: numpy's arithmetic on two lists of the same length. *)
Fixpoint zip {A B C} (f : A -> B -> C) (l : list A) (m : list B) : list C :=
  match l, m with a :: l', b :: m' => f a b :: zip f l' m' | _, _ => [] end.

Section Posterior.
Variable V : Type.
Notation point := (list V).
(** target_dist; the constraints, [None]: an exception. *)
Variable target : point -> R.
Variable constraints : point -> option (list R).
(** 98-116  _log_posterior; [None]: ConstraintEvaluationError.  A density that is not positive is outside the model and also gives
    [None] (the code goes on with -inf or nan); every theorem assumes positive densities. *)
Definition log_posterior (nu : R) (x : point) : option R :=
  match constraints x with
  | None => None
  | Some c => if Rlt_dec 0 (target x) then Some (ln (target x) + total (map (fun v => ln (cdf (-1 * v / nu))) c)) else None
  end.

(** 190-195: an overflow of the exponential for one row gives the probability one to all rows.  [xmax]: the largest argument
    without overflow (709.78...). *)
Variable xmax : R.
Definition probabilities (lp_ lp : list R) : list R :=
  let d := zip Rminus lp_ lp in
  if existsb (fun e => if Rlt_dec xmax e then true else false) d then map (fun _ => 1) d
  else map (fun e => Rmin (Rmax (exp e) 0) 1) d.

(** Component i of the proposal replaces that of the row. *)
Fixpoint put (i : nat) (a : V) (x : point) : point :=
  match i, x with
  | _, [] => []
  | O, _ :: x' => a :: x'
  | S i', b :: x' => b :: put i' a x'
  end.
(** 188: X_dim[:, i] = X_[:, i] for one row. *)
Definition put_from (i : nat) (x x_ : point) : point := match nth_error x_ i with Some a => put i a x | None => x end.
(** 187-198: one column for all rows. *)
Definition column (nu : R) (X_ : list point) (u : list R) (i : nat) (s : list point * list R) : option (list point * list R) :=
  let (X, lp) := s in
  let X_dim := zip (put_from i) X X_ in
  match all_some (map (log_posterior nu) X_dim) with
  | None => None
  | Some lp_ =>
      let mask := zip (fun v p => if Rle_dec v p then true else false) u (probabilities lp_ lp) in
      let pick {A} (a b : list A) := zip (fun m ab => if m : bool then snd ab else fst ab) mask (combine a b) in
      Some (pick X X_dim, pick lp lp_)
  end.

(** The random numbers for one row and column. *)
Record draw := Draw { change : R; level : nat; step : Z; accept : R }.
(** The proposal for one component (118-152). *)
Variable proposal : nat -> draw -> V -> V.
Definition propose (ds : list draw) (x : point) : point := zip (fun di a => proposal (fst di) (snd di) a) (combine (seq 0 (length ds)) ds) x.
(** 186-198: the columns from i on; [W]: the random numbers of each row. *)
Fixpoint columns (nu : R) (X_ : list point) (W : list (list draw)) (is : list nat) (s : list point * list R) : option (list point * list R) :=
  match is with
  | [] => Some s
  | i :: is' =>
      match column nu X_ (map (fun ds => match nth_error ds i with Some d => accept d | None => 0 end) W) i s with
      | None => None
      | Some s' => columns nu X_ W is' s'
      end
  end.
(** 184-198: all steps. *)
Fixpoint steps (nu : R) (dim : nat) (Ws : list (list (list draw))) (s : list point * list R) : option (list point * list R) :=
  match Ws with
  | [] => Some s
  | W :: Ws' =>
      match columns nu (zip propose W (fst s)) W (seq 0 dim) s with
      | None => None
      | Some s' => steps nu dim Ws' s'
      end
  end.
(** 164-199  _metropolis_hastings: [Ws] has one entry for each of the mh_steps steps. *)
Definition metropolis_hastings (nu : R) (dim : nat) (Ws : list (list (list draw))) (X : list point) : option (list point) :=
  match all_some (map (log_posterior nu) X) with
  | None => None
  | Some lp => option_map fst (steps nu dim Ws (X, lp))
  end.
End Posterior.

(** 146-152: a categorical component; N_d categorical variables.  Simplification: a position is drawn for every row, and not used
    by the rows that keep their value. *)
Definition change_probability (t N_d : nat) : R := Rmax (/ 2 * exp (-1 * INR t)) (1 / INR N_d).
(** 146-152. *)
Definition propose_discrete {V} (t N_d : nat) (levels : nat -> list V) (i : nat) (d : draw) (v : V) : V :=
  if Rlt_dec (change d) (change_probability t N_d) then nth (level d) (levels i) v else v.
(** 137-144: an integer component; [step]: the difference of the two geometric numbers. *)
Definition propose_integer (lb ub : Z) (d : draw) (v : Z) : Z := Z.min (Z.max (v + step d) lb) ub.
(** 76-78: the values of nu. *)
Definition nu_schedule (tol : R) (k : nat) : R := Rpower 10 (ln 10 / ln 10 + INR k * ((ln (tol / 8) / ln 10 - ln 10 / ln 10) / INR 19)).
