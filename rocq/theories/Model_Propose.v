(** The optimization of the acquisition function as one program: the choice of the optimizer (base.py _set_internal_optimization),
    the restarts (acquisition/optim/__init__.py argmax_restart) and, inside them, the evolution strategy of Model_MiesPar; the
    result is what ask of Model_Ask takes as its proposals. *)
From Coq Require Import Bool Arith ZArith QArith String List.
From Verif Require Import Model_Opt Model_Var Model_Pareto Model_Box Model_Ask Model_Sol Model_MIES Model_MiesPar.
Import ListNotations.
Open Scope nat_scope.

(** ** base.py 192-215: which optimizer *)
(** [given]: kwargs["optimizer"]; [real]: the search space is a RealSpace; [gradient]: the model has one; [constrained]: h or g. *)
Definition chosen (given : option string) (real gradient : bool) (n_obj : nat) (constrained : bool) : string :=
  let o := match given with
           | Some o => o
           | None => if real then (if gradient && (n_obj =? 1)%nat then "BFGS"%string else "OnePlusOne_Cholesky_CMA"%string) else "MIES"%string
           end in
  if String.eqb o "BFGS" && constrained then "OnePlusOne_Cholesky_CMA"%string else o.
(** What can be raised on the way. *)
Inductive raised := KeyError | AssertionError | UnboundLocalError.
(** base.py 217-220, option.py: the evaluations of the acquisition function; a name without a default is a KeyError. *)
Definition acquisition_budget (o : string) (max_FEs : option Z) (dim : nat) : raised + Z :=
  match max_FEs with
  | Some m => inr m
  | None => if String.eqb o "MIES" || String.eqb o "OnePlusOne_Cholesky_CMA" then inr (1000 * Z.of_nat dim)%Z
            else if String.eqb o "BFGS" then inr (100 * Z.of_nat dim)%Z else inl KeyError
  end.
(** acquisition/optim/__init__.py 70-122: the program one restart runs, and base.py 464: whether the function to optimize also returns its
    gradient.  The constructor of OnePlusOne_Cholesky_CMA asserts a RealSpace (one_plus_one_cma_es.py 99); with an unknown name
    xopt_ is not bound. *)
Inductive engine := LBFGSB | CholeskyCMA | EvolutionStrategy.
(** acquisition/optim/__init__.py 70-122. *)
Definition restart_engine (o : string) (real : bool) : raised + (engine * bool) :=
  let returns_gradient := String.eqb o "BFGS" in
  let o := if negb real && String.eqb o "BFGS" then "MIES"%string else o in
  if String.eqb o "BFGS" then inr (LBFGSB, returns_gradient)
  else if String.eqb o "OnePlusOne_Cholesky_CMA" then (if real then inr (CholeskyCMA, returns_gradient) else inl AssertionError)
  else if String.eqb o "MIES" then inr (EvolutionStrategy, returns_gradient) else inl UnboundLocalError.
(** The constructor and the first restart of ask together. *)
Definition acquisition_setup (given : option string) (max_FEs : option Z) (real gradient : bool) (n_obj : nat) (constrained : bool) (dim : nat)
  : raised + (Z * (engine * bool)) :=
  let o := chosen given real gradient n_obj constrained in
  match acquisition_budget o max_FEs dim with
  | inl e => inl e
  | inr b => match restart_engine o real with inl e => inl e | inr r => inr (b, r) end
  end.

(** ** The restarts with the evolution strategy *)
Section Propose.
  Variable vs : list var.
  Variables h g : option (point -> list Q).
  Variable argsort : list Q -> list nat.
  Variables wait_iter n_restart : nat.
  (** For the j-th criterion of a batch and the i-th restart: the (penalised) acquisition function, the initial sample (mies.py
      126) and the random numbers. *)
  Variable fit : nat -> nat -> nat -> nat -> point -> Q.
  Variable start : nat -> nat -> list point.
  Variable rnd : nat -> nat -> nat -> nat -> noise.

  (** acquisition/optim/__init__.py 112-122 with the default population sizes (mies.py 28-29): a restart with b evaluations left.  Simplification: the space
      has a variable (mies.py raises on the empty space). *)
  Definition mies_cfg (b : Z) : mcfg := mkM vs 4 10 false false (Some (Z.to_nat b)).
  (** acquisition/optim/__init__.py 112-122. *)
  Definition mies_run (j i : nat) (b : Z) : option outcome_par :=
    option_map (optimize_par (mies_cfg b) (fit j i) argsort (rnd j i) (S (Z.to_nat b)) 0) (construct (mies_cfg b) (fit j i) None None None (start j i)).
  (** The last two cases stand for a run that raises or does not end; C201 shows that there is none. *)
  Definition mies_restart (j i : nat) (b : Z) : Model_Box.outcome point :=
    match mies_run j i b with Some (Done_par r) => mkOut (p_xopt r) (p_fopt r) (p_evals r) | _ => mkOut [] 0 0 end.
  (** base.py 466-474 and bayes_opt.py 100-115: one result for each criterion; [] if no restart is feasible. *)
  Definition proposal (budget : Z) (j : nat) : point :=
    match fst (argmax_restart h g (mies_restart j) argsort wait_iter budget n_restart) with Some (x, _) => x | None => [] end.
  (** base.py 259-307 *)
  Definition ask_mies (budget : Z) (samp : nat -> nat -> list point) (batch fitted : bool) (data : list point) (n_default doe_size : nat)
    (n_point : option nat) : res (list point) := ask vs samp (proposal budget) batch fitted data n_default doe_size n_point None.
End Propose.
