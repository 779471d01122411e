(** A whole run of BO or ParallelBO on a search space with real, integer and categorical variables and with constraints: the loop
    of _base.py 133-136 with step of base.py 252-256, in which ask, the sampler and the evolution strategy are those of Model_Ask,
    Model_Sampler and Model_Propose.  The random numbers, the surrogate and the objective function are arbitrary. *)
From Coq Require Import Bool Arith ZArith QArith String List.
From Verif Require Import Model_Opt Model_Var Model_Ask Model_Sampler Model_MiesPar Model_Propose.
Import ListNotations.
Open Scope nat_scope.

(** The arguments of the constructor (base.py 41-130).  Simplification: the constraints do not raise, the acquisition function is
    optimized with MIES, points are lists. *)
Record problem := Problem {
  p_space : list var;
  p_h : option (point -> list Q);
  p_g : option (point -> list Q);
  p_minimize : bool;
  p_max_FEs : option nat;
  p_ftarget : option fval;
  p_batch : bool;          (* the class proposes batches (ParallelBO) *)
  p_n_point : nat;
  p_DoE_size : nat;
  p_AQ_max_FEs : Z;
  p_AQ_n_restart : nat;
  p_AQ_wait_iter : nat }.

(** What the random number generators and the libraries answer in the k-th iteration. *)
Record world := World {
  w_str : val -> string;                                            (* numpy's conversion to a string *)
  w_argsort : list Q -> list nat;
  w_init : nat -> nat -> nat -> list point;                         (* iteration, pass, size: the unconstrained sample *)
  w_draw : nat -> nat -> nat -> nat -> nat -> nat -> Model_Sampler.noise;
  w_accepted : nat -> nat -> nat -> nat -> nat -> nat -> bool;
  w_choose : nat -> nat -> nat -> nat -> list nat;
  w_acquisition : nat -> nat -> nat -> nat -> nat -> point -> Q;    (* iteration, criterion, restart, generation, individual *)
  w_start : nat -> nat -> nat -> list point;
  w_rnd : nat -> nat -> nat -> nat -> nat -> Model_MiesPar.noise;
  w_model : nat -> bool * option exn;                               (* Model_Opt.update_model *)
  w_warm_model : bool * option exn }.

Section Run.
  Variable P : problem.
  Variable W : world.
  (** The objective function: the i-th evaluation of the k-th iteration; it may be noisy and it may raise. *)
  Variable func : nat -> nat -> point -> res fval.

  (** base.py 378-387: the samples of create_DoE in its [pass]-th attempt (the tolerance is the default of sample).  The last case
      stands for an exception; Proofs_Run shows that there is none. *)
  Definition total (f : point -> list Q) (x : point) : option (list Q) := Some (f x).
  (** base.py 383-386: the call of sample. *)
  Definition run_sample (k pass n : nat) : option (list point) :=
    sample (w_str W) (map vkind (p_space P)) (w_draw W k pass) (w_accepted W k pass) (option_map total (p_h P)) (option_map total (p_g P))
      (1 # 100) (w_init W k pass) (w_choose W k pass) n.
  (** base.py 378-387: the same, with the empty list for the case that does not occur. *)
  Definition run_samp (k pass n : nat) : list point := match run_sample k pass n with Some X => X | None => [] end.

  (** base.py 378-387: the points of self.data, with which the samples are compared. *)
  Definition known (s : st point) : list point := match data s with Some d => map rx d | None => [] end.
  (** base.py 254: ask() *)
  Definition run_propose (k : nat) (s : st point) : res (list point) :=
    ask_mies (p_space P) (p_h P) (p_g P) (w_argsort W) (p_AQ_wait_iter P) (p_AQ_n_restart P) (w_acquisition W k) (w_start W k) (w_rnd W k)
      (p_AQ_max_FEs P) (run_samp k) (p_batch P) (fitted s) (known s) (p_n_point P) (p_DoE_size P) None.

  (** _base.py 120: the evaluations of one iteration, up to the first exception. *)
  Fixpoint evaluations (k i : nat) (X : list point) : list (point * res fval) :=
    match X with
    | [] => []
    | x :: X' => (x, func k i x) :: match func k i x with Ok _ => evaluations k (S i) X' | Err _ => [] end
    end.
  (** _base.py 120: the list of values, or the first exception. *)
  Fixpoint values (l : list (point * res fval)) : res (list fval) :=
    match l with
    | [] => Ok []
    | (_, Err e) :: _ => Err e
    | (_, Ok v) :: l' => match values l' with Err e => Err e | Ok vs => Ok (v :: vs) end
    end.
  (** _base.py 111-121 evaluate with eval_type list and one job. *)
  Definition run_evaluate (k : nat) (X : list point) : res (list fval) := values (evaluations k 0 X).

  (** _base.py 15-60: the settings of the run that the loop reads. *)
  Definition run_cfg : cfg := mkCfg (p_minimize P) (p_max_FEs P) (p_ftarget P) EList.

  (** The calls of the objective function in each iteration of run; the control flow is that of Model_Opt.run. *)
  Fixpoint run_log (fuel k : nat) (s : st point) : list (list (point * res fval)) :=
    match check_stop run_cfg s with
    | Ok (false, s') =>
        match fuel with
        | 0 => []
        | S fuel' =>
            match run_propose k s' with
            | Err _ => []
            | Ok X => evaluations k 0 X :: match step run_propose run_evaluate (w_model W) run_cfg k s' with
                                           | (None, s2) => run_log fuel' (S k) s2
                                           | _ => []
                                           end
            end
        end
    | _ => []
    end.

  (** The constructor with its warm data (base.py 157-175; all of its values are of the types of the variables) and run.  [fuel]
      bounds the number of iterations. *)
  Definition bo_run (fuel : nat) (warm : option (list point * list fval)) : outcome point * list (list (point * res fval)) :=
    match set_warm run_cfg init warm true (w_warm_model W) with
    | (Some e, s) => (Raised e s, [])
    | (None, s) => (run run_propose run_evaluate (w_model W) run_cfg fuel 0 s, run_log fuel 0 s)
    end.
End Run.
