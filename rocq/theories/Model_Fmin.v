(** fmin: bayes_optim/__init__.py 63-203, on top of the models of the optimizer (Model_Opt) and of its proposals (Model_Ask).
    Keyword arguments for the optimizer are not modelled: it minimizes, without target and constraints. *)
From Coq Require Import List Bool Arith ZArith QArith String.
From Verif Require Import Model_Opt Model_Var Model_Ask Model_Conditional.
Import ListNotations.
Open Scope nat_scope.

(** lower and upper: a float, a list of numbers, or anything else (an int, a tuple, an array). *)
Inductive bound := BFloat (q : Q) | BList (l : list Q) | BOther.
(** x0: an int (simplification: not negative), something with [__iter__] whose elements are points, or anything else (None, a
    numpy integer). *)
Inductive start := XInt (n : nat) | XIter (X : list point) | XOther.

(** variable.py 192: bounds[0] < bounds[1] *)
Definition proper_bounds (b : Q * Q) : bool := negb (Qle_bool (snd b) (fst b)).
(** search_space.py 137-162 and 727-740: RealSpace(bounds) for a list of pairs: names real0, real1, ... or real. *)
Definition real_space (bs : list (Q * Q)) : res (list var) :=
  if forallb proper_bounds bs
  then Ok (map (fun p => mkVar (if List.length bs =? 1 then "real"%string else ("real" ++ str_nat (fst p))%string) (KReal (fst (snd p)) (snd (snd p)) None))
             (combine (seq 0 (List.length bs)) bs))
  else Err EAssert.
(** __init__.py 139-145: the search space; in all other cases the name is not bound in line 145.  An empty list fails in
    [bounds[0]]. *)
Definition fmin_space (lower upper : bound) : res (list var) :=
  match lower, upper with
  | BFloat l, BFloat u => real_space [(l, u)]
  | BList ls, BList us =>
      if List.length ls =? List.length us
      then match combine ls us with [] => Err EIndex | bs => real_space bs end
      else Err EAssert
  | _, _ => Err EUnbound
  end.

(** 163-173 and base.py 139-149: DoE_size; 0 counts as not given. *)
Definition fmin_doe (dim : nat) (x0 : start) : nat :=
  match x0 with XInt (S n) => S n | _ => dim * 5 end.

Section Fmin.
  (** The objective function with its extra arguments ([args], 137): a value or an exception. *)
  Variable func : point -> res fval.
  (** In the k-th iteration: the samples and the results of the acquisition optimization (Model_Ask), and the answers of the
      surrogate; [warm_fit] is the answer of the surrogate for the warm data. *)
  Variable samp : nat -> nat -> nat -> list point.
  Variable inner : nat -> nat -> point.
  Variable fitk : nat -> bool * option exn.
  Variable warm_fit : bool * option exn.

  (** _base.py 120 (and __init__.py 169): func on each point in turn, and the points on which it is called. *)
  Fixpoint eval_all (X : list point) : res (list fval) :=
    match X with
    | [] => Ok []
    | x :: X' => match func x with
                 | Err e => Err e
                 | Ok v => match eval_all X' with Err e => Err e | Ok vs => Ok (v :: vs) end
                 end
    end.
  (** The points on which func is called before it raises, _base.py 120. *)
  Fixpoint called (X : list point) : list point :=
    match X with
    | [] => []
    | x :: X' => x :: match func x with Ok _ => called X' | Err _ => [] end
    end.

  Section Run.
    Variable vs : list var.
    Variable n_point doe : nat.
    Variable c : cfg.

    (** The points of self.data. *)
    Definition rows_of (s : st point) : list point := match data s with Some d => map rx d | None => [] end.
    (** base.py 252-256: ask() without arguments; BO implements no batches (bayes_opt.py), ParallelBO does. *)
    Definition fmin_propose (k : nat) (s : st point) : res (list point) :=
      ask vs (samp k) (inner k) (negb (n_point =? 1)) (fitted s) (rows_of s) n_point doe None None.
    (** _base.py 111-121 for the k-th batch: the outcome does not depend on k. *)
    Definition fmin_evaluate (k : nat) (X : list point) : res (list fval) := eval_all X.

    (** The points on which run (189) calls the objective function, in order; the control flow is that of [run]. *)
    Fixpoint run_calls (fuel k : nat) (s : st point) : list point :=
      match check_stop c s with
      | Ok (false, s') =>
          match fuel with
          | 0 => []
          | S fuel' =>
              match fmin_propose k s' with
              | Err _ => []
              | Ok X => called X ++ match step fmin_propose fmin_evaluate fitk c k s' with
                                    | (None, s2) => run_calls fuel' (S k) s2
                                    | _ => []
                                    end
              end
          end
      | _ => []
      end.
  End Run.

  (** 203: the tuple that is returned. *)
  Record fmin_result := Result { r_x : point; r_f : fval; r_iterations : nat; r_evaluations : nat; r_history : list (list point) }.
  (** No counterpart in the code: how a call of fmin ends. *)
  Inductive fmin_outcome := FReturned (r : fmin_result) | FRaised (e : exn) | FRunning.

  (** base.py 171 and solution.py 121: one value per variable, each a float. *)
  Definition row_ok (dim : nat) (x : point) : bool :=
    (List.length x =? dim) && forallb (fun v => match v with VR _ => true | _ => false end) x.

  (** 63-203  fmin: the outcome and the calls of the objective function.  [fuel] bounds the number of iterations; FRunning: it is
      used up.  A ParallelBO with [n_point] = 0 fails its assertion after the warm data was told (bayes_opt.py 78). *)
  Definition fmin (fuel : nat) (lower upper : bound) (x0 : start) (y0 : option (list fval)) (n_point : nat) (max_FEs : option nat)
    : fmin_outcome * list point :=
    match fmin_space lower upper with
    | Err e => (FRaised e, [])
    | Ok vs =>
        let dim := List.length vs in
        let c := mkCfg true (cfg_max_FEs max_FEs) None EList in
        let doe := fmin_doe dim x0 in
        let optimize (w : option (list point * list fval)) (calls : list point) :=
          match set_warm c init w (match w with Some (X, _) => forallb (row_ok dim) X | None => true end) warm_fit with
          | (Some e, _) => (FRaised e, calls)
          | (None, s) =>
              if n_point =? 0 then (FRaised EAssert, calls)
              else
                let calls' := calls ++ run_calls vs n_point doe c fuel 0 s in
                match run (fmin_propose vs n_point doe) fmin_evaluate fitk c fuel 0 s with
                | Raised e _ => (FRaised e, calls')
                | OutOfFuel => (FRunning, calls')
                | Returned s' r =>
                    (FReturned (Result (rx r) (rf r) (iters s') (evals s') (data_per_iteration doe n_point (iters s') (rows_of s'))), calls')
                end
          end in
        match x0 with
        | XIter X =>
            match y0 with
            | Some y => optimize (Some (X, y)) []
            | None => match eval_all X with
                      | Err e => (FRaised e, called X)
                      | Ok y => optimize (Some (X, y)) (called X)
                      end
            end
        | _ => optimize None []
        end
    end.
End Fmin.
