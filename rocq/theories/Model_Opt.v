(** Model of the ask/tell/run state machine of the single-objective optimizers:
    bayes_optim/_base.py (BaseOptimizer) and bayes_optim/base.py (BaseBO). *)
From Coq Require Import List Bool Arith ZArith QArith String.
From Coq Require Import DecimalString DecimalNat.
Import ListNotations.
Open Scope nat_scope.

(** An objective value as numpy sees it: a finite float, NaN, or an infinity.
    Simplification: finite floats are exact rationals (no rounding). *)
Inductive fval := FNum (q : Q) | FNan | FInf (pos : bool).

(** base.py:414  np.isnan(X.fitness) | np.isinf(X.fitness), negated. *)
Definition is_finite (f : fval) : bool :=
  match f with FNum _ => true | _ => false end.

(** IEEE comparison [a < b] (NaN compares false). *)
Definition fltb (a b : fval) : bool :=
  match a, b with
  | FNum x, FNum y => negb (Qle_bool y x)
  | FNum _, FInf true => true
  | FInf false, FNum _ => true
  | FInf false, FInf true => true
  | _, _ => false
  end.

(** IEEE equality (NaN is different from itself). *)
Definition feqb (a b : fval) : bool :=
  match a, b with
  | FNum x, FNum y => Qeq_bool x y
  | FInf p, FInf q => Bool.eqb p q
  | _, _ => false
  end.

(** np.isnan. *)
Definition is_nan (f : fval) : bool := match f with FNan => true | _ => false end.

(** numpy's reduction step for np.min / np.max: NaN is absorbing. *)
Definition fbest2 (minimize : bool) (a b : fval) : fval :=
  if is_nan a then a
  else if is_nan b then b
  else if (if minimize then fltb b a else fltb a b) then b else a.

(** _base.py:174-175  _get_best: np.min / np.max; [None] stands for the ValueError on
    an empty array. *)
Definition get_best (minimize : bool) (l : list fval) : option fval :=
  match l with
  | [] => None
  | a :: t => Some (fold_left (fbest2 minimize) t a)
  end.

(** _base.py:177-179  _compare, with the operands exactly as in the source. *)
Definition compare_ (minimize : bool) (f1 f2 : fval) : bool :=
  if minimize then fltb f1 f2 else fltb f1 f2 (* f2 > f1 *).

(** The exceptions that can leave the modelled functions. *)
Inductive exn :=
| EIndex            (* IndexError: empty X, or fewer values than points *)
| EAssert           (* AssertionError, e.g. wrong number of labels *)
| EFlat             (* FlatFitnessError *)
| EValue            (* ValueError: np.min of an empty array *)
| EModel            (* anything raised while fitting or using the surrogate model *)
| EAskEmpty         (* AskEmptyError *)
| ENotImplemented   (* NotImplementedError *)
| EUnbound          (* UnboundLocalError *)
| EAttribute        (* AttributeError on None *)
| ERecommend        (* RecommendationUnavailableError *)
| EUser.            (* raised by the objective function *)

Inductive res (A : Type) := Ok (a : A) | Err (e : exn).
Arguments Ok {A} a.
Arguments Err {A} e.

(** base.py:178-190  the two evaluation modes. *)
Inductive mode := EList | EDict.

(** str(n) for a natural number (solution.py:110). *)
Definition str_nat (n : nat) : string := NilEmpty.string_of_uint (Nat.to_uint n).

Section Opt.
  (** A point of the search space; nothing in this file looks inside it. *)
  Variable xv : Type.

  (** One row of a [Solution] (solution.py:133-135): values, fitness, n_eval, label. *)
  Record row := mkRow { rx : xv; rf : fval; rn : nat; rl : string }.

  (** The observable state of an optimizer (_base.py:47-51; [data] is absent until the first
      tell; [fitted] is model.is_fitted).  [stop_max]/[stop_tgt] are the two possible
      keys of stop_dict. *)
  Record st := mkSt {
    data : option (list row);
    evals : nat;
    iters : nat;
    hist : list fval;
    stop_max : option nat;
    stop_tgt : option fval;
    fitted : bool }.

  (** Constructor parameters (_base.py:42-45, base.py:117): [max_fes] is [None] for np.inf.
      [cfg_max_FEs] below is the [int(max_FEs) if max_FEs else inf] of line 45. *)
  Record cfg := mkCfg {
    minimize : bool;
    max_fes : option nat;
    ftarget : option fval;
    emode : mode }.

  (** _base.py:45. *)
  Definition cfg_max_FEs (arg : option nat) : option nat :=
    match arg with Some 0 => None | a => a end.

  (** _base.py:48-51: a freshly constructed optimizer. *)
  Definition init : st := mkSt None 0 0 [] None None false.

  (** _base.py:138-144  xopt: [Ok None] when there is no [data] attribute. *)
  Definition xopt (c : cfg) (s : st) : res (option row) :=
    match data s with
    | None => Ok None
    | Some d =>
      match get_best (minimize c) (map rf d) with
      | None => Err EValue
      | Some f =>
        match find (fun r => feqb (rf r) f) d with
        | None => Err EIndex
        | Some r => Ok (Some r)
        end
      end
    end.

  (** _base.py:101-104  recommend (a row selected from data is never of length 0: the
      search space has at least one variable). *)
  Definition recommend (c : cfg) (s : st) : res row :=
    match xopt c s with
    | Err e => Err e
    | Ok None => Err ERecommend
    | Ok (Some r) => Ok r
    end.

  (** base.py:177-190 with solution.py:103-113: conversion of the told points to a Solution.
      In list mode n_eval starts at 1, in dict mode (Solution.from_dict) at 0; the default
      labels are "0", "1", ...; an empty X raises IndexError (x[0]); a wrong number of labels
      fails the assertion.  The fitness is NaN until it is assigned.
      Simplification: the points themselves are taken as already converted. *)
  Definition to_geno (m : mode) (X : list xv) (index : option (list string)) : res (list row) :=
    match X with
    | [] => Err EIndex
    | _ =>
      let labels := match index with
                    | None => map str_nat (seq 0 (List.length X))
                    | Some l => l
                    end in
      if List.length labels =? List.length X
      then Ok (map (fun p => mkRow (fst p) FNan (match m with EList => 1 | EDict => 0 end) (snd p))
                   (combine X labels))
      else Err EAssert
    end.

  (** base.py:331-337  the loop over the told points: assigns the fitness, increments n_eval.
      Returns the rows, or [None] when func_vals runs out (IndexError). *)
  Fixpoint assign (X : list row) (fv : list fval) : option (list row) :=
    match X, fv with
    | [], _ => Some []
    | _ :: _, [] => None
    | r :: X', v :: fv' =>
      match assign X' fv' with
      | None => None
      | Some t => Some (mkRow (rx r) v (S (rn r)) (rl r) :: t)
      end
    end.

  (** base.py:413-421  post_eval_check. *)
  Definition post_eval_check (X : list row) : list row := filter (fun r => is_finite (rf r)) X.

  (** np.sum. *)
  Definition qsum (l : list Q) : Q := fold_right Qplus 0%Q l.
  (** np.mean. *)
  Definition qmean (l : list Q) : Q := (qsum l / inject_Z (Z.of_nat (List.length l)))%Q.
  (** np.var, the square of np.std. *)
  Definition qvar (l : list Q) : Q := qmean (map (fun x => (x - qmean l) * (x - qmean l))%Q l).
  (** No counterpart in the code: the number of a finite value. *)
  Definition fnum (f : fval) : Q := match f with FNum q => q | _ => 0%Q end.

  (** base.py:433-435  len(fitness) > 5 and np.isclose(std, 0): std <= 1e-8, that is
      variance <= 1e-16.  (All rows of [data] have finite fitness.) *)
  Definition flat (d : list row) : bool :=
    (5 <? List.length d) &&
    Qle_bool (qvar (map (fun r => fnum (rf r)) d)) (1 # 10000000000000000).

  (** base.py:423-446  update_model.  [fit] is the oracle for model.fit/predict/r2_score: whether
      the model is marked fitted afterwards and the exception raised, if any. *)
  Definition update_model (d : list row) (was : bool) (fit : bool * option exn) : bool * option exn :=
    if flat d then (was, Some EFlat)
    else match d with
         | [] => (was, Some EValue)
         | _ => fit
         end.

  (** self.data = ... *)
  Definition set_data (s : st) (d : list row) : st :=
    mkSt (Some d) (evals s) (iters s) (hist s) (stop_max s) (stop_tgt s) (fitted s).
  (** self.eval_count += n. *)
  Definition add_evals (s : st) (n : nat) : st :=
    mkSt (data s) (evals s + n) (iters s) (hist s) (stop_max s) (stop_tgt s) (fitted s).
  (** self.model.is_fitted. *)
  Definition set_fitted (s : st) (b : bool) : st :=
    mkSt (data s) (evals s) (iters s) (hist s) (stop_max s) (stop_tgt s) b.
  (** self.hist_f.append(...) and self.iter_count += 1. *)
  Definition push_hist (s : st) (f : fval) : st :=
    mkSt (data s) (evals s) (S (iters s)) (hist s ++ [f]) (stop_max s) (stop_tgt s) (fitted s).

  (** One call of tell with its arguments and the answer of the model-fitting oracle. *)
  Record call := mkCall {
    c_X : list xv; c_f : list fval; c_idx : option (list string); c_warm : bool;
    c_fit : bool * option exn }.

  (** base.py:309-360  tell: the outcome ([None] = returned normally) and the state afterwards.
      The order of the effects is that of the source: eval_count during the loop (331-335), data
      (340), model (341), then iter_count and hist_f (358-360).
      Not modelled: the data file (343-344), logging, the penalty printout (349-351) and
      _fBest_DoE (354-356). *)
  Definition tell (c : cfg) (s : st) (k : call) : option exn * st :=
    match to_geno (emode c) (c_X k) (c_idx k) with
    | Err e => (Some e, s)
    | Ok X =>
      match assign X (c_f k) with
      | None => (Some EIndex, if c_warm k then s else add_evals s (List.length (c_f k)))
      | Some X1 =>
        let s1 := if c_warm k then s else add_evals s (List.length X1) in
        let X2 := post_eval_check X1 in
        match data s1, X2 with
        | Some [], [] => (Some EIndex, s1)       (* solution.py:74  x[0] of [] + [] *)
        | _, _ =>
          let d := match data s1 with Some d0 => d0 ++ X2 | None => X2 end in
          let s2 := set_data s1 d in
          let (fi, er) := update_model d (fitted s2) (c_fit k) in
          let s3 := set_fitted s2 fi in
          match er with
          | Some e => (Some e, s3)
          | None =>
            match xopt c s3 with
            | Err e => (Some e, s3)
            | Ok None => (Some EAttribute, s3)
            | Ok (Some r) =>
              (None, if c_warm k then s3 else push_hist s3 (rf r))
            end
          end
        end
      end
    end.

  (** base.py:155-175  the warm_data setter, executed at the end of the constructor (121).
      [types_ok] is the outcome of the three type assertions (171-173).
      X given as a list; a Solution fails the assertion in line 165 for more than one variable
      (comparison of arrays) and is not modelled.
      In dict mode tell calls from_dict on a Solution object (line 329): UnboundLocalError. *)
  Definition set_warm (c : cfg) (s : st) (w : option (list xv * list fval)) (types_ok : bool)
             (fit : bool * option exn) : option exn * st :=
    if negb (iters s =? 0) then (Some EAssert, s)
    else match w with
    | None => (None, s)
    | Some (X, y) =>
      if negb (List.length X =? List.length y) then (Some EAssert, s)
      else match to_geno (emode c) X None with
           | Err e => (Some e, s)
           | Ok _ =>
             if negb types_ok then (Some EAssert, s)
             else match emode c with
                  | EDict => (Some EUnbound, s)
                  | EList => tell c s (mkCall X y None true fit)
                  end
           end
    end.

  (** _base.py:123-131  check_stop. *)
  Definition check_stop (c : cfg) (s : st) : res (bool * st) :=
    let sm := match max_fes c with
              | Some m => if m <=? evals s then Some (evals s) else stop_max s
              | None => stop_max s
              end in
    let ret (stt : option fval) :=
      let s' := mkSt (data s) (evals s) (iters s) (hist s) sm stt (fitted s) in
      Ok (match sm, stt with None, None => false | _, _ => true end, s') in
    match ftarget c with
    | None => ret (stop_tgt s)
    | Some t =>
      match xopt c s with
      | Err e => Err e
      | Ok None => ret (stop_tgt s)
      | Ok (Some r) => if compare_ (minimize c) (rf r) t then ret (Some (rf r)) else ret (stop_tgt s)
      end
    end.

  (** The environment of a run: [propose k s] is the k-th ask (base.py:254; Model_Ask.v models
      it), [evaluate k X] the k-th call of evaluate (255), [fitk k] the answer of the k-th model
      fit.  They may be arbitrary: that covers every random stream and objective. *)
  Variable propose : nat -> st -> res (list xv).
  Variable evaluate : nat -> list xv -> res (list fval).
  Variable fitk : nat -> bool * option exn.

  (** base.py:252-256  step: no labels are passed to tell. *)
  Definition step (c : cfg) (k : nat) (s : st) : option exn * st :=
    match propose k s with
    | Err e => (Some e, s)
    | Ok X =>
      match evaluate k X with
      | Err e => (Some e, s)
      | Ok fv => tell c s (mkCall X fv None false (fitk k))
      end
    end.

  (** How a run ends. *)
  Inductive outcome :=
  | Returned (s : st) (r : row)      (* _base.py:136 *)
  | Raised (e : exn) (s : st)
  | OutOfFuel.

  (** _base.py:133-136  run; [fuel] bounds the number of loop iterations and is shown to be
      irrelevant in the theorems; [k] numbers the iterations. *)
  Fixpoint run (c : cfg) (fuel k : nat) (s : st) : outcome :=
    match check_stop c s with
    | Err e => Raised e s
    | Ok (true, s') =>
      match xopt c s' with
      | Err e => Raised e s'
      | Ok None => Raised EAttribute s'
      | Ok (Some r) => Returned s' r
      end
    | Ok (false, s') =>
      match fuel with
      | 0 => OutOfFuel
      | S fuel' =>
        match step c k s' with
        | (Some e, s2) => Raised e s2
        | (None, s2) => run c fuel' (S k) s2
        end
      end
    end.

End Opt.

Arguments mkRow {xv}. Arguments rx {xv}. Arguments rf {xv}. Arguments rn {xv}. Arguments rl {xv}.
Arguments mkSt {xv}. Arguments data {xv}. Arguments evals {xv}. Arguments iters {xv}.
Arguments hist {xv}. Arguments stop_max {xv}. Arguments stop_tgt {xv}. Arguments fitted {xv}.
Arguments init {xv}. Arguments xopt {xv}. Arguments recommend {xv}. Arguments to_geno {xv}.
Arguments assign {xv}. Arguments post_eval_check {xv}. Arguments flat {xv}.
Arguments update_model {xv}. Arguments set_data {xv}. Arguments add_evals {xv}.
Arguments set_fitted {xv}. Arguments push_hist {xv}.
Arguments mkCall {xv}. Arguments c_X {xv}. Arguments c_f {xv}. Arguments c_idx {xv}.
Arguments c_warm {xv}. Arguments c_fit {xv}. Arguments tell {xv}. Arguments set_warm {xv}.
Arguments check_stop {xv}. Arguments step {xv}. Arguments run {xv}.
Arguments Returned {xv}. Arguments Raised {xv}. Arguments OutOfFuel {xv}.
