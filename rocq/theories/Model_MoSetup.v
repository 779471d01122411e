(** Constructing the multi-objective optimizers (bayes_optim/mobo.py:20-49), their warm data
    (bayes_optim/base.py:155-175), and choosing the acquisition function by name
    (bayes_optim/base.py:122-133, 482-496, bayes_optim/bayes_opt.py:18-26, bayes_optim/mobo.py:189-235). *)
From Coq Require Import Bool Arith ZArith QArith String List.
From Verif Require Import Model_Var Model_Opt Model_Sol.
Import ListNotations.
Open Scope nat_scope.

Inductive mexn :=
| MAssert                 (* AssertionError *)
| MValue                  (* ValueError *)
| MType                   (* TypeError *)
| MAttribute              (* AttributeError *)
| MNotImplemented         (* NotImplementedError *)
| MOther (e : serr).      (* raised while the solution set is built *)
Inductive mres (A : Type) := MOk (a : A) | MErr (e : mexn).
Arguments MOk {A} a.
Arguments MErr {A} e.

(** The argument obj_fun: None, something that cannot be iterated, or a sequence; of each element
    only whether it can be called matters. *)
Inductive fun_arg := FunNone | FunSingle | FunSeq (l : list bool).
(** The argument minimize: a bool, something else that cannot be iterated (an integer, a numpy
    bool, None), or a sequence. *)
Inductive min_arg := MinBool (b : bool) | MinOther | MinSeq (l : list bool).

(** mobo.py:37-49  _check_obj_fun: the number of objectives. *)
Definition check_obj_fun (n_obj : nat) (f : fun_arg) : mres nat :=
  match f with
  | FunNone => MOk n_obj                                                   (* 40-41 *)
  | FunSingle => MErr MAssert                                              (* 42 *)
  | FunSeq l =>
    if forallb (fun c => c) l                                              (* 43 *)
    then let n := List.length l in if 1 <? n then MOk n else MErr MAssert  (* 44-49 *)
    else MErr MAssert
  end.

(** mobo.py:29-35  _check_minimize: the directions as an array; None: an array without
    dimensions (np.asarray of a single object). *)
Definition check_minimize (n_obj : nat) (m : min_arg) : mres (option (list bool)) :=
  match m with
  | MinBool b => MOk (Some (repeat b n_obj))                               (* 31-32 *)
  | MinSeq l => if List.length l =? n_obj then MOk (Some l) else MErr MAssert   (* 33-34 *)
  | MinOther => MOk None
  end.

(** base.py:155-170 within the constructor of the parent class (mobo.py:25), where n_obj is
    still 1 (_base.py:18, 33): the points become a solution set with one objective, the values are
    assigned to its fitness.  Simplification: X is a list of points, the eval_type is "list"; what follows
    (171-175) is reached only if the assignment succeeds and is not modelled: [MOk]. *)
Definition warm_data (names : list string) (w : option (list (list val) * list (list (option Q)))) : mres unit :=
  match w with
  | None => MOk tt                                                         (* 158-159 *)
  | Some (X, y) =>
    if List.length X =? List.length y then                                 (* 162 *)
      match new (mkHeap [] [] [] []) (XRows X) (FScalar None) (NScalar 1) INone (Some names) None 1 with   (* 167 *)
      | SErr e => MErr (MOther e)
      | SOk (s, h) =>
        match set_fitness h s (WMat y) with                                (* 169 *)
        | SErr SValue => MErr MValue
        | SErr e => MErr (MOther e)
        | SOk _ => MOk tt
        end
      end
    else MErr MAssert
  end.

(** mobo.py:23-27: the constructor; the number of objectives and the directions.  [f], [m]: the
    arguments obj_fun and minimize. *)
Definition construct (names : list string) (n_obj : nat) (f : fun_arg) (m : min_arg)
  (w : option (list (list val) * list (list (option Q)))) : mres (nat * option (list bool)) :=
  match warm_data names w with
  | MErr e => MErr e
  | MOk _ =>
    match check_obj_fun n_obj f with
    | MErr e => MErr e
    | MOk n => match check_minimize n m with MErr e => MErr e | MOk d => MOk (n, d) end
    end
  end.

(** ** The acquisition function *)

(** The argument acquisition_fun: a name, something that can be called, or anything else. *)
Inductive acq_arg := AName (s : string) | ACallable | AObject.

(** base.py:127-133: the setter. *)
Definition set_acquisition (a : acq_arg) : mres acq_arg :=
  match a with
  | AName s => MOk (AName s)
  | ACallable => MOk ACallable                                             (* 132-133 *)
  | AObject => MErr MAssert                                                (* 132 *)
  end.

(** The acquisition functions defined in acquisition_fun.py: (107, 150, 192, 231, 238).  The other names in
    that module (base classes and imports) are left out: they are not acquisition functions. *)
Definition known : list string := ["UCB"; "EI"; "EpsilonPI"; "PI"; "MGFI"]%string.

(** getattr(AcquisitionFunction, fun) (bayes_opt.py:21, base.py:489) *)
Definition lookup_fun (a : acq_arg) : mres string :=
  match a with
  | AName s => if existsb (String.eqb s) known then MOk s else MErr MAttribute
  | _ => MErr MType                                                        (* getattr: name must be a string *)
  end.

(** The classes that propose points. *)
Inductive optimizer := CBO | CMOBO | CqEHVI.

(** The acquisition function stored by the constructor: mobo.py:171-175, 192-198. *)
Definition stored (c : optimizer) (a : acq_arg) : mres acq_arg :=
  match set_acquisition a with
  | MErr e => MErr e
  | MOk a => match c with CBO => MOk a | CMOBO => MOk (AName "EHVI") | CqEHVI => MOk (AName "qEHVI") end
  end.

(** base.py:449-480 up to the acquisition function that is handed to the optimizer: which one is
    built.  One point: _create_acquisition of the class.  Several: BO and MOBO do not implement
    _batch_arg_max_acquisition (base.py:496-497), MOBO_qEHVI calls _create_acquisition of BO
    (mobo.py:231). *)
Definition criterion (c : optimizer) (a : acq_arg) (n_point : nat) : mres string :=
  if 1 <? n_point then
    match c with
    | CqEHVI => lookup_fun a
    | _ => MErr MNotImplemented
    end
  else
    match c with
    | CMOBO => MOk "EHVI"%string                                           (* mobo.py:177-186 *)
    | _ => lookup_fun a
    end.

(** base.py:257-296  the first ask proposes a design, later ones (the model is fitted) need the
    acquisition function.  [None]: no acquisition function is used. *)
Definition ask_criterion (c : optimizer) (a : acq_arg) (fitted : bool) (n_point : nat) : mres (option string) :=
  if fitted then match criterion c a n_point with MErr e => MErr e | MOk s => MOk (Some s) end
  else MOk None.
