(** Proposing points: BaseBO.ask, create_DoE, arg_max_acquisition (bayes_optim/base.py),
    BO.pre_eval_check (bayes_optim/bayes_opt.py), fillin_fixed_value (bayes_optim/utils/utils.py). *)
From Coq Require Import List Bool Arith ZArith QArith Qabs String.
From Verif Require Import Model_Opt Model_Var.
Import ListNotations.
Open Scope nat_scope.

Notation point := (list val).

(** np.isclose(a, b) with the default tolerances: |a - b| <= 1e-8 + 1e-5 * |b|. *)
Definition isclose (a b : Q) : bool :=
  Qle_bool (Qabs (a - b)) ((1 # 100000000) + (1 # 100000) * Qabs b).

(** bayes_opt.py:43-51 for one component: isclose for real variables, == for all others. *)
Definition near1 (k : kind) (y x : val) : bool :=
  match k with
  | KReal _ _ _ =>
    match as_num y, as_num x with Some a, Some b => isclose a b | _, _ => false end
  | _ => val_eqb y x
  end.

(** bayes_opt.py:52  CON & INT & CAT for one other row y and the candidate x. *)
Fixpoint near (vs : list var) (y x : point) : bool :=
  match vs, y, x with
  | [], _, _ => true
  | v :: vs', a :: y', b :: x' => near1 (vkind v) a b && near vs' y' x'
  | _, _, _ => false
  end.

(** bayes_opt.py:39-55: the rows of X (numbered from [i]) that have no near-duplicate among
    the other rows of X and the rows of data. *)
Definition others {A} (i : nat) (l : list A) : list A := firstn i l ++ skipn (S i) l.

(** bayes_opt.py:39-55 with all rows: the rows without a near-duplicate. *)
Definition pre_eval_check (vs : list var) (data : list point) (X : list point) : list point :=
  let all := X ++ data in
  map snd (filter (fun p => negb (existsb (fun y => near vs y (snd p)) (others (fst p) all)))
                  (combine (seq 0 (List.length X)) X)).

(** The [fixed] argument: a dictionary from names to values. *)
Definition fixed_t := list (string * val).
(** fixed[k] of utils.py:155. *)
Fixpoint lookup (f : fixed_t) (n : string) : option val :=
  match f with
  | [] => None
  | (k, v) :: t => if String.eqb k n then Some v else lookup t n
  end.

(** search_space.py:421-437  filter(fixed.keys(), invert=True): the free variables. *)
Definition free_vars (vs : list var) (f : fixed_t) : list var :=
  filter (fun v => match lookup f (vname v) with None => true | Some _ => false end) vs.

(** utils.py:149-160  fillin_fixed_value on one row; [None]: the row does not have one value
    per free variable (numpy broadcasting error; simplification: numpy would also broadcast
    rows of length one). *)
Fixpoint fill (vs : list var) (f : fixed_t) (x : point) : option point :=
  match vs with
  | [] => match x with [] => Some [] | _ => None end
  | v :: vs' =>
    match lookup f (vname v) with
    | Some c => option_map (cons c) (fill vs' f x)
    | None => match x with
              | [] => None
              | a :: x' => option_map (cons a) (fill vs' f x')
              end
    end
  end.

(** No counterpart in the code: all rows succeed, or the call raises. *)
Fixpoint sequence {A} (l : list (option A)) : option (list A) :=
  match l with
  | [] => Some []
  | None :: _ => None
  | Some a :: t => option_map (cons a) (sequence t)
  end.

(** [fixed] is None or a dictionary; None leaves the rows as they are. *)
Definition fillin (vs : list var) (fixed : option fixed_t) (X : list point) : res (list point) :=
  match fixed with
  | None => Ok X
  | Some f => match sequence (map (fill vs f) X) with Some Y => Ok Y | None => Err EValue end
  end.

(** search_space.py:570-588  round on one point. *)
Fixpoint round_point (vs : list var) (x : point) : point :=
  match vs, x with
  | v :: vs', a :: x' => round_val (vkind v) a :: round_point vs' x'
  | _, _ => x
  end.

Section Ask.
  Variable vs : list var.
  (** [samp count n]: the rows returned by sample(n) of the free sub-space in the count-th
      pass of the loop of create_DoE (any random stream). *)
  Variable samp : nat -> nat -> list point.
  (** [inner i]: the i-th result of the acquisition optimization; [] when no feasible point
      was found (argmax_restart returns ([], [])). *)
  Variable inner : nat -> point.
  (** [batch]: whether the class implements _batch_arg_max_acquisition (ParallelBO and
      subclasses) or inherits the NotImplementedError (base.py:496-497). *)
  Variable batch : bool.

  (** base.py:378-400  the loop of create_DoE: [todo] is n_point, [passes] the number of passes
      still allowed (count > 3 breaks after the fourth pass). *)
  Fixpoint doe_loop (data : list point) (fixed : fixed_t) (passes count todo : nat) (doe : list point)
    : res (list point) :=
    match todo with
    | 0 => Ok doe
    | _ =>
      match passes with
      | 0 => Ok doe
      | S passes' =>
        match fillin vs (Some fixed) (samp count todo) with
        | Err e => Err e
        | Ok X =>
          let X' := pre_eval_check vs data (map (round_point vs) X) in
          doe_loop data fixed passes' (S count) (todo - List.length X') (doe ++ X')
        end
      end
    end.

  (** base.py:362-400  create_DoE ([fixed = None] becomes the empty dictionary, line 375).
      Simplification: n_point stays a natural number; sample never returns more rows than
      requested (search_space.py:552-553), so the subtraction does not become negative. *)
  Definition create_doe (data : list point) (n : nat) (fixed : option fixed_t) : res (list point) :=
    doe_loop data (match fixed with None => [] | Some f => f end) 4 0 n [].

  (** base.py:449-480  arg_max_acquisition. *)
  Definition arg_max_acquisition (n : nat) (fixed : option fixed_t) : res (list point) :=
    let cands := if 1 <? n then (if batch then Ok (map inner (seq 0 n)) else Err ENotImplemented)
                 else Ok [inner 0] in
    match cands with
    | Err e => Err e
    | Ok l => fillin vs fixed (filter (fun c => negb (List.length c =? 0)) l)
    end.

  (** base.py:259-307  ask; [n_default] is self.n_point, [doe_size] self._DoE_size. *)
  Definition ask (fitted : bool) (data : list point) (n_default doe_size : nat)
             (n_point : option nat) (fixed : option fixed_t) : res (list point) :=
    let proposals :=
      if fitted then
        let n := match n_point with None => n_default | Some n => n end in
        match arg_max_acquisition n fixed with
        | Err e => Err e
        | Ok C =>
          let X := pre_eval_check vs data C in
          if List.length X <? n
          then match create_doe data (n - List.length X) fixed with
               | Err e => Err e
               | Ok D => Ok (X ++ D)
               end
          else Ok X
        end
      else create_doe data (match n_point with None => doe_size | Some n => n end) fixed in
    match proposals with
    | Err e => Err e
    | Ok [] => Err EAskEmpty
    | Ok X => Ok X
    end.
End Ask.

(** _base.py:111-121  evaluate.  The workers of joblib finish the tasks in an arbitrary
    order; each finished task stores its result under its task number, and Parallel returns
    the results by task number.  [schedule] lists the task numbers in order of completion.
    [None]: some task never finished. *)
Section Evaluate.
  Context {A B : Type}.
  Variable f : A -> B.
  Fixpoint set_nth {T} (i : nat) (v : T) (l : list T) : list T :=
    match l, i with
    | [], _ => []
    | _ :: t, 0 => v :: t
    | a :: t, S j => a :: set_nth j v t
    end.
  (** _base.py:111-121: one task of joblib ends and stores its result. *)
  Definition finish (X : list A) (slots : list (option B)) (i : nat) : list (option B) :=
    match nth_error X i with
    | Some x => set_nth i (Some (f x)) slots
    | None => slots
    end.
  (** _base.py:111-121 with n_job > 1, for the given order of completion. *)
  Definition evaluate_parallel (X : list A) (schedule : list nat) : option (list B) :=
    sequence (fold_left (finish X) schedule (repeat None (List.length X))).
  (** _base.py:111-121 with n_job = 1. *)
  Definition evaluate_sequential (X : list A) : list B := map f X.
End Evaluate.

(** mobo.py:78-93  evaluate for several objectives: objective by objective, then
    list(zip( *func_vals)). *)
Fixpoint zip_star {T} (rows : list (list T)) : list (list T) :=
  match rows with
  | [] => []
  | [r] => map (fun x => [x]) r
  | r :: t => map (fun p => fst p :: snd p) (combine r (zip_star t))
  end.
(** mobo.py:78-93. *)
Definition evaluate_multi {A B} (fs : list (A -> B)) (X : list A) : list (list B) :=
  zip_star (map (fun f => map f X) fs).
