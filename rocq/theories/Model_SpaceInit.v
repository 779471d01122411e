(** Constructing variables and the search spaces of one type: bayes_optim/search_space/variable.py 76-112, 145-149, 168-354 and
    search_space.py 137-162, 725-740, 800-870.  Conditions are in Model_Node. *)
From Coq Require Import List Bool Arith ZArith QArith String Ascii.
From Verif Require Import Model_Var Model_Opt Model_Space Model_SpaceDict.
Import ListNotations.
Open Scope nat_scope.

(** The exceptions of the constructors. *)
Inductive exn := AssertionE | IndexE | TypeE | ZeroDivisionE.
(** The value of a call, or its exception. *)
Inductive res (A : Type) := Ok (a : A) | Err (e : exn).
Arguments Ok {A}.
Arguments Err {A}.
(** No counterpart in the code: the first exception ends a comprehension. *)
Fixpoint mapM {A B} (f : A -> res B) (l : list A) : res (list B) :=
  match l with
  | [] => Ok []
  | a :: l' => match f a with Err e => Err e | Ok b => match mapM f l' with Err e => Err e | Ok r => Ok (b :: r) end end
  end.

(** An element of the argument bounds: a number, bool or str, or a list or tuple of such. *)
Inductive elem := EVal (v : val) | ESeq (l : list val).
(** The argument var_name: a str or a list of them. *)
Inductive narg := NOne (s : string) | NList (l : list string).
(** The other arguments: None, a value that is neither list nor tuple, or a list or tuple, whose elements may be None. *)
Inductive oarg (A : Type) := ONone | OOne (a : A) | OList (l : list (option A)).
Arguments ONone {A}.
Arguments OOne {A}.
Arguments OList {A}.

(** search_space.py 139-140: tuple(b); a str gives its characters, a number raises. *)
Definition tuple_of (b : elem) : res (list val) :=
  match b with
  | ESeq l => Ok l
  | EVal (VS s) => Ok (map (fun c => VS (String c EmptyString)) (list_ascii_of_string s))
  | EVal _ => Err TypeE
  end.
(** search_space.py 142: an element of tuple(bounds). *)
Definition value_of (b : elem) : val := match b with EVal v => v | ESeq l => VT l end.
(** search_space.py 139-142: the ranges. *)
Definition ranges (bounds : list elem) : res (list (list val)) :=
  match bounds with
  | [] => Err IndexE
  | ESeq _ :: _ => mapM tuple_of bounds
  | EVal _ :: _ => Ok [map value_of bounds]
  end.
(** search_space.py 146-151: the names. *)
Definition names_of (n : narg) (dim : nat) : res (list string) :=
  match n with
  | NOne s => Ok (if 1 <? dim then map (fun i => (s ++ str_nat i)%string) (seq 0 dim) else [s])
  | NList l => if List.length l =? dim then Ok l else Err AssertionE
  end.
(** search_space.py 155-161: the values of one keyword for all variables.  The outer None: the keyword is not passed on. *)
Definition column {A} (o : oarg A) (dim : nat) : res (list (option (option A))) :=
  match o with
  | ONone => Ok (repeat None dim)
  | OOne a => Ok (repeat (Some (Some a)) dim)
  | OList l => if List.length l =? dim then Ok (map Some l) else Err AssertionE
  end.

(** The keyword arguments of one variable. *)
Record row := Row { r_bounds : list val; r_name : string; r_default : option (option val); r_prec : option (option Z);
                    r_scale : option (option string); r_step : option (option Z) }.
(** No counterpart in the code: the arguments of all variables, position by position. *)
Fixpoint zip_rows (bs : list (list val)) (ns : list string) (ds : list (option (option val))) (ps : list (option (option Z)))
  (ss : list (option (option string))) (ts : list (option (option Z))) : list row :=
  match bs, ns, ds, ps, ss, ts with
  | b :: bs, n :: ns, d :: ds, p :: ps, s :: ss, t :: ts => Row b n d p s t :: zip_rows bs ns ds ps ss ts
  | _, _, _, _, _, _ => []
  end.
(** search_space.py 137-162 _ready_args. *)
Definition ready_args (bounds : list elem) (n : narg) (d : oarg val) (p : oarg Z) (s : oarg string) (t : oarg Z) : res (list row) :=
  match ranges bounds with
  | Err e => Err e
  | Ok bs =>
      let dim := List.length bs in
      match names_of n dim, column d dim, column p dim, column s dim, column t dim with
      | Ok ns, Ok ds, Ok ps, Ok ss, Ok ts => Ok (zip_rows bs ns ds ps ss ts)
      | Err e, _, _, _, _ | _, Err e, _, _, _ | _, _, Err e, _, _ | _, _, _, Err e, _ | _, _, _, _, Err e => Err e
      end
  end.

(** No counterpart in the code: an argument that is not passed or is None. *)
Definition passed {A} (o : option (option A)) : option A := match o with Some (Some a) => Some a | _ => None end.
(** variable.py 145-149 set_default_value, with __contains__ of the class. *)
Definition check_default (k : kind) (d : option val) : res (option val) :=
  match d with
  | None => Ok None
  | Some v => match contains k v with Some true => Ok (Some v) | Some false => Err AssertionE | None => Err TypeE end
  end.

(** variable.py 39: sys.float_info.max, that is (2 - 2^-52) 2^1023. *)
Definition MAX : Q := inject_Z (2 ^ 1024 - 2 ^ 971).
(** variable.py 42-44: 1e-300. *)
Definition tiny : Q := (1 # (10 ^ 300))%Q.
(** variable.py 40-46, second entries. *)
Definition working_range (s : string) : Q * Q :=
  if String.eqb s "log" || String.eqb s "log10" then (tiny, MAX)
  else if String.eqb s "logit" then (tiny, 1%Q)
  else (- MAX, MAX)%Q.
(** a < b of numbers. *)
Definition qlt (a b : Q) : bool := negb (Qle_bool b a).
(** variable.py 224-244: the bounds after the scale setter. *)
Definition adjust (s : string) (b : Q * Q) : Q * Q :=
  let '(lo, hi) := working_range s in
  ((if qlt (fst b) lo || qlt hi (fst b) then lo else fst b), (if qlt (snd b) lo || qlt hi (snd b) then hi else snd b)).

(** variable.py 168-197 Real.  Further elements of bounds are never read.  Of the exceptions for bounds that are not numbers only
    the existence is modelled. *)
Definition make_Real (r : row) : res vobj :=
  match r_bounds r with
  | a :: b :: _ =>
    match as_num a, as_num b with
    | Some lb, Some ub =>
      if Qle_bool ub lb then Err AssertionE
      else match r_scale r with
           | Some None => Err AssertionE
           | _ =>
             let s := match passed (r_scale r) with Some s => s | None => "linear"%string end in
             if negb (existsb (String.eqb s) scales) then Err AssertionE
             else match check_default (KReal lb ub (passed (r_prec r))) (passed (r_default r)) with
                  | Err e => Err e
                  | Ok d => let '(lb', ub') := adjust s (lb, ub) in Ok (mkV (r_name r) (KReal lb' ub' (passed (r_prec r))) d s)
                  end
           end
    | _, _ => Err TypeE
    end
  | _ => Err IndexE
  end.
(** variable.py 317-331 Integer.  Simplification: the bounds and the step are ints; for other bounds only the existence of an
    exception is modelled (floats are accepted by the code). *)
Definition make_Integer (r : row) : res vobj :=
  match dedup (r_bounds r) with
  | [VI lb; VI ub] =>
    match check_default (KInt lb ub 1) (passed (r_default r)) with
    | Err e => Err e
    | Ok d =>
      if (ub <=? lb)%Z then Err AssertionE
      else match r_step r with
           | Some None => Err TypeE
           | _ => let t := match passed (r_step r) with Some t => t | None => 1%Z end in
                  if (t =? 0)%Z then Err ZeroDivisionE else Ok (mkV (r_name r) (KInt lb ub t) d "")
           end
    end
  | _ => Err AssertionE
  end.
(** variable.py 263-269, 284-287, 293-296, 308-311: Discrete, Subset and Ordinal. *)
Definition make_levels (k : list val -> kind) (r : row) : res vobj :=
  match check_default (k (r_bounds r)) (passed (r_default r)) with
  | Err e => Err e
  | Ok d => Ok (mkV (r_name r) (k (r_bounds r)) d "")
  end.
(** variable.py 348-354 Bool: the bounds are ignored; without a default value it is True. *)
Definition make_Bool (r : row) : res vobj :=
  match r_default r with
  | None => Ok (mkV (r_name r) KBool (Some (VB true)) "")
  | Some None => Ok (mkV (r_name r) KBool None "")
  | Some (Some (VB b)) => Ok (mkV (r_name r) KBool (Some (VB b)) "")
  | Some (Some _) => Err AssertionE
  end.

(** The classes of search spaces of one type. *)
Inductive cls := CReal | CInteger | CDiscrete | COrdinal | CSubset | CBool.
(** search_space.py 739, 808, 824, 839, 854, 868: the class of the variables. *)
Definition make_var (c : cls) : row -> res vobj :=
  match c with
  | CReal => make_Real
  | CInteger => make_Integer
  | CDiscrete => make_levels KDiscrete
  | COrdinal => make_levels KOrdinal
  | CSubset => make_levels KSubset
  | CBool => make_Bool
  end.
(** search_space.py 725-740, 800-870: the constructors.  RealSpace takes precision and scale, IntegerSpace step (1 by default, which
    is also that of Integer), BoolSpace no bounds; the arguments a class does not take are given as [ONone]. *)
Definition new_space (c : cls) (bounds : list elem) (n : narg) (d : oarg val) (p : oarg Z) (s : oarg string) (t : oarg Z) : res (heap * space) :=
  match ready_args (match c with CBool => [EVal (VB false); EVal (VB true)] | _ => bounds end) n d p s t with
  | Err e => Err e
  | Ok rows =>
      match mapM (make_var c) rows with
      | Err e => Err e
      | Ok vs => Ok (set_data vs (seq 0 (List.length vs)))
      end
  end.
