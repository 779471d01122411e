(** Several points at once and the caller's data: handle_box_constraint of bayes_optim/utils/utils.py on arrays of any shape,
    set_bounds and arg_to_int of the same file. *)
From Coq Require Import List Bool Arith ZArith QArith Qabs Qround.
From Verif Require Import Model_Box.
Import ListNotations.
Open Scope nat_scope.

(** An entry of a float array; [None] is not-a-number.  Simplification: exact arithmetic, no infinite entries. *)
Notation cell := (option Q).

(** utils.py:136-142 for one entry with two finite bounds.  With equal bounds the division gives not-a-number or an infinity,
    whose floor, parity and product with the width zero end in not-a-number in every case. *)
Definition reflect_cell (lb ub : Q) (x : cell) : cell :=
  match x with
  | None => None
  | Some v => if Qeq_bool lb ub then None else Some (reflect v lb ub)
  end.
(** utils.py:127-142 for one row of the working array, that is, one pair of bounds: [valid] selects the rows with two finite
    bounds. *)
Definition repair_row (b : bound * bound) (row : list cell) : list cell :=
  match b with (Some lb, Some ub) => map (reflect_cell lb ub) row | _ => row end.
(** utils.py:127-142 for the whole working array. *)
Fixpoint repair_rows (bounds : list (bound * bound)) (rows : list (list cell)) : list (list cell) :=
  match bounds, rows with b :: bounds', r :: rows' => repair_row b r :: repair_rows bounds' rows' | _, _ => [] end.

(** The transposition of a matrix with [c] columns. *)
Definition transpose (c : nat) (rows : list (list cell)) : list (list cell) :=
  map (fun j => map (fun r => nth j r None) rows) (seq 0 c).

(** An array argument: one-dimensional, or two-dimensional with its number of columns. *)
Inductive arr := Vec (l : list cell) | Mat (c : nat) (rows : list (list cell)).
(** What a call of utils.py:108-146 ends in. *)
Inductive outcome_box := Done (a : arr) | IndexError.

(** utils.py:116-146: the returned array.  [atleast_2d] makes a vector one row; the working array is transposed when its number
    of rows is not the number of bounds; a mask of another length than the rows is an IndexError; the result has the shape of the
    argument.  Simplification: lb and ub have the same length. *)
Definition handle (bounds : list (bound * bound)) (x : arr) : outcome_box :=
  let '(c, rows) := match x with Vec l => (length l, [l]) | Mat c rows => (c, rows) end in
  let same_shape := fun rows' => match x with Vec _ => Vec (hd [] rows') | Mat c _ => Mat c rows' end in
  if length rows =? length bounds then Done (same_shape (repair_rows bounds rows))
  else if c =? length bounds then Done (same_shape (transpose (length rows) (repair_rows bounds (transpose c rows))))
  else IndexError.

(** What the caller hands over: a numpy array of floats, or anything that [np.asarray(x, dtype="float")] (line 116) has to
    copy (a list, an array of integers or objects). *)
Inductive storage := FloatArray | Copied.
(** The call with its effect: what is returned, and the caller's object afterwards.  [asarray], [atleast_2d] and [.T] (lines
    116-124) return views of a float array, so that line 142 writes into it; the IndexError of line 136 comes before. *)
Definition handle_call (st : storage) (bounds : list (bound * bound)) (x : arr) : outcome_box * arr :=
  match handle bounds x with
  | Done y => (Done y, match st with FloatArray => y | Copied => x end)
  | IndexError => (IndexError, x)
  end.

(** ** Bounds and settings as arguments *)
(** Python values: int (bool is one), float with its finite value, nan, an infinity, a text, an iterable, and a value of another
    type without iterator and length (a numpy integer, None). *)
Inductive pyval :=
| PInt (n : Z) | PFloat (q : Q) | PNan | PInf (positive : bool) | PText (t : nat) | PIter (l : list pyval) | POther.
(** The exceptions of utils.py:249-269. *)
Inductive pyerror := ValueError | TypeError | AssertionError | OverflowError.

Section Eval.
  (** Python's eval of the text with a number; the texts of the model are numbered. *)
  Variable eval : nat -> pyerror + pyval.

  (** utils.py:259-269.  [len] of a number or of another value is a TypeError; the length of a text is that of its characters
      and [eval] of a text can be a text, which is not modelled: it counts as a TypeError. *)
  Definition py_len (v : pyval) : pyerror + list pyval :=
    match v with PIter l => inr l | _ => inl TypeError end.
  (** utils.py:259-269. *)
  Definition set_bounds (bound : pyval) (dim : nat) : pyerror + list pyval :=
    let b := match bound with
             | PText t => eval t
             | PInt _ | PFloat _ | PNan | PInf _ => inr (PIter (repeat bound dim))
             | PIter l => inr (PIter (if length l =? 1 then List.concat (repeat l dim) else l))
             | POther => inr POther
             end in
    match b with
    | inl e => inl e
    | inr v => match py_len v with
               | inl e => inl e
               | inr l => if length l =? dim then inr l else inl AssertionError
               end
    end.

  (** Python's int() of a value, for what arg_to_int hands to it: truncation towards zero. *)
  Definition truncate (q : Q) : Z := Z.quot (Qnum q) (Zpos (Qden q)).
  (** utils.py:251 and 253. *)
  Definition py_int (v : pyval) : pyerror + Z :=
    match v with
    | PInt n => inr n
    | PFloat q => inr (truncate q)
    | PNan => inl ValueError
    | PInf _ => inl OverflowError
    | PText _ => inl ValueError
    | PIter _ | POther => inl TypeError
    end.
  (** utils.py:249-256.  Simplification: for a text whose value is again a text or a numpy integer, see [py_int]. *)
  Definition arg_to_int (arg : pyval) : pyerror + Z :=
    match arg with
    | PText t => match eval t with inl e => inl e | inr v => py_int v end
    | PInt _ | PFloat _ | PNan | PInf _ => py_int arg
    | PIter _ | POther => inl ValueError
    end.
End Eval.
