(** How points are presented to functions and models: the wrappers of objective and constraint
    functions (utils/utils.py 149-232), the one-hot encoding of the random forest
    (surrogate/random_forest.py 88-109), proportional selection (utils/utils.py 78-104) and the
    polynomial trends (surrogate/gaussian_process/trend.py). *)
From Coq Require Import Bool Arith ZArith QArith String List.
Import ListNotations.
Open Scope nat_scope.

(* ---------- wrappers ---------- *)
Section Wrappers.
  Context {V : Type}.
  (** a numpy object array: one row or a matrix with the given number of columns *)
  Inductive array := Row (x : list V) | Matrix (rows : list (list V)) (cols : nat).

  (** fixed[k] of 155 and 182. *)
  Definition dlookup (d : list (string * V)) (k : string) : option V :=
    option_map snd (find (fun p => String.eqb (fst p) k) d).

  (** 181-182  masks and values *)
  Definition masks (var_name : list string) (fixed : list (string * V)) : list bool :=
    map (fun v => match dlookup fixed v with Some _ => true | None => false end) var_name.
  (** 155 and 182  the fixed values in the order of the variables. *)
  Definition values (var_name : list string) (fixed : list (string * V)) : list V :=
    flat_map (fun v => match dlookup fixed v with Some x => [x] | None => [] end) var_name.

  (** X_[i, ~masks] = x; X_[i, masks] = values for one row; None: the numbers of values and of
      places differ (ValueError) *)
  Fixpoint place (m : list bool) (x vals : list V) : option (list V) :=
    match m with
    | [] => match x, vals with [], [] => Some [] | _, _ => None end
    | true :: m => match vals with v :: vals => option_map (cons v) (place m x vals) | [] => None end
    | false :: m => match x with v :: x => option_map (cons v) (place m x vals) | [] => None end
    end.
  (** No counterpart in the code: all rows can be filled in, or the call raises. *)
  Fixpoint all_some {A} (l : list (option A)) : option (list A) :=
    match l with [] => Some [] | Some a :: l => option_map (cons a) (all_some l) | None :: _ => None end.
  (** numpy's broadcasting of the rows of X to N rows: equally many, or one repeated *)
  Definition broadcast (N : nat) (rows : list (list V)) : option (list (list V)) :=
    if length rows =? N then Some rows else match rows with [r] => Some (repeat r N) | _ => None end.

  (** 186-195  the rows of the array X_ that the wrapped function receives; None: ValueError.
      Simplified: a row with one free value that numpy would repeat over several free columns is an
      error here (the callers pass one value per free variable). *)
  Definition partial_argument (var_name : list string) (fixed : list (string * V)) (X : array) : option (list (list V)) :=
    let m := masks var_name fixed in
    let N := match X with Row _ => 1 | Matrix _ cols => cols end in
    match broadcast N (match X with Row x => [x] | Matrix rows _ => rows end) with
    | Some rows => all_some (map (fun x => place m x (values var_name fixed)) rows)
    | None => None
    end.

  (** 149-160  fillin_fixed_value; fixed = None is the empty dictionary here *)
  Definition fillin (var_name : list string) (fixed : list (string * V)) (X : list (list V)) : option (list (list V)) :=
    all_some (map (fun x => place (masks var_name fixed) x (values var_name fixed)) X).

  (** 218-232  func_with_list_arg: what the function is called with, one call per row, as a list or
      as a dictionary; the results are flattened.  np.array(results).ravel() needs results of equal
      shape; constraint functions return equally many numbers for every point. *)
  Definition rows_of (X : array) : list (list V) := match X with Row x => [x] | Matrix rows _ => rows end.
  (** 227 and 230 with arg_type list. *)
  Definition call_list {R} (func : list V -> list R) (X : array) : list R := concat (map func (rows_of X)).
  (** 229 and 230 with arg_type dict. *)
  Definition call_dict {R} (func : list (string * V) -> list R) (var_name : list string) (X : array) : list R :=
    concat (map (fun x => func (combine var_name x)) (rows_of X)).

  (** base.py:237-238 and 386-387: a constraint function as the optimizer of the acquisition and the
      sampler see it *)
  Definition constraint_list {R} (func : list V -> list R) var_name fixed (X : array) : option (list R) :=
    option_map (fun rows => call_list func (Matrix rows (length var_name))) (partial_argument var_name fixed X).
  (** The same with arg_type dict. *)
  Definition constraint_dict {R} (func : list (string * V) -> list R) var_name fixed (X : array) : option (list R) :=
    option_map (fun rows => call_dict func var_name (Matrix rows (length var_name))) (partial_argument var_name fixed X).

  (** 198-213  reduce_output on one component of the result: arrays of one or two dimensions *)
  Inductive output := Vec (v : list V) | Mat (rows : list (list V)) (cols : nat) | Other.
  (** v[~masks], 203. *)
  Definition unmasked {A} (m : list bool) (l : list A) : list A :=
    map snd (filter (fun p => negb (fst p)) (combine m l)).
  (** 202-208. *)
  Definition reduce (m : list bool) (v : output) : output :=
    match v with
    | Vec x => if 1 <? length x then Vec (unmasked m x) else v
    | Mat rows cols =>
        if length rows =? length m then Mat (unmasked m rows) cols
        else if cols =? length m then Mat (map (unmasked m) rows) (length (filter negb m)) else v
    | Other => v
    end.
End Wrappers.
Arguments array : clear implicits.
Arguments output : clear implicits.

(* ---------- one-hot encoding ---------- *)
Section OneHot.
  Context {V : Type} (eqb : V -> V -> bool) (to_float : V -> option Q).   (* Python's ==; astype(float) *)

  (** random_forest.py 98  sorted(levels.items()): the keys are pairwise different, so the order is that of the keys *)
  Fixpoint insert_level (kv : nat * list V) (l : list (nat * list V)) : list (nat * list V) :=
    match l with
    | [] => [kv]
    | kv' :: l' => if fst kv <=? fst kv' then kv :: l else kv' :: insert_level kv l'
    end.
  (** random_forest.py 98. *)
  Definition sort_levels (levels : list (nat * list V)) : list (nat * list V) := fold_right insert_level [] levels.

  (** OneHotEncoder: the column of the value among the categories; None: unknown category
      (ValueError) *)
  Fixpoint position (x : V) (cats : list V) : option nat :=
    match cats with [] => None | c :: cats => if eqb x c then Some 0 else option_map S (position x cats) end.
  (** random_forest.py 107: the columns of one encoded variable. *)
  Definition unit_row (n k : nat) : list Q := map (fun i => if i =? k then 1%Q else 0%Q) (seq 0 n).
  (** random_forest.py 107: encoding one value. *)
  Definition encode1 (cats : list V) (x : V) : option (list Q) := option_map (unit_row (length cats)) (position x cats).

  (** np.delete(X_, cat_idx, 1) *)
  Definition delete_cols {A} (idx : list nat) (x : list A) : list A :=
    map snd (filter (fun p => negb (existsb (Nat.eqb (fst p)) idx)) (combine (seq 0 (length x)) x)).

  (** No counterpart in the code: all values can be encoded, or the call raises. *)
  Fixpoint all_ok {A} (l : list (option A)) : option (list A) :=
    match l with [] => Some [] | Some a :: l => option_map (cons a) (all_ok l) | None :: _ => None end.

  (** random_forest.py 104-109  _check_X on one row, for a forest created with non-empty levels *)
  Definition encode (levels : list (nat * list V)) (x : list V) : option (list Q) :=
    let levels := sort_levels levels in
    match all_ok (map to_float (delete_cols (map fst levels) x)),
          all_ok (map (fun kv => match nth_error x (fst kv) with Some v => encode1 (snd kv) v | None => None end) levels) with
    | Some num, Some cat => Some (num ++ concat cat)
    | _, _ => None
    end.
End OneHot.

(* ---------- proportional selection ---------- *)
Fixpoint qmin (x : Q) (l : list Q) : Q := match l with [] => x | y :: l => qmin (if Qle_bool y x then y else x) l end.
(** np.min, 80 and 87. *)
Definition minimum (l : list Q) : Q := match l with [] => 0%Q | x :: l => qmin x l end.
(** np.sum, 81. *)
Definition qsum (l : list Q) : Q := fold_right Qplus 0%Q l.
(** 80-82  the shares; None: all equal, the quotients are nan *)
Definition shares (perf : list Q) : option (list Q) :=
  let mn := minimum perf in
  let total := (qsum perf - mn * inject_Z (Z.of_nat (length perf)))%Q in
  if Qeq_bool total 0 then None else Some (map (fun p => ((p - mn) / total)%Q) perf).
(** np.nonzero(r <= cumsum)[0][0]; None: IndexError *)
Fixpoint first_reaching (r acc : Q) (l : list Q) : option nat :=
  match l with
  | [] => None
  | s :: l => if Qle_bool r (acc + s)%Q then Some 0 else option_map S (first_reaching r (acc + s)%Q l)
  end.
(** 79-82. *)
Definition select (perf : list Q) (r : Q) : option nat :=
  match shares perf with Some s => first_reaching r 0%Q s | None => None end.
(** 84-87 *)
Definition oriented (minimize : bool) (perf : list Q) : list Q :=
  if minimize then let p := map Qopp perf in map (fun q => (q - minimum p)%Q) p else perf.
(** np.delete and del of 102-103. *)
Definition remove_at {A} (k : nat) (l : list A) : list A := firstn k l ++ skipn (S k) l.
(** 96-103  one draw r per round; draws are numbers in [0, 1) *)
Fixpoint without_replacement (N : nat) (perf : list Q) (idx : list nat) (rs : list Q) : option (list nat) :=
  match N, rs with
  | 0, _ => Some []
  | S N, r :: rs =>
      match (if length perf =? 1 then match idx with i :: _ => Some (i, 0, true) | [] => None end
             else match select perf r with Some k => option_map (fun i => (i, k, false)) (nth_error idx k) | None => None end) with
      | Some (i, k, last) =>
          option_map (cons i) (if last then without_replacement N perf idx rs
                               else without_replacement N (remove_at k perf) (remove_at k idx) rs)
      | None => None
      end
  | S _, [] => None
  end.
(** 78-104; None: IndexError or AssertionError *)
Definition proportional_selection (perf : list Q) (N : nat) (minimize replacement : bool) (rs : list Q) : option (list nat) :=
  let p := oriented minimize perf in
  if replacement then all_ok (map (select p) (firstn N rs))
  else if N <=? length p then without_replacement N p (seq 0 (length p)) rs else None.

(* ---------- trends ---------- *)
(** trend.py:79-82, 103-106, 130-136  one row of F; 77, 101, 128: n_dim *)
Inductive trend := Constant | LinearT | Quadratic.
(** trend.py:79-82, 103-106, 130-136  one row of F. *)
Definition basis (t : trend) (x : list Q) : list Q :=
  match t with
  | Constant => [1%Q]
  | LinearT => 1%Q :: x
  | Quadratic =>
      fold_left (fun f k => f ++ map (fun y => (nth k x 0 * y)%Q) (skipn k x)) (seq 0 (length x)) (1%Q :: x)
  end.
(** trend.py:77, 101, 128. *)
Definition n_dim (t : trend) (n : nat) : nat :=
  match t with Constant => 1 | LinearT => n + 1 | Quadratic => (n + 1) * (n + 2) / 2 end.
(** trend.py:84-86, 108-111, 138-139  the Jacobian in numerator layout, one row per basis function;
    None: NotImplementedError *)
Definition jacobian (t : trend) (n : nat) : option (list (list Q)) :=
  match t with
  | Constant => Some [repeat 0%Q n]
  | LinearT => Some (repeat 0%Q n :: map (fun i => map (fun j => if j =? i then 1%Q else 0%Q) (seq 0 n)) (seq 0 n))
  | Quadratic => None
  end.
(** trend.py:34-38 *)
Definition dotQ (a b : list Q) : Q := fold_right (fun p s => (fst p * snd p + s)%Q) 0%Q (combine a b).
(** trend.py:37. *)
Definition trend_value (t : trend) (beta x : list Q) : Q := dotQ (basis t x) beta.
