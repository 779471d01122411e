(** Search spaces: bayes_optim/search_space/search_space.py.
    Variables are Python objects that can be shared between spaces, so they live in a heap; a
    space holds references and the cached list of names. *)
From Coq Require Import List Bool Arith ZArith QArith String.
From Verif Require Import Model_Var Model_Opt.
Import ListNotations.
Open Scope nat_scope.

(** variable.py:73-137, 192-200: the attributes of a variable (conditions are in Model_Node.v). *)
Record vobj := mkV { vn : string; vk : kind; vdef : option val; vscale : string }.
(** var.name = n (search_space.py:164-172). *)
Definition set_vn (v : vobj) (n : string) : vobj := mkV n (vk v) (vdef v) (vscale v).

(** No counterpart in the code: all variable objects. *)
Definition heap := list vobj.
Notation ref := nat.
(** A fallback for dangling references; the theorems assume there are none. *)
Definition no_var : vobj := mkV "" KBool None "".
(** No counterpart in the code: the variable object of a reference. *)
Definition deref (h : heap) (r : ref) : vobj := nth r h no_var.
(** No counterpart in the code: change one element of a list. *)
Fixpoint update_at {A} (l : list A) (i : nat) (f : A -> A) : list A :=
  match l, i with
  | [], _ => []
  | x :: t, 0 => f x :: t
  | x :: t, S j => x :: update_at t j f
  end.
(** search_space.py:164-172: var.name = n, seen through all references. *)
Definition set_name (h : heap) (r : ref) (n : string) : heap := update_at h r (fun v => set_vn v n).

(** search_space.py:204-213: data and _var_name; the other attributes are functions of them. *)
Record space := mkSp { data : list ref; names : list string }.

(** search_space.py:164-172: how often a name occurs. *)
Definition count_name (n : string) (l : list string) : nat :=
  List.length (filter (String.eqb n) l).
(** search_space.py:164-172, the new names: if a name occurs several times, its occurrences get
    the suffixes 0, 1, ... *)
Definition new_name (l : list string) (k : nat) : string :=
  let n := nth k l EmptyString in
  if 1 <? count_name n l then (n ++ str_nat (count_name n (firstn k l)))%string else n.
(** search_space.py:164-172: all new names. *)
Definition new_names (l : list string) : list string := map (new_name l) (seq 0 (List.length l)).
(** _check_data writes the names into the variables.  Simplification: all names are written, in
    the order of the positions (the code writes the repeated ones, name by name; an object
    appearing twice has the same name in both places, so the last write is the same). *)
Definition write_names (h : heap) (ps : list (ref * string)) : heap :=
  fold_left (fun h p => set_name h (fst p) (snd p)) ps h.

(** __init__ / _set_data, search_space.py:198-213: check the names, then cache them. *)
Definition set_data (h : heap) (rs : list ref) : heap * space :=
  let l := map (fun r => vn (deref h r)) rs in
  let h' := write_names h (combine rs (new_names l)) in
  (h', mkSp rs (map (fun r => vn (deref h' r)) rs)).

(** deepcopy of a list of variables: fresh objects (each entry copied on its own). *)
Definition copies (h : heap) (rs : list ref) : heap * list ref :=
  (h ++ map (deref h) rs, seq (List.length h) (List.length rs)).

(** __getitem__ with a list of positions, 247-262; the variables are shared with the parent. *)
Definition select (h : heap) (s : space) (idx : list nat) : heap * space :=
  set_data h (map (fun i => nth i (data s) 0) idx).
(** filter, 421-437: by the cached names. *)
Definition mask_of (keys : list string) (invert : bool) (s : space) : list nat :=
  filter (fun i => xorb invert (existsb (String.eqb (nth i (names s) EmptyString)) keys))
         (seq 0 (List.length (names s))).
(** filter, 421-437. *)
Definition filter_space (h : heap) (s : space) (keys : list string) (invert : bool) : heap * space :=
  select h s (mask_of keys invert s).

(** names.index(n) of a list; None is the ValueError. *)
Fixpoint index_of (n : string) (l : list string) : option nat :=
  match l with
  | [] => None
  | x :: t => if String.eqb n x then Some 0 else option_map S (index_of n t)
  end.
(** __sub__, 340-351: the positions found by names.index for the names not in the other space. *)
Definition sub_index (a b : space) : list nat :=
  filter (fun i => existsb (fun n => negb (existsb (String.eqb n) (names b)) &&
                                     match index_of n (names a) with Some j => Nat.eqb i j | None => false end)
                           (names a))
         (seq 0 (List.length (data a))).
(** __sub__, 340-351: copies of the variables found. *)
Definition sub_space (h : heap) (a b : space) : heap * space :=
  let '(h1, rs) := copies h (map (fun i => nth i (data a) 0) (sub_index a b)) in set_data h1 rs.
(** __isub__, 356-362 *)
Definition isub_space (h : heap) (a b : space) : heap * space :=
  set_data h (map (fun i => nth i (data a) 0) (sub_index a b)).

(** __add__, 317-329: the left operand is copied, the right one shared. *)
Definition add_space (h : heap) (a b : space) : heap * space :=
  let '(h1, rs) := copies h (data a) in set_data h1 (rs ++ data b).
(** __iadd__, 334-338 *)
Definition iadd_space (h : heap) (a b : space) : heap * space := set_data h (data a ++ data b).
(** concat, 439-447 *)
Definition concat_space (h : heap) (ss : list space) : heap * space :=
  match ss with
  | [s] => (h, s)
  | _ => let '(h1, rs) := copies h (flat_map data ss) in set_data h1 rs
  end.

(** __mul__, 364-382 *)
Definition mul_space (h : heap) (s : space) (N : nat) : heap * space :=
  let '(h1, rs) := copies h (List.concat (repeat (data s) (Nat.max 1 N))) in set_data h1 rs.
(** __imul__, 387-403: range(max(1, int(N - 1))) *)
Definition imul_space (h : heap) (s : space) (N : nat) : heap * space :=
  let '(h1, rs) := copies h (List.concat (repeat (data s) (Nat.max 1 (N - 1)))) in set_data h1 (data s ++ rs).

(** np.nonzero(np.array(l) == np.array(m))[0] for lists of names: elementwise for equal lengths,
    with broadcasting of a list of one name; for other lengths NumPy < 1.25 gives False, i.e. no
    match (later versions raise ValueError). *)
Definition np_match (l m : list string) : list nat :=
  match m with
  | [n] => filter (fun i => String.eqb (nth i l EmptyString) n) (seq 0 (List.length l))
  | _ => match l with
         | [n] => filter (fun i => String.eqb n (nth i m EmptyString)) (seq 0 (List.length m))
         | _ => if Nat.eqb (List.length l) (List.length m)
                then filter (fun i => String.eqb (nth i l EmptyString) (nth i m EmptyString)) (seq 0 (List.length l))
                else []
         end
  end.
(** update, 475-498; [upd] and [new] are the shared and the new names in the order in which Python
    iterates over the two sets.  None: an index error. *)
Definition update_space (h : heap) (a b : space) (upd new : list string) : option (heap * space) :=
  let to := np_match (names a) upd in
  let from := np_match (names b) upd in
  let add := np_match (names b) new in
  if List.length from <? List.length to then None else
  let ps := combine to from in
  let '(h1, cs) := copies h (map (fun p => nth (snd p) (data b) 0) ps) in
  let d := fold_left (fun d q => update_at d (fst (fst q)) (fun _ => snd q)) (combine ps cs) (data a) in
  Some (set_data h1 (d ++ map (fun j => nth j (data b) 0) add)).

(** __getitem__ with a name, 254-256 / 250: the first variable with that cached name; None is the
    IndexError. *)
Definition by_name (h : heap) (s : space) (n : string) : option vobj :=
  option_map (fun i => deref h (nth i (data s) 0)) (index_of n (names s)).
(** No counterpart in the code: the first IndexError ends the comprehension (250). *)
Fixpoint sequence {A} (l : list (option A)) : option (list A) :=
  match l with
  | [] => Some []
  | None :: _ => None
  | Some x :: t => option_map (cons x) (sequence t)
  end.
(** __getitem__ with a list of names *)
Definition select_names (h : heap) (s : space) (ns : list string) : option (heap * space) :=
  option_map (select h s) (sequence (map (fun n => index_of n (names s)) ns)).

(** pop / remove, 449-473: the position is removed and the data set again. *)
Definition remove_at {A} (l : list A) (i : nat) : list A := firstn i l ++ skipn (S i) l.
(** remove, 449-473: by name; None is the exception of an unknown name. *)
Definition remove_name (h : heap) (s : space) (n : string) : option (heap * space) :=
  option_map (fun i => set_data h (remove_at (data s) i)) (index_of n (names s)).

(** __contains__ with a list, 295-296: every entry is tested, a missing variable is an IndexError.
    Some b / None = exception.  (all([...]) evaluates every entry.) *)
Definition contains_list (h : heap) (s : space) (x : list val) : option bool :=
  option_map (forallb (fun b => b))
    (sequence (map (fun p => match nth_error (data s) (fst p) with
                             | Some r => contains (vk (deref h r)) (snd p)
                             | None => None
                             end) (combine (seq 0 (List.length x)) x))).

(** * Indices and masks, 215-232 *)
Definition type_name (k : kind) : string :=
  match k with
  | KReal _ _ _ => "Real" | KInt _ _ _ => "Integer" | KOrdinal _ => "Ordinal"
  | KDiscrete _ => "Discrete" | KBool => "Bool" | KSubset _ => "Subset"
  end.
(** 210: _var_type. *)
Definition types (h : heap) (s : space) : list string := map (fun r => type_name (vk (deref h r))) (data s).
(** 222: the mask of one type. *)
Definition mask (t : string) (h : heap) (s : space) : list bool := map (fun x => String.eqb x t) (types h s).
(** 224: np.nonzero(mask)[0]. *)
Definition nonzero (m : list bool) : list nat := filter (fun i => nth i m false) (seq 0 (List.length m)).
(** No counterpart in the code: a function applied element by element to two lists. *)
Definition map2 {A B C} (f : A -> B -> C) (l : list A) (m : list B) : list C := map (fun p => f (fst p) (snd p)) (combine l m).
(** 215-232: the attributes of the indices and masks. *)
Record index := mkIx {
  real_id : list nat; integer_id : list nat; ordinal_id : list nat; discrete_id : list nat;
  bool_id : list nat; subset_id : list nat; categorical_id : list nat;
  real_mask : list bool; integer_mask : list bool; ordinal_mask : list bool; discrete_mask : list bool;
  bool_mask : list bool; subset_mask : list bool; categorical_mask : list bool }.
(** The third argument of np.bitwise_or is the output array: subset_mask is overwritten with
    discrete | ordinal. *)
Definition set_index (h : heap) (s : space) : index :=
  let m t := mask t h s in let id t := nonzero (m t) in
  let out := map2 orb (m "Discrete"%string) (m "Ordinal"%string) in
  mkIx (id "Real"%string) (id "Integer"%string) (id "Ordinal"%string) (id "Discrete"%string)
       (id "Bool"%string) (id "Subset"%string)
       (id "Discrete"%string ++ id "Ordinal"%string ++ id "Bool"%string ++ id "Subset"%string)
       (m "Real"%string) (m "Integer"%string) (m "Ordinal"%string) (m "Discrete"%string)
       (m "Bool"%string) out (map2 orb (m "Bool"%string) out).

(** * Equality and hash, variable.py:126-134, 199-200, 274-275, 336-337, search_space.py:311-312 *)
Definition opt_eqb {A} (f : A -> A -> bool) (a b : option A) : bool :=
  match a, b with Some x, Some y => f x y | None, None => true | _, _ => false end.
(** The bounds attribute. *)
Definition vbounds (k : kind) : list val :=
  match k with
  | KReal lb ub _ => [VR lb; VR ub]
  | KInt lb ub _ => [VI lb; VI ub]
  | _ => levels k
  end.
(** variable.py:126-134: == of two bounds tuples. *)
Definition tuple_eqb (l m : list val) : bool := val_eqb (VT l) (VT m).
(** variable.py:126-134 __eq__. *)
Definition var_eqb (v w : vobj) : bool :=
  String.eqb (type_name (vk v)) (type_name (vk w)) && tuple_eqb (vbounds (vk v)) (vbounds (vk w)) &&
  opt_eqb val_eqb (vdef v) (vdef w) && String.eqb (vn v) (vn w).
(** The tuple that is hashed: name, bounds, default value and, by type, precision and scale or step.
    None is encoded as the empty tuple. *)
Definition opt_val (o : option val) : val := match o with Some v => VT [v] | None => VT [] end.
(** variable.py:199-200, 274-275, 336-337: the tuple of __hash__. *)
Definition hash_key (v : vobj) : val :=
  VT ([VS (vn v); VT (vbounds (vk v)); opt_val (vdef v)] ++
      match vk v with
      | KReal _ _ p => [opt_val (option_map VI p); VS (vscale v)]
      | KInt _ _ st => [VI st]
      | _ => []
      end).
(** Membership in a Python set: equal hash and ==.  [hash] is Python's hash of tuples. *)
Definition in_set (hash : val -> Z) (v : vobj) (l : list vobj) : bool :=
  existsb (fun w => Z.eqb (hash (hash_key v)) (hash (hash_key w)) && var_eqb v w) l.
(** set(a) == set(b): mutual inclusion. *)
Definition set_eqb (hash : val -> Z) (l m : list vobj) : bool :=
  forallb (fun v => in_set hash v m) l && forallb (fun v => in_set hash v l) m.
(** No counterpart in the code: the variable objects of a space. *)
Definition variables (h : heap) (s : space) : list vobj := map (deref h) (data s).
(** __eq__ of search_space.py:311: the same length and the same set of variables. *)
Definition space_eqb (hash : val -> Z) (h : heap) (a b : space) : bool :=
  Nat.eqb (List.length (data a)) (List.length (data b)) && set_eqb hash (variables h a) (variables h b).
