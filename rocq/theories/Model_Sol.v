(** Solution sets: bayes_optim/solution.py.
    A numpy array is a reference to a buffer on a heap together with the positions of its
    elements in that buffer, so views share their buffer with the array they were taken from and
    copies get a fresh buffer.  There is one heap per element type. *)
From Coq Require Import Bool Arith ZArith QArith String List Lia.
From Verif Require Import Model_Var Model_Opt.
Import ListNotations.
Open Scope nat_scope.

(** A float of the fitness array; [None] is nan (float(None) under np.asarray(dtype=float)).
    Simplification: infinities and rounding are not modelled. *)
Notation fl := (option Q) (only parsing).

(** Python exceptions raised by the modelled code. *)
Inductive serr :=
| SAssert      (* AssertionError *)
| SIndex       (* IndexError *)
| SType        (* TypeError *)
| SValue       (* ValueError *)
| SUnmodelled. (* numpy features outside of the model *)

Inductive sres (A : Type) := SOk (a : A) | SErr (e : serr).
Arguments SOk {A} a.
Arguments SErr {A} e.

(** No counterpart in the code: an exception ends the computation. *)
Definition sbind {A B} (x : sres A) (f : A -> sres B) : sres B :=
  match x with SOk a => f a | SErr e => SErr e end.
Notation "'slet' p ':=' x 'in' b" := (sbind x (fun p => b)) (at level 200, p pattern, x at level 100, b at level 200).

(** assert b (solution.py:95-130, 146-150). *)
Definition sassert (b : bool) : sres unit := if b then SOk tt else SErr SAssert.

(** The buffers: component values (dtype object), fitness (float), n_eval (int) and labels.
    A label buffer has a fixed width: np.asarray(index, dtype=str) (solution.py:135) has dtype
    "<Uw" with w the length of the longest label. *)
Record heap := mkHeap {
  hx : list (list val);
  hf : list (list (option Q));
  hn : list (list Z);
  hi : list (nat * list string) }.

(** Element positions of a 1-d array, or of a 2-d array row by row with its number of columns. *)
Inductive arr := A1 (ps : list nat) | A2 (rs : list (list nat)) (cols : nat).

(** A Solution: the object array and its attributes.  N and dim are derived from the shape
    (solution.py:86-87, 239-240); verbose is not modelled. *)
Record sol := mkSol {
  xr : nat; xa : arr;             (* the component values *)
  fr : nat; fa : arr;             (* fitness *)
  nr : nat; na : list nat;        (* n_eval *)
  ir : nat; ia : list nat;        (* index *)
  vn : list string;               (* var_name *)
  fnm : list string;              (* fitness_name *)
  nobj : nat }.

(** solution.py:86 *)
Definition sN (s : sol) : nat := match xa s with A1 _ => 1 | A2 rs _ => List.length rs end.
(** solution.py:87 *)
Definition sdim (s : sol) : nat := match xa s with A1 ps => List.length ps | A2 _ c => c end.

(** Reading elements from a buffer (numpy: positions of an array are always in range). *)
Definition read {A} (b : list A) (ps : list nat) : list A :=
  flat_map (fun p => match nth_error b p with Some a => [a] | None => [] end) ps.
(** No counterpart in the code: the contents of a buffer. *)
Definition buf {A} (h : list (list A)) (r : nat) : list A := nth r h [].
(** No counterpart in the code: the contents of a buffer of labels with the width of its dtype. *)
Definition lbuf (h : list (nat * list string)) (r : nat) : nat * list string := nth r h (0, []).

(** Writing one element into a buffer. *)
Fixpoint put {A} (b : list A) (p : nat) (a : A) : list A :=
  match b, p with
  | [], _ => []
  | _ :: t, 0 => a :: t
  | x :: t, S p' => x :: put t p' a
  end.

(** Writing a list of elements at a list of positions. *)
Fixpoint puts {A} (b : list A) (ps : list nat) (l : list A) : list A :=
  match ps, l with
  | p :: ps', a :: l' => puts (put b p a) ps' l'
  | _, _ => b
  end.

(** No counterpart in the code: the positions of all elements of an array, row by row. *)
Definition positions (a : arr) : list nat := match a with A1 ps => ps | A2 rs _ => List.concat rs end.

(** ** Construction (solution.py:23-139) *)

(** The argument x: a flat list of components or a list of rows. *)
Inductive xarg := XRow (x : list val) | XRows (x : list (list val)).

(** An element of the sequence passed as fitness: a number or a list. *)
Inductive fitem := FS (f : option Q) | FL (l : list (option Q)).
(** The argument fitness: something without __iter__ (None or a number) or a sequence. *)
Inductive farg := FScalar (f : option Q) | FSeq (l : list fitem).
(** solution.py:23-58: the argument n_eval. *)
Inductive narg := NScalar (z : Z) | NSeq (l : list Z).
(** solution.py:23-58: the argument index. *)
Inductive iarg := INone | IOne (s : string) | ISeq (l : list string).

(** isinstance(v, tuple). *)
Definition is_tuple (v : val) : bool := match v with VT _ => true | _ => false end.

(** Positions of a freshly allocated array of n rows with c columns. *)
Definition grid_from (k n c : nat) : list (list nat) := map (fun i => seq (k + i * c) c) (seq 0 n).
(** No counterpart in the code: the same from position 0. *)
Definition grid (n c : nat) : list (list nat) := grid_from 0 n c.

(** np.asarray(l, dtype=float) for a sequence of numbers or of lists: 1-d, 2-d, or ValueError
    when the elements are of different shapes. *)
Definition fl_array (l : list fitem) : sres (arr * list (option Q)) :=
  if forallb (fun i => match i with FS _ => true | FL _ => false end) l then
    SOk (A1 (seq 0 (List.length l)), flat_map (fun i => match i with FS f => [f] | FL l => l end) l)
  else
    match l with
    | FL r0 :: _ =>
      let c := List.length r0 in
      if forallb (fun i => match i with FS _ => false | FL r => List.length r =? c end) l then
        SOk (A2 (grid (List.length l) c) c, flat_map (fun i => match i with FS f => [f] | FL l => l end) l)
      else SErr SValue
    | _ => SErr SValue
    end.

(** solution.py:91-101  validation of fitness. *)
Definition check_fitness (N n_obj : nat) (f : farg) : sres (list fitem) :=
  slet f' :=
    (if 1 <? n_obj then
       slet f1 :=
         (match f with
          | FScalar v => SOk (repeat (FL (repeat v n_obj)) N)                     (* 92-93 *)
          | FSeq [] => SErr SIndex                                                (* 94: fitness[0] *)
          | FSeq (FS v :: t) =>                                                   (* 94-96 *)
            if List.length (FS v :: t) =? n_obj then
              (if forallb (fun i => match i with FS _ => true | FL _ => false end) t then
                 SOk (repeat (FL (flat_map (fun i => match i with FS f => [f] | FL l => l end) (FS v :: t))) N)
               else SErr SValue)
            else SErr SAssert
          | FSeq l => SOk l
          end) in
       if forallb (fun i => match i with FL _ => true | FS _ => false end) f1 then
         (slet _ := sassert (forallb (fun i => match i with FL r => List.length r =? n_obj | FS _ => false end) f1) in
          SOk f1)                                                                 (* 97 *)
       else SErr SType
     else if n_obj =? 1 then
       SOk (match f with FScalar v => repeat (FS v) N | FSeq l => l end)          (* 98-100 *)
     else match f with FScalar _ => SErr SType | FSeq l => SOk l end) in
  slet _ := sassert (List.length f' =? N) in                                      (* 101 *)
  SOk f'.

Definition str_width (l : list string) : nat := fold_right (fun s w => Nat.max (String.length s) w) 1 l.

(** solution.py:74-81  the object array.  A row whose first component is a tuple goes through
    the branches 74-79: the second of these indexes a 1-d array with two indices and raises.
    Simplification: rows of different lengths are rejected with ValueError (numpy builds a 1-d
    array of lists, which then fails most of the length checks). *)
Definition x_array (x : xarg) : sres (arr * list val) :=
  match x with
  | XRow [] => SErr SIndex                                   (* x[0] *)
  | XRow (v :: t) =>
    if is_tuple v then SErr SIndex                           (* 77-79 *)
    else SOk (A1 (seq 0 (S (List.length t))), v :: t)
  | XRows [] => SErr SIndex                                  (* x[0] *)
  | XRows ([] :: _) => SErr SIndex                           (* x[0][0] *)
  | XRows ((v :: t) :: rest) =>
    let c := S (List.length t) in
    if forallb (fun r => List.length r =? c) rest
    then SOk (A2 (grid (S (List.length rest)) c) c, List.concat ((v :: t) :: rest))
    else SErr SValue
  end.

(** solution.py:23-139  Solution.__new__ *)
Definition new (h : heap) (x : xarg) (fitness : farg) (n_eval : narg) (index : iarg)
  (var_name : option (list string)) (fitness_name : option (list string)) (n_obj : nat) : sres (sol * heap) :=
  slet (ax, bx) := x_array x in
  let N := match ax with A1 _ => 1 | A2 rs _ => List.length rs end in
  let dim := match ax with A1 ps => List.length ps | A2 _ c => c end in
  slet f := check_fitness N n_obj fitness in
  let n := match n_eval with NScalar z => repeat z N | NSeq l => l end in        (* 103-107: no length check *)
  let i := match index with INone => map str_nat (seq 0 N) | IOne s => [s] | ISeq l => l end in
  slet _ := sassert (List.length i =? N) in                                       (* 113 *)
  let v := match var_name with
           | Some l => l
           | None => if dim =? 1 then ["x"%string]
                     else map (fun i => String.append "x" (str_nat i)) (seq 0 dim)
           end in
  slet _ := sassert (List.length v =? dim) in                                     (* 120 *)
  let g := match fitness_name with
           | Some l => l
           | None => if n_obj =? 1 then ["f"%string]
                     else map (fun i => String.append "f" (str_nat i)) (seq 0 n_obj)
           end in
  slet _ := sassert (List.length g =? n_obj) in                                   (* 130 *)
  slet (af, bf) := fl_array f in                                                  (* 133 *)
  SOk (mkSol (List.length (hx h)) ax (List.length (hf h)) af
             (List.length (hn h)) (seq 0 (List.length n))
             (List.length (hi h)) (seq 0 (List.length i)) v g n_obj,
       mkHeap (hx h ++ [bx]) (hf h ++ [bf]) (hn h ++ [n]) (hi h ++ [(str_width i, i)])).

(** ** Indexing (solution.py:207-242) *)

Inductive sel :=
| SInt (i : Z)                              (* int, np.int_ *)
| SSlice (start stop step : option Z)       (* a:b:c *)
| SList (l : list Z)                        (* list or array of ints *)
| SMask (l : list bool).                    (* boolean array *)
Inductive idx := Rows (r : sel) | RowCol (r c : sel).

(** CPython's PySlice_AdjustIndices: the positions selected by a slice of a sequence of length n. *)
Definition adjust (n lo hi x : Z) : Z :=
  (if x <? 0 then (if x + n <? lo then lo else x + n) else if hi <? x then hi else x)%Z.
(** solution.py:207-242: the positions selected by a slice of a sequence of length n, or the ValueError of a zero step. *)
Definition slice_positions (n : nat) (start stop step : option Z) : sres (list nat) :=
  let len := Z.of_nat n in
  let st := match step with Some s => s | None => 1%Z end in
  if (st =? 0)%Z then SErr SValue
  else if (0 <? st)%Z then
    let a := match start with Some x => adjust len 0 len x | None => 0%Z end in
    let b := match stop with Some x => adjust len 0 len x | None => len end in
    let cnt := if (a <? b)%Z then Z.to_nat ((b - a - 1) / st + 1) else 0 in
    SOk (map (fun k => Z.to_nat (a + Z.of_nat k * st)) (seq 0 cnt))
  else
    let a := match start with Some x => adjust len (-1) (len - 1) x | None => (len - 1)%Z end in
    let b := match stop with Some x => adjust len (-1) (len - 1) x | None => (-1)%Z end in
    let cnt := if (b <? a)%Z then Z.to_nat ((a - b - 1) / (- st) + 1) else 0 in
    SOk (map (fun k => Z.to_nat (a + Z.of_nat k * st)) (seq 0 cnt)).

(** One integer index: negative ones count from the end, anything else raises IndexError. *)
Definition int_position (n : nat) (i : Z) : sres nat :=
  (if (i <? - Z.of_nat n) || (Z.of_nat n <=? i) then SErr SIndex
   else SOk (Z.to_nat (if i <? 0 then i + Z.of_nat n else i)))%Z.

(** No counterpart in the code: map, up to the first exception. *)
Fixpoint smapM {A B} (f : A -> sres B) (l : list A) : sres (list B) :=
  match l with
  | [] => SOk []
  | a :: t => slet b := f a in slet bs := smapM f t in SOk (b :: bs)
  end.

(** Positions where a mask is true. *)
Definition mask_positions (l : list bool) : list nat :=
  map fst (filter snd (combine (seq 0 (List.length l)) l)).

(** The positions selected along one axis of length n; numpy drops the axis for an int. *)
Definition sel_positions (n : nat) (c : sel) : sres (list nat) :=
  match c with
  | SInt i => slet p := int_position n i in SOk [p]
  | SSlice a b s => slice_positions n a b s
  | SList l => smapM (int_position n) l
  | SMask l => if List.length l =? n then SOk (mask_positions l) else SErr SIndex
  end.

(** isinstance(_, (int, np.int_)) of solution.py:225. *)
Definition is_int (c : sel) : bool := match c with SInt _ => true | _ => false end.
(** Advanced indexing returns a copy, basic indexing a view. *)
Definition is_fancy (c : sel) : bool := match c with SList _ | SMask _ => true | _ => false end.

(** Elements of a list at given positions. *)
Definition pick {A} (l : list A) (ps : list nat) : list A := read l ps.

(** slice(None), the column index that was not given (solution.py:207-242). *)
Definition all_cols : sel := SSlice None None None.

(** solution.py:225  `_ = slice(_, _ + 1) if isinstance(_, (int, np.int_)) else _` *)
Definition attr_sel (r : sel) : sel := match r with SInt i => SSlice (Some i) (Some (i + 1)%Z) None | _ => r end.

(** solution.py:207-216  the index handed to ndarray.__getitem__: an int column with non-int
    rows becomes a slice. *)
Definition norm_cols (r c : sel) : sel :=
  match c with
  | SInt j => if is_int r then c else SSlice (Some j) (Some (j + 1)%Z) None
  | _ => c
  end.

(** Result of indexing: an element or a Solution. *)
Inductive item := Elem (v : val) | Sub (s : sol).

(** Copy the selected elements of a 1-d attribute into a fresh buffer when the row index is
    advanced, take a view otherwise. *)
Definition take1 {A} (h : list (list A)) (r : nat) (ps : list nat) (copy : bool) : nat * list nat * list (list A) :=
  if copy then (List.length h, seq 0 (List.length ps), h ++ [read (buf h r) ps]) else (r, ps, h).
(** solution.py:207-242: the same for the fitness, which is 1-d or 2-d. *)
Definition take_arr {A} (h : list (list A)) (r : nat) (a : arr) (copy : bool) : nat * arr * list (list A) :=
  if copy then
    match a with
    | A1 ps => (List.length h, A1 (seq 0 (List.length ps)), h ++ [read (buf h r) ps])
    | A2 rs c => (List.length h, A2 (grid (List.length rs) c) c, h ++ [read (buf h r) (List.concat rs)])
    end
  else (r, a, h).
(** solution.py:207-242: the same for the labels. *)
Definition take_lab (h : list (nat * list string)) (r : nat) (ps : list nat) (copy : bool) :
  nat * list nat * list (nat * list string) :=
  if copy then (List.length h, seq 0 (List.length ps), h ++ [(fst (lbuf h r), read (snd (lbuf h r)) ps)])
  else (r, ps, h).

(** solution.py:207-242: the selected rows of an attribute. *)
Definition pick_arr (a : arr) (ps : list nat) : arr :=
  match a with A1 l => A1 (pick l ps) | A2 rs c => A2 (pick rs ps) c end.
(** fitness.ravel() *)
Definition ravel (a : arr) : arr := A1 (positions a).
(** len of an attribute. *)
Definition attr_len (a : arr) : nat := match a with A1 ps => List.length ps | A2 rs _ => List.length rs end.

(** solution.py:207-242 __getitem__. *)
Definition getitem (h : heap) (s : sol) (i : idx) : sres (item * heap) :=
  match xa s with
  | A1 ps =>
    match i with
    | RowCol _ _ => SErr SIndex                                   (* too many indices *)
    | Rows (SInt j) =>
      slet p := int_position (List.length ps) j in
      match read (buf (hx h) (xr s)) (pick ps [p]) with
      | v :: _ => SOk (Elem v, h)
      | [] => SErr SIndex
      end
    | Rows r =>
      slet qs := sel_positions (List.length ps) r in
      let '(x', a', hx') := take_arr (hx h) (xr s) (A1 (pick ps qs)) (is_fancy r) in
      slet vs := sel_positions (List.length (vn s)) r in
      SOk (Sub (mkSol x' a' (fr s) (fa s) (nr s) (na s) (ir s) (ia s) (pick (vn s) vs) (fnm s) (nobj s)),
           mkHeap hx' (hf h) (hn h) (hi h))                       (* 226-227: attributes shared *)
    end
  | A2 rs c =>
    let '(r, cs) := match i with Rows r => (r, all_cols) | RowCol r c => (r, norm_cols r c) end in
    if is_fancy r && is_fancy cs then SErr SUnmodelled
    else
      slet qs := sel_positions (List.length rs) r in
      slet ks := sel_positions c cs in
      let copyx := is_fancy r || is_fancy cs in
      let sub := map (fun row => pick row ks) (pick rs qs) in
      if is_int r && is_int cs then
        match read (buf (hx h) (xr s)) (List.concat sub) with
        | v :: _ => SOk (Elem v, h)
        | [] => SErr SIndex
        end
      else
        let ax := if is_int r then A1 (List.concat sub) else A2 sub (List.length ks) in
        let '(x', ax', hx') := take_arr (hx h) (xr s) ax copyx in
        let cp := is_fancy r in
        slet fq := sel_positions (attr_len (fa s)) (attr_sel r) in          (* 230 *)
        let af := pick_arr (fa s) fq in
        let af := if is_int r then ravel af else af in                      (* 231-232 *)
        let '(f', af', hf') := take_arr (hf h) (fr s) af cp in
        slet nq := sel_positions (List.length (na s)) (attr_sel r) in       (* 235 *)
        let '(n', an', hn') := take1 (hn h) (nr s) (pick (na s) nq) cp in
        slet iq := sel_positions (List.length (ia s)) (attr_sel r) in       (* 236 *)
        let '(i', ai', hi') := take_lab (hi h) (ir s) (pick (ia s) iq) cp in
        slet vq := sel_positions (List.length (vn s)) cs in                 (* 237 *)
        SOk (Sub (mkSol x' ax' f' af' n' an' i' ai' (pick (vn s) vq) (fnm s) (nobj s)),
             mkHeap hx' hf' hn' hi')
  end.

(** ** Assigning attributes (solution.py:183-188: `attr[:] = value`, numpy broadcasting) *)

Inductive wval (A : Type) := WScalar (a : A) | WVec (l : list A) | WMat (rs : list (list A)).
Arguments WScalar {A} a.
Arguments WVec {A} l.
Arguments WMat {A} rs.

(** Broadcasting a list to length n. *)
Definition bvec {A} (n : nat) (l : list A) : sres (list A) :=
  if List.length l =? n then SOk l
  else match l with [a] => SOk (repeat a n) | _ => SErr SValue end.

(** The elements written into a 1-d target of length n. *)
Definition bcast1 {A} (n : nat) (w : wval A) : sres (list A) :=
  match w with
  | WScalar a => SOk (repeat a n)
  | WVec l => bvec n l
  | WMat [l] => bvec n l
  | WMat _ => SErr SValue
  end.
(** The rows written into a 2-d target with n rows and c columns. *)
Definition bcast2 {A} (n c : nat) (w : wval A) : sres (list (list A)) :=
  match w with
  | WScalar a => SOk (repeat (repeat a c) n)
  | WVec l => slet r := bvec c l in SOk (repeat r n)
  | WMat rs => slet rs' := bvec n rs in smapM (bvec c) rs'
  end.

(** No counterpart in the code: replace the contents of a buffer. *)
Definition set_buf {A} (h : list (list A)) (r : nat) (b : list A) : list (list A) := put h r b.

(** solution.py:183-188 __setattr__ for the fitness: self.fitness[...] = value. *)
Definition set_fitness (h : heap) (s : sol) (w : wval (option Q)) : sres heap :=
  slet l := (match fa s with
             | A1 ps => bcast1 (List.length ps) w
             | A2 rs c => slet r := bcast2 (List.length rs) c w in SOk (List.concat r)
             end) in
  SOk (mkHeap (hx h) (set_buf (hf h) (fr s) (puts (buf (hf h) (fr s)) (positions (fa s)) l)) (hn h) (hi h)).

(** solution.py:183-188 __setattr__ for n_eval. *)
Definition set_n_eval (h : heap) (s : sol) (w : wval Z) : sres heap :=
  slet l := bcast1 (List.length (na s)) w in
  SOk (mkHeap (hx h) (hf h) (set_buf (hn h) (nr s) (puts (buf (hn h) (nr s)) (na s) l)) (hi h)).

(** s.n_eval += z: the array is incremented in place and assigned to itself. *)
Definition add_n_eval (h : heap) (s : sol) (z : Z) : sres heap :=
  set_n_eval h s (WVec (map (fun n => (n + z)%Z) (read (buf (hn h) (nr s)) (na s)))).

(** Assigning to an array of dtype "<Uw" keeps the first w characters. *)
Fixpoint truncate (w : nat) (s : string) : string :=
  match w, s with
  | S w', String a t => String a (truncate w' t)
  | _, _ => EmptyString
  end.
(** solution.py:183-188 __setattr__ for the labels. *)
Definition set_index (h : heap) (s : sol) (w : wval string) : sres heap :=
  slet l := bcast1 (List.length (ia s)) w in
  let '(k, b) := lbuf (hi h) (ir s) in
  SOk (mkHeap (hx h) (hf h) (hn h) (put (hi h) (ir s) (k, puts b (ia s) (map (truncate k) l)))).

(** ndarray.__setitem__ with a full slice on the component values. *)
Definition set_x (h : heap) (s : sol) (w : wval val) : sres heap :=
  slet l := (match xa s with
             | A1 ps => bcast1 (List.length ps) w
             | A2 rs c => slet r := bcast2 (List.length rs) c w in SOk (List.concat r)
             end) in
  SOk (mkHeap (set_buf (hx h) (xr s) (puts (buf (hx h) (xr s)) (positions (xa s)) l)) (hf h) (hn h) (hi h)).

(** ** Concatenation and replication (solution.py:141-181) *)

Definition same_set (a b : list string) : bool :=
  forallb (fun x => existsb (String.eqb x) b) a && forallb (fun x => existsb (String.eqb x) a) b.

(** solution.py:152-153  tolist, as a list of rows. *)
Definition row_list (h : heap) (s : sol) : list (list val) :=
  match xa s with
  | A1 ps => [read (buf (hx h) (xr s)) ps]
  | A2 rs _ => map (read (buf (hx h) (xr s))) rs
  end.
(** fitness.tolist() *)
Definition fit_list (h : heap) (s : sol) : list fitem :=
  match fa s with
  | A1 ps => map FS (read (buf (hf h) (fr s)) ps)
  | A2 rs _ => map (fun r => FL (read (buf (hf h) (fr s)) r)) rs
  end.
(** n_eval.tolist() *)
Definition n_list (h : heap) (s : sol) : list Z := read (buf (hn h) (nr s)) (na s).
(** index.tolist() *)
Definition i_list (h : heap) (s : sol) : list string := read (snd (lbuf (hi h) (ir s))) (ia s).

(** solution.py:144-163  __add__ (and __iadd__ 141-142) *)
Definition sadd (h : heap) (a b : sol) : sres (sol * heap) :=
  slet _ := sassert (sdim a =? sdim b) in                       (* 147 *)
  slet _ := sassert (nobj a =? nobj b) in                       (* 148 *)
  slet _ := sassert (same_set (fnm a) (fnm b)) in               (* 149 *)
  slet _ := sassert (same_set (vn a) (vn b)) in                 (* 150 *)
  new h (XRows (row_list h a ++ row_list h b)) (FSeq (fit_list h a ++ fit_list h b))
      (NSeq (n_list h a ++ n_list h b)) (ISeq (i_list h a ++ i_list h b))
      (Some (vn a)) (Some (fnm a)) (nobj a).

(** solution.py:165-178  __mul__.  [self.tolist()] is a list of one row for 1-d solutions.
    Simplification: for a 2-d solution with a single row the nested list is 3-d and raises
    (solution.py:83-84); a negative N behaves as 0 in Python's list replication. *)
Definition smul (h : heap) (a : sol) (N : nat) : sres (sol * heap) :=
  match xa a with
  | A2 _ _ => SErr SValue                                       (* 168-169, or 83-84 *)
  | A1 ps =>
    new h (XRows (repeat (read (buf (hx h) (xr a)) ps) N))
        (FSeq (List.concat (repeat (fit_list h a) N))) (NSeq (List.concat (repeat (n_list h a) N)))
        INone (Some (vn a)) (Some (fnm a)) (nobj a)
  end.

(** ** Dictionaries (solution.py:267-282, 293-328) *)

(** Python dict with insertion order. *)
Fixpoint dput {A} (d : list (string * A)) (k : string) (v : A) : list (string * A) :=
  match d with
  | [] => [(k, v)]
  | (k', v') :: t => if String.eqb k' k then (k', v) :: t else (k', v') :: dput t k v
  end.
(** A Python dict built from its items. *)
Definition mk_dict {A} (l : list (string * A)) : list (string * A) :=
  fold_left (fun d p => dput d (fst p) (snd p)) l [].

(** solution.py:310, 315  the dictionary of one row. *)
Definition row_dict (s : sol) (r : list val) : list (string * val) := mk_dict (combine (vn s) r).

(** solution.py:306-319  to_dict(orient="index", with_index=False); one dictionary per label
    (enumerate(self.index)), a single one for 1-d solutions. *)
Inductive dictform := DOne (d : list (string * val)) | DMany (l : list (list (string * val))).
(** solution.py:293-328 to_dict(orient=index, with_index=False). *)
Definition to_dict (h : heap) (s : sol) : sres dictform :=
  let rows := row_list h s in
  if List.length rows <? List.length (ia s) then SErr SIndex
  else
    let ds := map (row_dict s) (firstn (List.length (ia s)) rows) in
    match xa s with
    | A1 _ => match ds with d :: _ => SOk (DOne d) | [] => SErr SIndex end
    | A2 _ _ => SOk (DMany ds)
    end.

(** solution.py:308-312  to_dict(orient="index", with_index=True). *)
Definition to_dict_labelled (h : heap) (s : sol) : list (string * list (string * val)) :=
  mk_dict (combine (i_list h s) (map (row_dict s) (row_list h s))).

(** solution.py:327  to_dict(orient="var", with_index=False). *)
Definition to_dict_var (h : heap) (s : sol) : list (string * list val) :=
  mk_dict (combine (vn s)
    (map (fun k => flat_map (fun r => match nth_error r k with Some v => [v] | None => [] end) (row_list h s))
         (seq 0 (List.length (vn s))))).

(** solution.py:322-325  to_dict(orient="var", with_index=True). *)
Definition to_dict_var_labelled (h : heap) (s : sol) : list (string * list (string * val)) :=
  mk_dict (combine (vn s)
    (map (fun k => mk_dict (combine (i_list h s) (flat_map (fun r => match nth_error r k with Some v => [v] | None => [] end) (row_list h s))))
         (seq 0 (List.length (vn s))))).

(** solution.py:267-282  from_dict: keys of the first dictionary, values by position. *)
Definition from_dict (h : heap) (d : dictform) : sres (sol * heap) :=
  match d with
  | DOne d => new h (XRow (map snd d)) (FScalar None) (NScalar 0) INone (Some (map fst d)) None 1
  | DMany [] => SErr SIndex
  | DMany (d :: t) =>
    new h (XRows (map (map snd) (d :: t))) (FScalar None) (NScalar 0) INone (Some (map fst d)) None 1
  end.

(** ** unique (solution.py:284-288) *)

Section Unique.
  (** str() of a component value, used by numpy when a column of strings is present. *)
  Variable str_of : val -> string.

  (** np.asarray(rows) turns every component into a string as soon as one is a string, and
      compares numbers by value otherwise.  Simplification: ints above 2^53 stay exact. *)
  Definition has_str (rows : list (list val)) : bool :=
    existsb (existsb (fun v => match v with VS _ => true | _ => false end)) rows.
  (** solution.py:284-288: equality of two components in np.unique. *)
  Definition np_eqb (rows : list (list val)) (a b : val) : bool :=
    if has_str rows then String.eqb (str_of a) (str_of b) else val_eqb a b.

  (** solution.py:284-288: equality of two rows in np.unique. *)
  Fixpoint row_eqb (eqb : val -> val -> bool) (a b : list val) : bool :=
    match a, b with
    | [], [] => true
    | x :: a', y :: b' => eqb x y && row_eqb eqb a' b'
    | _, _ => false
    end.

  (** np.sort of np.unique(..., axis=0, return_index=True)[1]: the index of the first occurrence
      of each distinct row, increasing (numpy's documented contract). *)
  Fixpoint first_rows (eqb : list val -> list val -> bool) (seen rows : list (list val)) (k : nat) : list nat :=
    match rows with
    | [] => []
    | r :: t => if existsb (eqb r) seen then first_rows eqb seen t (S k)
                else k :: first_rows eqb (r :: seen) t (S k)
    end.

  (** Simplification: rows containing tuples raise (np.unique on ragged rows). *)
  Definition unique (h : heap) (s : sol) : sres (item * heap) :=
    match xa s with
    | A1 _ => SOk (Sub s, h)
    | A2 _ _ =>
      let rows := row_list h s in
      if existsb (existsb is_tuple) rows then SErr SValue
      else getitem h s (Rows (SList (map Z.of_nat (first_rows (row_eqb (np_eqb rows)) [] rows 0))))
    end.
End Unique.
