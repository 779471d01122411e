(** FastPartitioning and FastNondominatedPartitioning for three and more objectives: box_decompositions/utils.py:97-211,
    box_decomposition.py:203-330 and non_dominated.py:334-443.  Unbatched input only; a tensor is a list of rows, the tensors
    U (n x m) and Z (n x m x m) are one list of pairs of a row of U and a matrix of Z. *)
From Coq Require Import List Bool Arith ZArith QArith.
From Verif Require Import Model_Pareto Model_Boxes.
Import ListNotations.
Open Scope nat_scope.

Section Bounds.
  (** The numbers and their order; [d] is never read (default of [nth]). *)
  Variable E : Type.
  Variable leb : E -> E -> bool.
  Variable d : E.
  Notation row := (list E).
  Notation zones := (list (row * list row)).

  Definition entry (v : row) (j : nat) : E := nth j v d.
  (** a > b. *)
  Definition gtb (a b : E) : bool := negb (leb a b).
  (** No counterpart in the code: a list with one entry replaced (Z_i[j] = ... of utils.py:97-155). *)
  Fixpoint replace_at {T} (j : nat) (a : T) (l : list T) : list T :=
    match l, j with
    | [], _ => []
    | _ :: l, O => a :: l
    | b :: l, S j => b :: replace_at j a l
    end.
  (** Tensor.max; None: an empty dimension raises. *)
  Definition max_of (l : list E) : option E :=
    match l with [] => None | a :: l => Some (fold_left (fun a b => if leb a b then b else a) l a) end.

  (** utils.py:116  (U > z).all(dim=-1) for one row *)
  Definition contains (m : nat) (z : row) (uZ : row * list row) : bool :=
    forallb (fun j => gtb (entry (fst uZ) j) (entry z j)) (seq 0 m).
  (** utils.py:128-129  Z[:, mask, j].max and the comparison with z[j] *)
  Definition add_z (m : nat) (z : row) (j : nat) (uZ : row * list row) : bool :=
    match max_of (map (fun k => entry (nth k (snd uZ) []) j) (filter (fun k => negb (k =? j)) (seq 0 m))) with
    | Some M => leb M (entry z j)
    | None => false
    end.
  (** utils.py:131-141  the row with its j-th entry replaced by that of z and its j-th defining point by z.  Z_ku[lt_zj]
      selects everything: add_z says that all entries are at most z[j]. *)
  Definition child (z : row) (j : nat) (uZ : row * list row) : row * list row :=
    (replace_at j (entry z j) (fst uZ), replace_at j z (snd uZ)).
  (** utils.py:97-154  compute_local_upper_bounds; None: with one objective the maximum of an empty dimension raises. *)
  Definition compute_local_upper_bounds (m : nat) (L : zones) (z : row) : option zones :=
    let A := filter (contains m z) L in
    match A with
    | [] => Some L
    | _ => if m <? 2 then None
           else Some (filter (fun uZ => negb (contains m z uZ)) L ++ flat_map (fun j => map (child z j) (filter (add_z m z j) A)) (seq 0 m))
    end.
  (** utils.py:190-211  update_local_upper_bounds_incremental *)
  Fixpoint update_bounds (m : nat) (L : zones) (zs : list row) : option zones :=
    match zs with
    | [] => Some L
    | z :: zs => match compute_local_upper_bounds m L z with Some L' => update_bounds m L' zs | None => None end
    end.
  (** The initial zone: U is [top], and the j-th defining point is [low] but for its j-th entry, which is that of [top]
      (box_decomposition.py:293-304, non_dominated.py:388-399). *)
  Definition initial (m : nat) (low top : row) : zones :=
    [(top, map (fun j => replace_at j (entry top j) low) (seq 0 m))].
  (** utils.py:157-187  get_partition_bounds; the first component of a cell is its lower vertex *)
  Definition lower_of (m : nat) (Z : list row) : row :=
    entry (nth 0 Z []) 0 ::
    map (fun j => match max_of (map (fun k => entry (nth k Z []) j) (seq 0 j)) with Some M => M | None => d end) (seq 1 (m - 1)).
  (** utils.py:157-187: the upper vertex of the cell of a local upper bound. *)
  Definition upper_of (m : nat) (ref u : row) : row := entry ref 0 :: map (entry u) (seq 1 (m - 1)).
  (** utils.py:157-187: the cells that are not empty. *)
  Definition partition_bounds (m : nat) (ref : row) (L : zones) : list (row * row) :=
    filter (fun c => negb (existsb (fun j => leb (entry (snd c) j) (entry (fst c) j)) (seq 0 m)))
      (map (fun uZ => (lower_of m (snd uZ), upper_of m ref (fst uZ))) L).
End Bounds.

(** Floats with infinities. *)
Definition eleb (a b : ext) : bool :=
  match a, b with
  | NInf, _ | _, PInf => true
  | _, NInf | PInf, _ => false
  | Val a, Val b => Qle_bool a b
  end.

(** box_decomposition.py:279-313  FastPartitioning._partition_space: the local upper bounds of the negated front [P] *)
Definition first_zones (ref : vec) (P : list vec) : option (list (list ext * list (list ext))) :=
  let m := length ref in
  let top := map (fun r => Val (- r)%Q) ref in
  update_bounds ext eleb NInf m (initial ext NInf m (repeat NInf m) top) (map (map Val) P).
(** non_dominated.py:378-411  FastNondominatedPartitioning._get_partitioning *)
Definition second_cells (ref : vec) (L : list (list ext * list (list ext))) : option (list box) :=
  let m := length ref in
  let top := repeat PInf m in
  option_map (partition_bounds ext eleb NInf m top)
    (update_bounds ext eleb NInf m (initial ext NInf m (map Val ref) top) (map (fun uZ => map eopp (fst uZ)) L)).

(** The object: the outcomes, the negated front, U and Z (None before the first _partition_space), and the cells. *)
Record fast := Fast { f_Y : list vec; f_front : list vec; f_zones : option (list (list ext * list (list ext))); f_cells : list box }.
(** non_dominated.py:367-376  _get_single_cell *)
Definition single_cell (ref : vec) : list box := [(map Val ref, repeat PInf (length ref))].
(** box_decomposition.py:273-277 with 113-121, three and more objectives.  None: an exception. *)
Definition fast_partition (ref : vec) (Y P : list vec) (old : option (list (list ext * list (list ext)))) : option fast :=
  match P with
  | [] => Some (Fast Y P old (single_cell ref))
  | _ => match first_zones ref P with
         | Some L => option_map (Fast Y P (Some L)) (second_cells ref L)
         | None => None
         end
  end.
(** box_decomposition.py:81-111, 172-190  reset; the front is sorted for two objectives only (226) *)
Definition fast_reset (ref : vec) (Y : list vec) (old : option fast) : option fast :=
  let P := neg_front (fun _ => []) false ref Y in
  match old with
  | Some o => if same_front P (f_front o) then Some (Fast Y (f_front o) (f_zones o) (f_cells o)) else fast_partition ref Y P (f_zones o)
  | None => fast_partition ref Y P None
  end.
(** mask[-n:] *)
Definition last_rows {A} (n : nat) (l : list A) : list A := if n =? 0 then l else skipn (length l - n) l.
(** box_decomposition.py:146-158, 228-263  update, for three and more objectives; the constructor called with Y is the first update *)
Definition fast_update (ref : vec) (old : option fast) (Y : list vec) : option fast :=
  match old with
  | None => fast_reset ref Y None
  | Some o =>
    let Yall := f_Y o ++ Y in
    match f_front o, f_zones o with
    | [], _ | _, None => fast_reset ref Yall (Some o)
    | _, Some L =>
      let Y' := filter (fun y => all2 (fun a r => Qltb r a) y ref) Y in
      let C := f_front o ++ map (map Qopp) Y' in
      let mask := is_non_dominated (map (map Qopp) C) true in
      let num_new := length (filter (fun b => b) (last_rows (length Y') mask)) in
      let P := map fst (filter snd (combine C mask)) in
      if 0 <? num_new then
        match update_bounds ext eleb NInf (length ref) L (map (map Val) (last_rows num_new P)) with
        | Some L' => option_map (Fast Yall P (Some L')) (second_cells ref L')
        | None => None
        end
      else Some (Fast Yall P (Some L) (f_cells o))
    end
  end.
(** A sequence of calls of update. *)
Fixpoint fast_updates (ref : vec) (old : option fast) (Ys : list (list vec)) : option fast :=
  match Ys with
  | [] => old
  | Y :: Ys => match fast_update ref old Y with Some o => fast_updates ref (Some o) Ys | None => None end
  end.
(** FastNondominatedPartitioning(ref, Y).get_hypercell_bounds() *)
Definition fast_partitioning (ref : vec) (Y : list vec) : option (list box) := option_map f_cells (fast_update ref None Y).
