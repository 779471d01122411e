(** FastNondominatedPartitioning with two objectives as an object that is updated: box_decomposition.py:81-111, 146-190, 228-277 and
    non_dominated.py:334-443.  Unbatched input, exact arithmetic; torch.argsort is an argument. *)
From Coq Require Import List Bool Arith ZArith QArith.
From Verif Require Import Model_Pareto Model_Boxes Model_Lacour Model_CellVolume.
Import ListNotations.
Open Scope nat_scope.

(** The object: the outcomes, the negated front (sorted, box_decomposition.py:226) and the cells. *)
Record fast2 := Fast2 { g_Y : list vec; g_front : list vec; g_cells : list box }.

Section Two.
  (** torch.argsort of a column. *)
  Variable argsort : list Q -> list nat.

  (** box_decomposition.py:273-277 with non_dominated.py:367-376 (no front) and 413-422 (the front, largest negated value first).
      None: an exception. *)
  Definition fast2_partition (ref : vec) (Y P : list vec) : option fast2 :=
    match P with
    | [] => Some (Fast2 Y P (single_cell ref))
    | _ => option_map (Fast2 Y P) (nd_cells_2d (rev (map (fun p => ((- nth 0 p 0)%Q, (- nth 1 p 0)%Q)) P)) (nth 0 ref 0%Q, nth 1 ref 0%Q))
    end.
  (** box_decomposition.py:81-111, 172-190  reset: nothing is recomputed if torch.equal finds the front unchanged. *)
  Definition fast2_reset (ref : vec) (Y : list vec) (old : option fast2) : option fast2 :=
    let P := neg_front argsort true ref Y in
    match old with
    | Some o => if same_front P (g_front o) then Some (Fast2 Y (g_front o) (g_cells o)) else fast2_partition ref Y P
    | None => fast2_partition ref Y P
    end.
  (** box_decomposition.py:146-158, 228-242  update with two objectives: reset with all outcomes so far.  The constructor called with Y
      is the first update; without Y the object has no outcomes (43-49). *)
  Definition fast2_update (ref : vec) (old : option fast2) (Y : list vec) : option fast2 :=
    match old with
    | None => fast2_reset ref Y None
    | Some o => fast2_reset ref (g_Y o ++ Y) (Some o)
    end.
  (** A sequence of calls of update. *)
  Fixpoint fast2_updates (ref : vec) (old : option fast2) (Ys : list (list vec)) : option fast2 :=
    match Ys with
    | [] => old
    | Y :: Ys => match fast2_update ref old Y with Some o => fast2_updates ref (Some o) Ys | None => None end
    end.
End Two.
(** non_dominated.py:424-443 for the object. *)
Definition fast2_hypervolume (ref : vec) (o : fast2) : option Q := cells_hypervolume ref (g_front o) (g_cells o).
