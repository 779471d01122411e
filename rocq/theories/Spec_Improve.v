(** Vocabulary: how much of a cell an outcome covers (maximisation). *)
From Coq Require Import List Bool Arith ZArith QArith Qminmax.
From Verif Require Import Model_Boxes.
Import ListNotations.
Open Scope nat_scope.

(** The length of the part of the interval from lo (excluded) to hi that lies below y.  No cell of a decomposition is unbounded below:
    such a side has no length. *)
Definition side_gain (lo hi : ext) (y : Q) : option Q :=
  match lo, hi with
  | NInf, _ => None
  | PInf, _ | _, NInf => Some 0%Q
  | Val a, Val b => Some (Qmax 0 (Qmin y b - a))
  | Val a, PInf => Some (Qmax 0 (y - a))
  end.
(** The volume of the part of the cell that lies below the outcome, one side per objective. *)
Fixpoint cell_gain (lo hi : list ext) (y : list Q) : option Q :=
  match lo, hi, y with
  | a :: lo, b :: hi, v :: y => match side_gain a b v, cell_gain lo hi y with Some g, Some p => Some (g * p)%Q | _, _ => None end
  | [], [], [] => Some 1%Q
  | _, _, _ => None
  end.
Fixpoint total_gain (cells : list (list ext * list ext)) (y : list Q) : option Q :=
  match cells with
  | [] => Some 0%Q
  | c :: cells => match cell_gain (fst c) (snd c) y, total_gain cells y with Some g, Some s => Some (g + s)%Q | _, _ => None end
  end.
