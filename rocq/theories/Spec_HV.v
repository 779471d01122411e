(** Vocabulary: the measure of the region between a reference point and a set of points
    (maximisation), computed from any grid that contains all the coordinates. *)
From Coq Require Import List Bool Arith ZArith QArith.
Import ListNotations.
Open Scope nat_scope.

(** Consecutive values of a grid line. *)
Definition intervals (G : list Q) : list (Q * Q) := combine G (tl G).
(** The cells of a grid: one interval per objective. *)
Fixpoint cells (Gs : list (list Q)) : list (list (Q * Q)) :=
  match Gs with
  | [] => [[]]
  | G :: Gs => flat_map (fun c => map (cons c) (cells Gs)) (intervals G)
  end.
Definition volume (cell : list (Q * Q)) : Q := fold_right (fun c v => ((snd c - fst c) * v)%Q) 1%Q cell.
(** The cell lies between ref and y. *)
Fixpoint between (ref y : list Q) (cell : list (Q * Q)) : bool :=
  match ref, y, cell with
  | r :: ref, v :: y, c :: cell => Qle_bool r (fst c) && Qle_bool (snd c) v && between ref y cell
  | [], [], [] => true
  | _, _, _ => false
  end.
Definition sumQ (l : list Q) : Q := fold_right Qplus 0%Q l.
(** The measure of the union over y in Y of the boxes between ref and y. *)
Definition measure (Gs : list (list Q)) (ref : list Q) (Y : list (list Q)) : Q :=
  sumQ (map (fun c => if existsb (fun y => between ref y c) Y then volume c else 0%Q) (cells Gs)).

Definition on_line (v : Q) (G : list Q) : Prop := exists g, In g G /\ (g == v)%Q.
Fixpoint ascending (G : list Q) : Prop :=
  match G with a :: (b :: _) as G' => (a < b)%Q /\ ascending G' | _ => True end.
(** A grid for ref and Y: one ascending list of values per objective that contains the
    reference value and the values of all points. *)
Definition grid_for (Gs : list (list Q)) (ref : list Q) (Y : list (list Q)) : Prop :=
  length Gs = length ref /\
  forall k G, nth_error Gs k = Some G ->
    ascending G /\ on_line (nth k ref 0%Q) G /\ forall y, In y Y -> on_line (nth k y 0%Q) G.
