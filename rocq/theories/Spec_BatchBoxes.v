(** Vocabulary: batches of sets of outcomes (C264, C265). *)
From Coq Require Import List Arith QArith.
From Verif Require Import Model_Boxes Spec_Boxes Spec_HV.
Import ListNotations.
Open Scope nat_scope.

(** b sets with the same number of points, each with two objectives (a tensor b x n x 2). *)
Definition tensor (b : nat) (B : list (list (list Q))) : Prop :=
  length B = b /\ (exists n, forall Y, In Y B -> length Y = n) /\ (forall Y y, In Y B -> In y Y -> length y = 2).
(** All outcomes of set i passed in a sequence of calls. *)
Definition outcomes (i : nat) (Bs : list (list (list (list Q)))) : list (list Q) := concat (map (fun B => nth i B []) Bs).
(** A tensor of cells and one of volumes, for b sets: the cells of set i partition what its outcomes do not dominate above its reference
    point ref i, its volume is that of what they dominate, and all sets have the same number of cells. *)
Definition decomposed (b : nat) (ref : nat -> list Q) (Bs : list (list (list (list Q)))) (cells : list (list (list ext * list ext))) (hv : list Q) : Prop :=
  length cells = b /\ length hv = b /\ (exists n, forall c, In c cells -> length c = n) /\
  forall i, i < b -> partitions (nth i cells []) (ref i) (outcomes i Bs) /\ nothing_below (nth i cells []) (ref i) /\
    forall Gs, grid_for Gs (ref i) (outcomes i Bs) -> (nth i hv 0 == measure Gs (ref i) (outcomes i Bs))%Q.
(** Some outcome is better than the reference point of its set in both objectives. *)
Definition some_better (b : nat) (ref : nat -> list Q) (B : list (list (list Q))) : Prop :=
  exists i y, i < b /\ In y (nth i B []) /\ strictly_above (ref i) y.
