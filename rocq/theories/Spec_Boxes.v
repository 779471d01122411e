(** Vocabulary: points, cells, and what a partition of the non-dominated region is
    (maximisation). *)
From Coq Require Import List Bool Arith ZArith QArith.
From Verif Require Import Model_Boxes.
Import ListNotations.
Open Scope nat_scope.

(** e < q, q <= e *)
Definition above (e : ext) (q : Q) : Prop := match e with NInf => True | Val a => (a < q)%Q | PInf => False end.
Definition upto (q : Q) (e : ext) : Prop := match e with NInf => False | Val a => (q <= a)%Q | PInf => True end.
(** z lies in the cell, which is open below and closed above in every objective. *)
Definition inside (z : list Q) (c : list ext * list ext) : Prop := Forall2 above (fst c) z /\ Forall2 upto z (snd c).
Definition in_exactly_one (z : list Q) (cells : list (list ext * list ext)) : Prop :=
  exists l c r, cells = l ++ c :: r /\ inside z c /\ forall d, In d (l ++ r) -> ~ inside z d.
Definition in_none (z : list Q) (cells : list (list ext * list ext)) : Prop := forall c, In c cells -> ~ inside z c.

(** y is at least as large as z in every objective. *)
Definition covers (y z : list Q) : Prop := Forall2 Qle z y.
Definition dominated_by (Y : list (list Q)) (z : list Q) : Prop := exists y, In y Y /\ covers y z.
Definition strictly_above (ref z : list Q) : Prop := Forall2 Qlt ref z.

(** The cells partition the part of the space above ref that no point of Y dominates. *)
Definition partitions (cells : list (list ext * list ext)) (ref : list Q) (Y : list (list Q)) : Prop :=
  forall z, strictly_above ref z ->
    (dominated_by Y z -> in_none z cells) /\ (~ dominated_by Y z -> in_exactly_one z cells).
(** ... and contain nothing else. *)
Definition nothing_below (cells : list (list ext * list ext)) (ref : list Q) : Prop :=
  forall z, length z = length ref -> ~ strictly_above ref z -> in_none z cells.

(** The contract of torch.max: a position of a largest entry. *)
Definition finds_max (argmax : list nat -> nat) : Prop :=
  forall l, l <> [] -> argmax l < length l /\ forall d, In d l -> d <= nth (argmax l) l 0.
