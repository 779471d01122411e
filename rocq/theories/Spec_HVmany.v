(** Vocabulary: sets of points for which the hypervolume indicator is exact with any number of objectives (C220). *)
From Coq Require Import List Arith ZArith QArith.
Import ListNotations.
Open Scope nat_scope.

(** The points that count: those at least as good as the reference point in every objective. *)
Definition above (ref : list Q) (Y : list (list Q)) (y : list Q) : Prop := In y Y /\ Forall2 Qle ref y.
(** These points are better than the reference point in every objective. *)
Definition inside (ref : list Q) (Y : list (list Q)) : Prop :=
  forall y, In y Y -> Forall2 Qle ref y -> Forall2 (fun r a => (r < a)%Q) ref y.
(** For each objective j from the third to the last but one: when a point is at least as good as a different one in the objectives up to
    the one after j, then their values of objective j are different. *)
Definition separated (Y : list Q -> Prop) : Prop :=
  forall y z, Y y -> Y z -> forall j, 2 <= j -> j + 1 < length y ->
    (forall k, k <= j + 1 -> (nth k z 0 <= nth k y 0)%Q) -> (nth j y 0 == nth j z 0)%Q -> Forall2 Qeq y z.
