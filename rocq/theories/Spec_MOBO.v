(** Vocabulary: dominance in the user's orientation, and the accounting of evaluations. *)
From Coq Require Import List Bool Arith ZArith QArith.
From Verif Require Import Model_MOBO.
Import ListNotations.
Open Scope nat_scope.

(** a is at least as good as b for an objective that is minimised (mn) or maximised. *)
Definition at_least_as_good (mn : bool) (a b : Q) : Prop := if mn then (a <= b)%Q else (b <= a)%Q.
Definition better (mn : bool) (a b : Q) : Prop := if mn then (a < b)%Q else (b < a)%Q.
(** p is at least as good as q in all objectives and better in one. *)
Definition beats (minimize : list bool) (p q : list Q) : Prop :=
  (forall j mn, nth_error minimize j = Some mn -> at_least_as_good mn (nth j p 0%Q) (nth j q 0%Q)) /\
  exists j mn, nth_error minimize j = Some mn /\ better mn (nth j p 0%Q) (nth j q 0%Q).

(** A cast that keeps the order of the given values. *)
Definition keeps_order (cast : Q -> Q) (vs : list Q) : Prop :=
  forall a b, In a vs -> In b vs -> ((a <= b)%Q <-> (cast a <= cast b)%Q).

(** A call of tell with one complete row of finite values per point, and a surrogate that can be fitted. *)
Definition good_call {X} (n_obj : nat) (c : call X) : Prop :=
  length (c_F c) = length (c_xs c) /\ c_fits c = true /\
  forall f, In f (c_F c) -> length f = n_obj /\ forall v, In v f -> exists q, v = Fin q.
(** The points told by a call, with their values. *)
Definition told {X} (c : call X) : list (X * list fval) := combine (c_xs c) (c_F c).
