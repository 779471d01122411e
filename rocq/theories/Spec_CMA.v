(** Vocabulary for the statements about the (1+1)-CMA-ES. *)
From Coq Require Import Bool Arith ZArith QArith Qreals Reals List.
From Verif Require Import Model_CMA.
Import ListNotations.
Open Scope R_scope.

(** The values of a constraint at y (none if it is not given). *)
Definition values (f : option (pt -> option (list R))) (y : pt) : option (list R) :=
  match f with None => Some [] | Some f => f y end.
(** All equality constraints hold up to 0.1 and all inequality constraints hold. *)
Definition feasible (h g : option (pt -> option (list R))) (y : pt) : Prop :=
  exists hv gv, values h y = Some hv /\ values g y = Some gv /\
    (forall v, In v hv -> Rabs v <= / 10) /\ (forall v, In v gv -> v <= 0).
Definition in_box (box : list (Q * Q)) (y : pt) : Prop :=
  Forall2 (fun b q => (fst b <= q)%Q /\ (q <= snd b)%Q) box y.
Definition no_worse (minimise : bool) (a b : R) : Prop := if minimise then a <= b else b <= a.

(** A sensible configuration: non-degenerate box, positive initial step size, rates in range. *)
Definition sensible (c : ccfg) : Prop :=
  Forall (fun b => (fst b < snd b)%Q) (c_box c) /\ length (c_prec c) = length (c_box c) /\
  0 < c_sigma0 c /\ 0 <= c_target_rate c < 1 /\ 0 <= c_cp c <= 1 /\ 0 < c_d c.
(** The random numbers: moves have the right length, uniform samples lie in the box. *)
Definition fair (c : ccfg) (move uniform : nat -> pt) : Prop :=
  forall k, length (move k) = length (c_box c) /\ in_box (c_box c) (uniform k).
