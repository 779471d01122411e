(** Vocabulary for the statements about whole multi-objective runs. *)
From Coq Require Import List Bool Arith ZArith QArith.
From Verif Require Import Model_Opt Model_Var Model_Ask Model_MoRun.
From Verif Require Model_MOBO.
Import ListNotations.
Open Scope nat_scope.

(** The calls of the j-th objective function in order: the points and what it returned. *)
Definition made (j : nat) (calls : list mcall) : list (point * res mval) :=
  map (fun c => (snd (fst c), snd c)) (filter (fun c => fst (fst c) =? j) calls).
(** The calls are those that give the observations: each of the n objective functions is called once for each of the points, in
    order, and returns the value observed; there are no other calls. *)
Definition observations (n : nat) (calls : list mcall) (obs : list (point * list Q)) : Prop :=
  (forall j x r, In (j, x, r) calls -> j < n) /\ (forall x q, In (x, q) obs -> List.length q = n) /\
  forall j, j < n -> made j calls = map (fun o => (fst o, Ok (Model_MOBO.Fin (nth j (snd o) 0%Q)))) obs.
(** The data of the optimizer are these observations. *)
Definition holds (s : mst) (obs : list (point * list Q)) : Prop :=
  map (fun r => (Model_MOBO.r_x r, Model_MOBO.r_fit r)) (Model_MOBO.data s) = map (fun o => (fst o, map Model_MOBO.Fin (snd o))) obs.
