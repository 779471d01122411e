(** Vocabulary for the statements about sampling under constraints. *)
From Coq Require Import List Bool Arith ZArith QArith Qabs String.
From Verif Require Import Model_Opt Model_Var Model_Ask.
Import ListNotations.
Open Scope nat_scope.

(** v is a value of a variable of kind k: between the bounds, or equal (Python's ==) to a level. *)
Definition belongs (k : kind) (v : val) : Prop :=
  match k with
  | KReal lb ub _ => exists q, as_num v = Some q /\ (lb <= q)%Q /\ (q <= ub)%Q
  | KInt lb ub _ => exists z, v = VI z /\ (lb <= z <= ub)%Z
  | _ => exists a, In a (levels k) /\ val_eqb v a = true
  end.
Definition in_kinds (ks : list kind) (x : point) : Prop := Forall2 belongs ks x.

(** The constraints hold at x: equalities within tol, inequalities exactly. *)
Definition satisfied (h g : option (point -> option (list Q))) (tol : Q) (x : point) : Prop :=
  (forall f, h = Some f -> exists vs, f x = Some vs /\ forall v, In v vs -> (Qabs v <= tol)%Q) /\
  (forall f, g = Some f -> exists vs, f x = Some vs /\ forall v, In v vs -> (v <= 0)%Q).

(** The bounds are ordered; the levels of a Discrete or Ordinal variable are all strings or all
    numbers; there is no Subset. *)
Definition number (v : val) : Prop := as_num v <> None.
Definition plain (k : kind) : Prop :=
  match k with
  | KReal lb ub _ => (lb <= ub)%Q
  | KInt lb ub _ => (lb <= ub)%Z
  | KDiscrete l | KOrdinal l => (forall v, In v l -> exists s, v = VS s) \/ (forall v, In v l -> number v)
  | KSubset _ => False
  | KBool => True
  end.
