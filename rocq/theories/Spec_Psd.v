(** Vocabulary for positive semi-definite matrices.  A matrix is a function of the indices. *)
From Coq Require Import Reals Arith.
From Verif Require Import Lib_Sum.
Open Scope R_scope.

(** The quadratic form of the n x n matrix K at the vector c. *)
Definition form (n : nat) (K : nat -> nat -> R) (c : nat -> R) : R := sumn n (fun i => sumn n (fun j => c i * c j * K i j)).
(** No vector makes the quadratic form negative. *)
Definition semidefinite (n : nat) (K : nat -> nat -> R) : Prop := forall c, 0 <= form n K c.
(** The quadratic form is positive at every vector other than zero. *)
Definition definite (n : nat) (K : nat -> nat -> R) : Prop := forall c, (exists i, (i < n)%nat /\ c i <> 0) -> 0 < form n K c.
