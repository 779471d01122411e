(** Vocabulary for the statements about the covariance of the (1+1)-CMA-ES. *)
From mathcomp Require Import all_ssreflect all_algebra.
Set Implicit Arguments.
Unset Strict Implicit.
Unset Printing Implicit Defensive.
Import GRing.Theory Num.Theory.
Local Open Scope ring_scope.

Section Spec.
Variables (R : rcfType) (n : nat).
(** B is the inverse of A. *)
Definition inverse_of (A B : 'M[R]_n) : Prop := A *m B = 1%:M /\ B *m A = 1%:M.
(** The rank-one update of a covariance C along the evolution path p. *)
Definition rank_one (a b : R) (C : 'M[R]_n) (p : 'rV[R]_n) : 'M[R]_n :=
  \matrix_(i, j) (a * C i j + b * (p 0 i * p 0 j)).
(** The covariance of A z for standard normal z. *)
Definition covariance (A : 'M[R]_n) : 'M[R]_n := A *m A^T.
End Spec.
