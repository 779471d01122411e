(** Vocabulary of the properties of the Hessian. *)
From Coq Require Import Reals List.
From Coquelicot Require Import Coquelicot.
From Verif Require Import Spec_Kernel.
Import ListNotations.
Open Scope R_scope.

(** [f], a function of points with [n] coordinates, has a gradient at every point, and the entry [l] of the gradient has at [x] the
    partial derivatives [H 0 l], [H 1 l], ... *)
Definition second_derivatives (n : nat) (f : list R -> option R) (x : list R) (H : nat -> nat -> R) : Prop :=
  exists G : list R -> list R,
    (forall z, length z = n -> has_gradient f z (G z)) /\
    (forall l, (l < n)%nat -> has_gradient (fun z => nth_error (G z) l) x (map (fun k => H k l) (seq 0 n))).
(** The second derivative of [f] along the coordinate [j] is [v]. *)
Definition second_derivative (f : list R -> option R) (x : list R) (j : nat) (v : R) : Prop :=
  exists h h' : R -> R, (forall t, f (set_coord x j t) = Some (h t)) /\
    locally (nth j x 0) (fun t => is_derive h t (h' t)) /\ is_derive h' (nth j x 0) v.
