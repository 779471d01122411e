(** Vocabulary of the properties of the correlation functions. *)
From Coq Require Import Reals List.
From Coquelicot Require Import Coquelicot.
Import ListNotations.
Open Scope R_scope.

(** The point with the coordinate [j] replaced. *)
Definition set_coord (x : list R) (j : nat) (t : R) : list R := firstn j x ++ t :: skipn (Datatypes.S j) x.
(** [g] is the gradient of the partial function [f] at [x]: along every coordinate [f] is, near [x],
    a differentiable function with the entry of [g] for derivative. *)
Definition has_gradient (f : list R -> option R) (x g : list R) : Prop :=
  length g = length x /\
  forall j, (j < length x)%nat ->
    exists h : R -> R, is_derive h (nth j x 0) (nth j g 0) /\
      locally (nth j x 0) (fun t => f (set_coord x j t) = Some (h t)).
(** One parameter for all features, or one parameter for each of the [n] features. *)
Definition accepted (theta : list R) (n : nat) : Prop := length theta = 1%nat \/ length theta = n.
Definition positive (theta : list R) : Prop := List.Forall (fun t => 0 < t) theta.
(** All points have [n] coordinates. *)
Definition rectangular (X : list (list R)) (n : nat) : Prop := List.Forall (fun x => length x = n) X.
