(** Vocabulary for C262: random variables, only as far as mean and variance need it. *)
From Coq Require Import Reals List.
Open Scope R_scope.

(** An expectation: a linear functional on the real functions on a set of outcomes, with E 1 = 1. *)
Record expectation (O : Type) (E : (O -> R) -> R) : Prop := {
  exp_ext : forall X Y, (forall o, X o = Y o) -> E X = E Y;
  exp_plus : forall X Y, E (fun o => X o + Y o) = E X + E Y;
  exp_scale : forall a X, E (fun o => a * X o) = a * E X;
  exp_one : E (fun _ => 1) = 1 }.
Definition variance {O} (E : (O -> R) -> R) (X : O -> R) : R := E (fun o => (X o - E X) ^ 2).
Definition uncorrelated {O} (E : (O -> R) -> R) (X Y : O -> R) : Prop := E (fun o => (X o - E X) * (Y o - E Y)) = 0.
(** The sum of w_i X_i. *)
Definition weighted {O} (w : list R) (Xs : list (O -> R)) (o : O) : R := fold_right Rplus 0 (map (fun p => fst p * snd p o) (combine w Xs)).
