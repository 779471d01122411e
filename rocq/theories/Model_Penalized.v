(** bayes_optim/acquisition/optim/__init__.py 25-52: finite_difference and the penalized acquisition function that is given to
    L-BFGS-B.  Real arithmetic. *)
From Coq Require Import List Reals.
From Verif Require Import Model_Penalty.
Import ListNotations.
Open Scope R_scope.

(** x + d e_i *)
Fixpoint shift (x : list R) (i : nat) (d : R) : list R :=
  match x, i with
  | [], _ => []
  | a :: x, O => (a + d) :: x
  | a :: x, S i => a :: shift x i d
  end.
(** 25-30; [None]: the function raises. *)
Fixpoint all_some {A} (l : list (option A)) : option (list A) :=
  match l with
  | [] => Some []
  | Some a :: l => match all_some l with Some r => Some (a :: r) | None => None end
  | None :: _ => None
  end.
(** 25-30. *)
Definition finite_difference (f : list R -> option R) (x : list R) (delta : R) : option (list R) :=
  all_some (map (fun i => match f (shift x i delta), f (shift x i (- delta)) with
                          | Some a, Some b => Some ((a - b) / (2 * delta)) | _, _ => None end) (seq 0 (length x))).

(** h or g of 39-43: None, or a function that may raise. *)
Definition constraint := option (list R -> option (list R)).
(** dynamic_penalty(x, t=t, equality=h, inequality=g) with its default arguments, for one point *)
Definition penalty (t : R) (h g : constraint) (x : list R) : option R :=
  match dynamic_penalty (mkPP t (1 / 2) 1 (3 / 2) (1 / 10) true) h g [x] with Some [p] => Some p | _ => None end.

(** 45-52 __call__: the attribute t, the arguments; returns the value, the gradient and the new t, or None if a
    constraint raises.  func returns the acquisition value and its gradient. *)
Definition call (func : list R -> R * list R) (h g : constraint) (t : R) (x : list R) : option (R * list R * R) :=
  let '(f, fg) := (-1 * fst (func x), map (fun v => -1 * v) (snd (func x))) in
  match h, g with
  | None, None => Some (f, fg, t)
  | _, _ =>
    match penalty t h g x, finite_difference (penalty t h g) x (/ 100000) with
    | Some p, Some pg => Some (f + p, map (fun ab => fst ab + snd ab) (combine fg pg), t + 1)
    | _, _ => None
    end
  end.
(** 43 and 50; consecutive calls by the optimizer *)
Definition t_init : R := 10.
(** The values returned by consecutive calls. *)
Fixpoint calls (func : list R -> R * list R) (h g : constraint) (t : R) (xs : list (list R)) : option (list (R * list R)) :=
  match xs with
  | [] => Some []
  | x :: xs => match call func h g t x with
               | None => None
               | Some (v, d, t') => match calls func h g t' xs with Some r => Some ((v, d) :: r) | None => None end
               end
  end.
