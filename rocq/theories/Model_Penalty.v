(** bayes_optim/utils/utils.py:272-344, dynamic_penalty, over the real numbers. *)
From Coq Require Import List Reals.
Import ListNotations.
Open Scope R_scope.

(** x ** b for x >= 0 and b > 0 (Rpower is exp (b ln x) and needs x > 0). *)
Definition pow_nn (x b : R) : R := if Req_EM_T x 0 then 0 else Rpower x b.
(** np.sum. *)
Definition rsum (l : list R) : R := fold_right Rplus 0 l.

(** 329-330: an equality value counts with its absolute value unless it is within epsilon. *)
Definition eq_term (epsilon v : R) : R := Rabs (if Rle_dec (Rabs v) epsilon then 0 else v).
(** 340-341 *)
Definition ineq_term (beta v : R) : R := pow_nn (Rabs (if Rle_dec v 0 then 0 else v)) beta.

(** The keyword arguments t, C, alpha, beta, epsilon and minimize, 272-282. *)
Record ppar := mkPP { tt : R; CC : R; alpha : R; beta : R; epsilon : R; minimize : bool }.

(** The value for one row, 343; the constraint values are given. *)
Definition penalty1 (P : ppar) (h g : list R) : R :=
  pow_nn (CC P * tt P) (alpha P) *
  (0 + rsum (map (eq_term (epsilon P)) h) + rsum (map (ineq_term (beta P)) g)) *
  (if minimize P then 1 else -1).

(** A list of evaluations, failing if one of them raises (320-324, 328-332). *)
Fixpoint eval_all {X} (f : X -> option (list R)) (xs : list X) : option (list (list R)) :=
  match xs with
  | [] => Some []
  | x :: r => match f x, eval_all f r with Some v, Some vs => Some (v :: vs) | _, _ => None end
  end.
(** A constraint that is not given adds nothing. *)
Definition eval_opt {X} (f : option (X -> option (list R))) (xs : list X) : option (list (list R)) :=
  match f with None => Some (map (fun _ => []) xs) | Some f => eval_all f xs end.
(** dynamic_penalty for a list of points; None is ConstraintEvaluationError. *)
Definition dynamic_penalty {X} (P : ppar) (equality inequality : option (X -> option (list R)))
    (xs : list X) : option (list R) :=
  match eval_opt equality xs with
  | None => None
  | Some H => match eval_opt inequality xs with
              | None => None
              | Some G => Some (map (fun p => penalty1 P (fst p) (snd p)) (combine H G))
              end
  end.
