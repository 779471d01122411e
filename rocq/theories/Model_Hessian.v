(** The Hessian of the predicted mean: bayes_optim/surrogate/gaussian_process/gpr.py 578-598, with the trends of trend.py.  Real
    arithmetic; one target; the coefficients are those of a fitted model.  [None] is a Python exception, whose kind is given in
    the comment. *)
From Coq Require Import Reals List Arith Bool.
From Verif Require Import Model_Kernel.
Import ListNotations.
Open Scope R_scope.

(** np.dot of two vectors. *)
Definition dot (a b : list R) : R := sum (map2 Rmult a b).

(** trend.py 69-140. *)
Inductive trend := Constant | LinearT | Quadratic.
(** trend.py 79-82, 103-106, 130-136: one row of F. *)
Fixpoint products (x : list R) : list R :=
  match x with [] => [] | a :: x' => map (Rmult a) x ++ products x' end.
(** trend.py 79-82, 103-106, 130-136. *)
Definition basis (t : trend) (x : list R) : list R :=
  match t with Constant => [1] | LinearT => 1 :: x | Quadratic => 1 :: x ++ products x end.
(** trend.py 77, 101, 128. *)
Definition n_dim (t : trend) (n : nat) : nat :=
  match t with Constant => 1 | LinearT => S n | Quadratic => (n + 1) * (n + 2) / 2 end.

(** The attributes corr_type, theta_, X, mean, mean.beta and gamma of a fitted model. *)
Record gp := GP { kern : kernel; theta : list R; X : list (list R); tr : trend; beta : list R; gamma : list R }.

(** gpr.py 485-490: the prediction at one point. *)
Definition mean (g : gp) (x : list R) : option R :=
  match sequence (map (fun t => corr (kern g) (theta g) (absdiff x t)) (X g)) with
  | None => None
  | Some r => Some (dot (basis (tr g) x) (beta g) + dot r (gamma g))
  end.

(** trend.py 88-91, 113-116: zeros of shape (n, n, n_dim); 141-142: NotImplementedError.  The product with beta. *)
Definition trend_Hessian (t : trend) (b : list R) : option (nat -> nat -> R) :=
  match t with
  | Constant | LinearT => Some (fun _ _ => dot (repeat 0 (length b)) b)
  | Quadratic => None
  end.

(** gpr.py 593-598 with 663-734: the product of corr_Hessian with gamma.  Here r is an array of shape (1, n_samples).  For the
    absolute exponential (718-728) the list comprehension reads r[i], which is an IndexError for the second training point (the
    first one may already fail with shapes that do not match).  Before that, 0 / 0 for the first training point is a warning that
    becomes an exception, and the result is zeros.  With one training point the result has shape (1, n, n), which can be multiplied
    with gamma of shape (1, 1) for one feature only (ValueError). *)
Definition corr_part (g : gp) (x : list R) : option (nat -> nat -> R) :=
  match kern g with
  | AbsExp =>
      match sequence (map (fun t => corr AbsExp (theta g) (absdiff x t)) (X g)), X g with
      | Some r, t :: X' =>
          let diff := map2 Rminus x t in
          if existsb (fun v => if Req_EM_T v 0 then true else false) diff then Some (fun _ _ => 0)
          else match r, X', theta g, diff with
               | [r], [], [a], [v] =>
                   Some (fun _ _ => dot [- (r * (a * v / sign v) + -1 * r * (a * sign v) * (a * sign v))] (gamma g))
               | _, _, _, _ => None
               end
      | _, _ => None
      end
  | _ =>
      match corr_Hessian (kern g) (theta g) (X g) x with
      | None => None
      | Some H => Some (fun k l => dot (map (fun h => h k l) H) (gamma g))
      end
  end.

(** gpr.py 578-598 Hessian at one point of the right size. *)
Definition hessian (g : gp) (x : list R) : option (nat -> nat -> R) :=
  match trend_Hessian (tr g) (beta g) with
  | None => None
  | Some T => match corr_part g x with None => None | Some H => Some (fun k l => T k l + H k l) end
  end.
