(** Measures of the error of predictions: bayes_optim/surrogate/gaussian_process/utils.py 14-42.  Real arithmetic.  [None] is
    an exception or a result that is not a finite number (division by zero, logarithm of a number that is not positive). *)
From Coq Require Import Reals List Arith.
Import ListNotations.
Open Scope R_scope.

Definition total (l : list R) : R := fold_right Rplus 0 l.
(** np.mean, np.var *)
Definition mean (l : list R) : R := total l / INR (length l).
(** np.var of 16 and 31. *)
Definition var (l : list R) : R := mean (map (fun v => (v - mean l) ^ 2) l).
(** 18: i runs over the targets; [None]: IndexError of pred_y. *)
Fixpoint squared_errors (test pred : list R) : option (list R) :=
  match test, pred with
  | [], _ => Some []
  | _ :: _, [] => None
  | a :: test', b :: pred' => option_map (cons ((b - a) ^ 2)) (squared_errors test' pred')
  end.
(** 14-22  SMSE; [None]: an exception or no number (no targets: the mean of an empty list). *)
Definition SMSE (test pred : list R) : option R :=
  match test with
  | [] => None
  | _ =>
      match squared_errors test pred with
      | None => None
      | Some se => if Req_EM_T (var test) 0 then None else Some (mean se / var test)
      end
  end.

(** 32-39: the loop over the variances.  Result: the log losses ([None]: an exception or no number) and the array of variances afterwards;
    line 34 changes the array of the caller. *)
Fixpoint losses (mean_y var_y : R) (test pred variances : list R) {struct variances} : option (list R) * list R :=
  match variances with
  | [] => (Some [], [])
  | v :: variances' =>
      let v' := if Req_EM_T v 0 then v + / 10000000 else v in
      match test, pred with
      | a :: test', b :: pred' =>
          let sll_trivial := / 2 * ln (2 * PI * var_y) + (a - mean_y) ^ 2 / (2 * var_y) in
          let sllv := / 2 * ln (2 * PI * v') + (a - b) ^ 2 / (2 * v') - sll_trivial in
          let (r, vs) := losses mean_y var_y test' pred' variances' in
          (if Rlt_dec 0 var_y then if Rlt_dec 0 v' then option_map (cons sllv) r else None else None, v' :: vs)
      | _, _ => (None, v' :: variances')
      end
  end.
(** 28-42  MSLL *)
Definition MSLL (train test pred variances : list R) : option R * list R :=
  match train with
  | [] => (None, snd (losses 0 0 test pred variances))
  | _ =>
      let (r, vs) := losses (mean train) (var train) test pred variances in
      (match r with Some [] => None | Some l => Some (mean l) | None => None end, vs)
  end.
