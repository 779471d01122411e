(** Correlations between new points and known points, and the prior covariance
    (bayes_optim/surrogate/gaussian_process/gpr.py).  Over the reals. *)
From Coq Require Import Reals List Arith Bool.
From Verif Require Import Model_Kernel.
Import ListNotations.
Open Scope R_scope.

(** ndarray.reshape(rows, cols) of a vector; None: ValueError when the sizes do not agree *)
Fixpoint chunks {A} (rows cols : nat) (l : list A) : list (list A) :=
  match rows with O => [] | S rows => firstn cols l :: chunks rows cols (skipn cols l) end.
(** ndarray.reshape(rows, cols). *)
Definition reshape {A} (rows cols : nat) (l : list A) : option (list (list A)) :=
  if (length l =? rows * cols)%nat then Some (chunks rows cols l) else None.

(** gpr.py 486-488 (predict), 556-557 (gradient), 344-345 (prior_cov):
    self.corr(self.theta_, l1_cross_distances(X, Y)).reshape(len(X), len(Y)) *)
Definition cross_corr (k : kernel) (theta : list R) (X Y : list (list R)) : option (list (list R)) :=
  match sequence (map (corr k theta) (cross_distances_to X Y)) with
  | Some r => reshape (length X) (length Y) r
  | None => None
  end.

(** The second argument of prior_cov: absent, a (nested) list, or a two-dimensional array. *)
Inductive second := Absent | Listed (Y : list (list R)) | Array (Y : list (list R)).
(** gpr.py 321  np.atleast_2d(X2) if X2 else X1.  A list is false when it is empty; an array with one element is false when the
    element is zero, an empty array is false, and any other array has no truth value (ValueError: None). *)
Definition second_points (X1 : list (list R)) (a : second) : option (list (list R)) :=
  match a with
  | Absent => Some X1
  | Listed Y => Some (match Y with [] => X1 | _ => Y end)
  | Array Y => match concat Y with
               | [] => Some X1
               | [v] => Some (if Req_EM_T v 0 then X1 else Y)
               | _ => None
               end
  end.
(** gpr.py 318-353  prior_cov; [d]: the number of features of the training points, [sigma2]: one variance per target.  The points
    are rectangular: the number of columns is the length of the first row.  None: an exception. *)
Definition columns (X : list (list R)) : nat := match X with [] => 0 | x :: _ => length x end.
(** (v ** 2).sum(). *)
Definition sumsq (l : list R) : R := fold_right (fun v s => v * v + s) 0 l.
(** gpr.py 318-353. *)
Definition prior_cov (k : kernel) (theta : list R) (d : nat) (sigma2 : list R) (X1 : list (list R)) (X2 : second) (only_corr : bool) : option (list (list R)) :=
  match second_points X1 X2 with
  | None => None
  | Some Y =>
      if ((columns X1 =? d) && (columns Y =? d))%nat then
        match cross_corr k theta X1 Y with
        | None => None
        | Some Rp => Some (if only_corr then Rp else map (map (fun r => sqrt (sumsq (map (fun s => s * r) sigma2) / INR (length sigma2)))) Rp)
        end
      else None
  end.
