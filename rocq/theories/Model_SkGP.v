(** GaussianProcessSklearn, bayes_optim/surrogate/gaussian_process/__init__.py 110-191, for one objective and one query
    point (several objectives are independent models, 130-142; see [gradient_many] for several points).  The
    model that scikit-learn has fitted is arbitrary.  Real arithmetic; vectors are lists, matrices functions of the
    indices. *)
From Coq Require Import Reals List Arith.
From Verif Require Import Lib_Sum Model_Kernel.
Import ListNotations.
Open Scope R_scope.

(** The attributes of a fitted scikit-learn GaussianProcessRegressor with the kernel of 70-89, that is
    sigma2 * k(length scales) + white noise. *)
Record gpr := GPR {
  X_train_ : list (list R); alpha_ : nat -> R; L_ : nat -> nat -> R;
  y_train_mean : R; y_train_std : R;
  kern : sk_kernel; sigma2 : R; length_scale : list R; noise_level : R }.

(** A.T (163-191). *)
Definition transpose (A : nat -> nat -> R) : nat -> nat -> R := fun i j => A j i.

Section SkGP.
(** scipy.linalg.solve_triangular for a lower triangular matrix and one right-hand side, and for an upper
    triangular matrix and a matrix of right-hand sides, of dimension n. *)
Variable solve_lower : nat -> (nat -> nat -> R) -> (nat -> R) -> nat -> R.
Variable solve_upper : nat -> (nat -> nat -> R) -> (nat -> nat -> R) -> nat -> nat -> R.

(** kernel_(X, X_train_): the white noise does not contribute to the covariance with other points. *)
Definition k_row (g : gpr) (x : list R) (i : nat) : R :=
  sk_value (kern g) (sigma2 g) (length_scale g) x (nth i (X_train_ g) []).
(** scikit-learn's predict with return_std (_gpr.py), and 148-161: the deviation is squared. *)
Definition predict (g : gpr) (x : list R) : R * R :=
  let n := length (X_train_ g) in
  let y_mean := y_train_std g * sumn n (fun i => k_row g x i * alpha_ g i) + y_train_mean g in
  let V := solve_lower n (L_ g) (k_row g x) in
  let y_var := sigma2 g + noise_level g - sumn n (fun i => V i * V i) in
  let y_var := if Rlt_dec y_var 0 then 0 else y_var in
  let y_std := sqrt (y_var * (y_train_std g * y_train_std g)) in
  (y_mean, y_std * y_std).

(** 163-191  gradient at one point: [kernel_dx] is in Model_Kernel. *)
Definition k_dx (g : gpr) (x : list R) (j i : nat) : R :=
  nth j (kernel_dx (kern g) (sigma2 g) (length_scale g) x (nth i (X_train_ g) [])) 0.
(** 163-191: L_inv.dot(L_inv.T), the inverse of the kernel matrix. *)
Definition K_inv (g : gpr) : nat -> nat -> R :=
  let n := length (X_train_ g) in
  let L_inv := solve_upper n (transpose (L_ g)) identity in
  fun a b => sumn n (fun c => L_inv a c * transpose L_inv c b).
(** 163-191 gradient at one point. *)
Definition gradient (g : gpr) (x : list R) : list R * list R :=
  let n := length (X_train_ g) in
  let scale := y_train_std g in
  (map (fun j => scale * sumn n (fun i => k_dx g x j i * alpha_ g i)) (seq 0 (length x)),
   map (fun j => -2 * (scale * scale) * sumn n (fun b => sumn n (fun a => k_dx g x j a * K_inv g a b) * k_row g x b)) (seq 0 (length x))).

(** The shape of var_dx (190): np.squeeze of an array of shape (n_samples, dim, 1) drops every axis of size one, and
    the result is assigned to a slice of shape (n_samples, dim).  [None] is the ValueError of shapes that cannot be
    broadcast: the last axis of the source must be the last axis of the target, or one. *)
Definition squeeze (shape : list nat) : list nat := filter (fun k => negb (k =? 1)%nat) shape.
(** 190: can an array with these trailing axes be assigned to that slice? The shapes are reversed. *)
Fixpoint broadcasts (rsrc rdst : list nat) : bool :=
  match rsrc, rdst with
  | [], _ => true
  | _ :: _, [] => false
  | a :: s, b :: d => ((a =? b)%nat || (a =? 1)%nat) && broadcasts s d
  end.
(** 163-191 gradient at several points, as far as the shapes go. *)
Definition gradient_many (g : gpr) (dim : nat) (xs : list (list R)) : option (list (list R * list R)) :=
  if broadcasts (rev (squeeze [length xs; dim; 1%nat])) (rev [length xs; dim]) then Some (map (gradient g) xs) else None.
End SkGP.
