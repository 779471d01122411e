(** Dimensionality reduction: bayes_optim/extension.py 21-119, over the real numbers (rounding is
    not modelled).  The result of sklearn's PCA.fit is a parameter: the mean and the components
    (rows of unit length).  whiten is off. *)
From Coq Require Import Bool Reals List.
Import ListNotations.
Open Scope R_scope.

Definition vadd (a b : list R) : list R := map (fun p => fst p + snd p) (combine a b).
(** a - b. *)
Definition vsub (a b : list R) : list R := map (fun p => fst p - snd p) (combine a b).
(** a.dot(b). *)
Definition dot (a b : list R) : R := fold_right Rplus 0 (map (fun p => fst p * snd p) (combine a b)).
(** The square of the norm. *)
Definition norm2 (a : list R) : R := dot a a.

(** The attributes of sklearn's PCA and center (39). *)
Record pca := Pca { mean_ : list R; components_ : list (list R); center : list R }.

(** 49-50 with sklearn's PCA.transform: (X - center - mean_) . components_^T *)
Definition transform (p : pca) (x : list R) : list R :=
  map (dot (vsub (vsub x (center p)) (mean_ p))) (components_ p).
(** 56-59 with sklearn's PCA.inverse_transform: X . components_ + mean_, then + center *)
Definition combination (d : nat) (x : list R) (rows : list (list R)) : list R :=
  fold_right vadd (repeat 0 d) (map (fun p => map (Rmult (fst p)) (snd p)) (combine x rows)).
(** 56-59 after the first fit. *)
Definition inverse_transform (p : pca) (x : list R) : list R :=
  vadd (vadd (combination (length (mean_ p)) x (components_ p)) (mean_ p)) (center p).

(** 113-119  PCABO._compute_bounds *)
Definition compute_bounds (p : pca) (bounds : list (R * R)) : list (R * R) :=
  let C := map (fun b => (fst b + snd b) / 2) bounds in
  let radius := sqrt (norm2 (vsub (map fst bounds) C)) in
  let C := vsub (vsub C (mean_ p)) (center p) in
  map (fun c => (dot C c - radius, dot C c + radius)) (components_ p).

(** 62-86  penalized_acquisition: the value, and the gradient of the penalty *)
Definition below (x : R) (b : R * R) : bool := if Rlt_dec x (fst b) then true else false.
(** 67. *)
Definition above (x : R) (b : R * R) : bool := if Rlt_dec (snd b) x then true else false.
(** 66-71. *)
Definition penalty (bounds : list (R * R)) (x : list R) : R :=
  - (fold_right Rplus 0 (map (fun q => fst (snd q) - fst q) (filter (fun q => below (fst q) (snd q)) (combine x bounds)))
     + fold_right Rplus 0 (map (fun q => fst q - snd (snd q)) (filter (fun q => above (fst q) (snd q)) (combine x bounds)))).
(** 62-74 and 84-86: the value. *)
Definition penalized (p : pca) (bounds : list (R * R)) (acquisition : list R -> R) (x : list R) : R :=
  let v := penalty bounds (inverse_transform p x) in
  if Req_EM_T v 0 then acquisition x else v.
(** 76-82  g_[idx_lower] = 1, then g_[idx_upper] = -1 *)
Definition penalty_direction (bounds : list (R * R)) (x : list R) : list R :=
  map (fun q => if above (fst q) (snd q) then -1 else if below (fst q) (snd q) then 1 else 0) (combine x bounds).
(** 76-83: the gradient of the penalty. *)
Definition penalty_gradient (p : pca) (bounds : list (R * R)) (x : list R) : list R :=
  map (fun c => dot c (penalty_direction bounds (inverse_transform p x))) (components_ p).

(** 41-46  the weights of the observations; scipy's rankdata with method average: a value has the
    mean of the ranks of the values equal to it *)
Definition rlt (x y : R) : bool := if Rlt_dec x y then true else false.
(** No counterpart in the code: == on numbers. *)
Definition req (x y : R) : bool := if Req_EM_T x y then true else false.
(** 42  rankdata. *)
Definition rank (l : list R) (v : R) : R :=
  INR (length (filter (fun u => rlt u v) l)) + (INR (length (filter (req v) l)) + 1) / 2.
(** 41-44. *)
Definition raw_weights (minimize : bool) (y : list R) : list R :=
  let y := if minimize then y else map Ropp y in
  map (fun v => ln (INR (length y)) - ln (rank y v)) y.
(** None: the sum is zero and the quotients are nan *)
Definition weights (minimize : bool) (y : list R) : option (list R) :=
  let w := raw_weights minimize y in
  let s := fold_right Rplus 0 w in
  if Req_EM_T s 0 then None else Some (map (fun v => v / s) w).
(** 39-47  the matrix on which the PCA is fitted *)
Definition scaled (w : list R) (X : list (list R)) (c : list R) : list (list R) :=
  map (fun q => map (Rmult (fst q)) (vsub (snd q) c)) (combine w X).
