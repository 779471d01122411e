(** Correlation functions and their derivatives: bayes_optim/surrogate/gaussian_process/kernel.py,
    gpr.py 20-60 and 600-782, and the kernels of __init__.py 193-230.  Real arithmetic; points and
    parameters are lists.  [None] is a Python exception, whose kind is given in the comment. *)
From Coq Require Import Reals List Arith Bool.
Import ListNotations.
Open Scope R_scope.

Definition sum (l : list R) : R := fold_right Rplus 0 l.
(** np.prod of kernel.py. *)
Definition prod (l : list R) : R := fold_right Rmult 1 l.
(** No counterpart in the code: numpy's arithmetic on two vectors of the same length. *)
Fixpoint map2 {A B C} (f : A -> B -> C) (a : list A) (b : list B) : list C :=
  match a, b with x :: a, y :: b => f x y :: map2 f a b | _, _ => [] end.
(** No counterpart in the code: all values exist, or the call raises. *)
Definition sequence {A} (l : list (option A)) : option (list A) :=
  fold_right (fun o r => match o, r with Some a, Some r => Some (a :: r) | _, _ => None end) (Some []) l.

(** gpr.py 201-207: the names that [corr] accepts. *)
Inductive kernel := AbsExp | SqExp | GenExp | Cubic | Matern.

(** numpy's x ** p for x >= 0 and p >= 0 (a negative p at 0 gives inf, not modelled: the bounds on the
    parameters are positive, gpr.py 1219). *)
Definition power (x p : R) : R := if Req_EM_T x 0 then (if Req_EM_T p 0 then 1 else 0) else exp (p * ln x).

(** kernel.py 247-286 *)
Definition absolute_exponential (theta d : list R) : option R :=
  let d := map Rabs d in
  match theta with
  | [t0] => Some (exp (- t0 * sum d))
  | _ => if length theta =? length d then Some (exp (- sum (map2 Rmult theta d))) else None (* ValueError *)
  end.
(** kernel.py 289-329 *)
Definition squared_exponential (theta d : list R) : option R :=
  match theta with
  | [t0] => Some (exp (- t0 * sum (map Rsqr d)))
  | _ => if length theta =? length d then Some (exp (- sum (map2 Rmult theta (map Rsqr d)))) else None (* ValueError *)
  end.
(** kernel.py 332-379: in the isotropic case theta stays one-dimensional and theta[:, 0:-1] is an IndexError. *)
Definition generalized_exponential (theta d : list R) : option R :=
  if (1 <? length d)%nat && (length theta =? 2) then None (* IndexError *)
  else if negb (length theta =? length d + 1) then None (* Exception *)
  else Some (exp (- sum (map2 Rmult (removelast theta) (map (fun v => power (Rabs v) (last theta 0)) d)))).
(** kernel.py 419-466 *)
Definition cubic (theta d : list R) : option R :=
  let value (td : list R) :=
    let td := map (fun v => if Rlt_dec 1 v then 1 else v) td in
    prod (map (fun v => 1 - v * v * (3 - 2 * v)) td) in
  match theta with
  | [t0] => Some (value (map (fun v => Rabs v * t0) d))
  | _ => if length theta =? length d then Some (value (map2 Rmult (map Rabs d) theta)) else None (* Exception *)
  end.
(** kernel.py 159-245 with nu = 1.5 *)
Definition matern (theta d : list R) : option R :=
  let value (dist : R) := let K := dist * sqrt 3 in (1 + K) * exp (- K) in
  match theta with
  | [t0] => Some (value (sqrt (t0 * sum (map Rsqr d))))
  | _ => if length theta =? length d then Some (value (sqrt (sum (map2 Rmult theta (map Rsqr d))))) else None (* ValueError *)
  end.
Definition corr (k : kernel) : list R -> list R -> option R :=
  match k with
  | AbsExp => absolute_exponential | SqExp => squared_exponential | GenExp => generalized_exponential
  | Cubic => cubic | Matern => matern
  end.

(** gpr.py 21-60  l1_cross_distances without Y: the blocks of rows for k = 0, 1, ..., n - 2. *)
Definition absdiff (x y : list R) : list R := map2 (fun a b => Rabs (a - b)) x y.
(** gpr.py 50-58: the rows for one k. *)
Definition block (X : list (list R)) (k : nat) : list (list R * (nat * nat)) :=
  map (fun j => (absdiff (nth k X []) (nth j X []), (k, j))) (seq (k + 1) (length X - (k + 1))).
(** gpr.py 44-60 without Y. *)
Definition cross_distances (X : list (list R)) : list (list R * (nat * nat)) :=
  flat_map (block X) (seq 0 (length X - 1)).
(** gpr.py 44-48: with Y, row by row. *)
Definition cross_distances_to (X Y : list (list R)) : list (list R) :=
  flat_map (fun x => map (absdiff x) Y) X.

(** gpr.py 772-783: a matrix is a function of the indices; the assignment with index arrays, in order. *)
Definition eye (i j : nat) : R := if i =? j then 1 else 0.
(** One assignment M[i, j] = v. *)
Definition mset (M : nat -> nat -> R) (i j : nat) (v : R) : nat -> nat -> R :=
  fun a b => if (a =? i) && (b =? j) then v else M a b.
(** gpr.py 778-780: R[i, j] = values for arrays of indices. *)
Definition assign (pairs : list (nat * nat)) (vals : list R) (M : nat -> nat -> R) : nat -> nat -> R :=
  fold_left (fun M pv => mset M (fst (fst pv)) (snd (fst pv)) (snd pv)) (combine pairs vals) M.
(** gpr.py 772-782. *)
Definition correlation_matrix (k : kernel) (theta : list R) (X : list (list R)) : option (nat -> nat -> R) :=
  let Dij := cross_distances X in
  match sequence (map (fun q => corr k theta (fst q)) Dij) with
  | None => None
  | Some r =>
      let ij := map snd Dij in
      let M := assign ij r eye in
      Some (assign (map (fun q => (snd q, fst q)) ij) r M)
  end.

(** A parameter vector of size one is broadcast against the features. *)
Definition each (theta : list R) (n : nat) : list R := match theta with [t0] => repeat t0 n | _ => theta end.

(** gpr.py 600-661  corr_dx at a point x: for each training point the partial derivatives (the code stores the
    transpose).  A division by zero is a warning turned into an exception, which gives zeros for all
    training points.  generalized_exponential and cubic leave [grad] unbound (UnboundLocalError). *)
Definition sign (v : R) : R := if Rlt_dec 0 v then 1 else if Rlt_dec v 0 then -1 else 0.
(** gpr.py 600-661. *)
Definition corr_dx (k : kernel) (theta : list R) (X : list (list R)) (x : list R) : option (list (list R)) :=
  let diff t := map2 Rminus x t in
  let th := each theta (length x) in
  match sequence (map (fun t => corr k theta (absdiff x t)) X) with
  | None => None
  | Some r =>
      match k with
      | SqExp => Some (map2 (fun r t => map2 (fun a v => -2 * r * (a * v)) th (diff t)) r X)
      | Matern =>
          let dist t := sqrt (sum (map2 (fun a v => a * (v * v)) th (diff t))) in
          if existsb (fun t => if Req_EM_T (dist t) 0 then true else false) X
          then Some (map (fun _ => repeat 0 (length x)) X)
          else Some (map (fun t => map2 (fun a v => v * a / dist t * (-3 * dist t * exp (- sqrt 3 * dist t))) th (diff t)) X)
      | AbsExp => Some (map2 (fun r t => map2 (fun a v => -1 * r * a * sign v) th (diff t)) r X)
      | GenExp | Cubic => None (* UnboundLocalError *)
      end
  end.

(** gpr.py 663-734  corr_Hessian for the squared exponential: entry (k, l) for each training point; theta[k] is
    an IndexError for a parameter vector of size one and k > 0.  Matern, generalized_exponential and
    cubic leave [H] unbound (UnboundLocalError).  The absolute exponential is not modelled. *)
Definition corr_Hessian (k : kernel) (theta : list R) (X : list (list R)) (x : list R) : option (list (nat -> nat -> R)) :=
  let diff t := map2 Rminus x t in
  match k with
  | SqExp =>
      if (length theta <? length x)%nat then None (* IndexError *)
      else match sequence (map (fun t => corr k theta (absdiff x t)) X) with
           | None => None
           | Some r => Some (map2 (fun r t => fun k l =>
               let g := -2 * r * (nth k theta 0 * nth k (diff t) 0) in
               -2 * (g * (nth l theta 0 * nth l (diff t) 0) + r * (if k =? l then nth k theta 0 else 0))) r X)
           end
  | _ => None
  end.

(** gpr.py 736-770  corr_grad_theta: for one pair of training points at componentwise distance d with
    correlation r, the n_features slices.  1004-1034: the caller reads the first len(theta) of them. *)
Definition corr_grad_theta (k : kernel) (theta : list R) (r : R) (d : list R) : option (list R) :=
  let diff := map Rsqr d in
  match k with
  | SqExp => Some (map (fun v => - v * r) diff)
  | Matern =>
      let D := sqrt (sum (map2 Rmult (each theta (length d)) diff)) in
      Some (map (fun v => -3 * exp (- sqrt 3 * D) * v / 2) diff)
  | AbsExp => Some (map (fun v => - sqrt v * r) diff)
  | GenExp | Cubic => None (* UnboundLocalError *)
  end.

(** __init__.py 193-230  kernel_dx of the scikit-learn wrapper: sigma2 times a kernel of the distance
    of the points divided componentwise by the length scales.  utils.py 61-63: safe_divide. *)
Inductive sk_kernel := Matern12 | Matern32 | Matern52 | RBF.
(** __init__.py 193-230: the scaled distance. *)
Definition sk_distance (ell x t : list R) : R := sqrt (sum (map2 (fun l v => v / l * (v / l)) ell (map2 Rminus x t))).
(** utils.py 61-63. *)
Definition safe_divide (a b : R) : R := if Req_EM_T b 0 then 0 else a / b.
(** scikit-learn's kernels *)
Definition sk_value (k : sk_kernel) (s2 : R) (ell x t : list R) : R :=
  let d := sk_distance ell x t in
  s2 * match k with
       | Matern12 => exp (- d)
       | Matern32 => (1 + sqrt 3 * d) * exp (- (sqrt 3 * d))
       | Matern52 => (1 + sqrt 5 * d + 5 / 3 * (d * d)) * exp (- (sqrt 5 * d))
       | RBF => exp (- (d * d) / 2)
       end.
(** __init__.py 193-230. *)
Definition kernel_dx (k : sk_kernel) (s2 : R) (ell x t : list R) : list R :=
  let d := sk_distance ell x t in
  let dd := map2 (fun l v => safe_divide v (d * (l * l))) ell (map2 Rminus x t) in
  map (fun dd => match k with
       | Matern12 => - s2 * exp (- d) * dd
       | Matern32 => -3 * s2 * exp (- sqrt 3 * d) * d * dd
       | Matern52 => -5 / 3 * s2 * exp (- sqrt 5 * d) * (1 + sqrt 5 * d) * d * dd
       | RBF => - s2 * exp (- (d * d) / 2) * dd
       end) dd.
