(** Vocabulary of the properties of the predictive variance. *)
From Coq Require Import Reals List Arith.
From Verif Require Import Lib_Sum Model_Kernel Spec_Kernel Model_Likelihood.
Import ListNotations.
Open Scope R_scope.

(** The correlation of the values at two points (defined for parameters whose number fits the points). *)
Definition rho (k : kernel) (theta : list R) (a b : list R) : R := match corr k theta (absdiff a b) with Some v => v | None => 0 end.
(** A process Z with variance s and correlation rho is observed at the points X with independent errors of variance v.  The mean of
    (Z(x) - sum_i w_i y_i)^2, for a process without trend:
    var Z(x) - 2 sum_i w_i cov(Z(x), y_i) + sum_ij w_i w_j cov(y_i, y_j). *)
Definition squared_error (k : kernel) (theta : list R) (s v : R) (X : list (list R)) (x : list R) (w : nat -> R) : R :=
  let n := length X in
  let at_ i := nth i X [] in
  s - 2 * sumn n (fun i => w i * (s * rho k theta x (at_ i)))
    + sumn n (fun i => sumn n (fun j => w i * w j * (s * rho k theta (at_ i) (at_ j) + v * identity i j))).
(** A predictor is unbiased for every combination of the basis functions f if it reproduces them. *)
Definition unbiased (tr : trend) (n : nat) (f : list R -> nat -> R) (x : list R) (w : nat -> R) : Prop :=
  match tr with Known _ => True | Estimated p F => forall c, (c < p)%nat -> sumn n (fun i => w i * F i c) = f x c end.
(** The matrix of the trend holds the basis functions at the points. *)
Definition basis_at (tr : trend) (X : list (list R)) (f : list R -> nat -> R) : Prop :=
  match tr with Known _ => True | Estimated p F => forall i c, (i < length X)%nat -> (c < p)%nat -> F i c = f (nth i X []) c end.
