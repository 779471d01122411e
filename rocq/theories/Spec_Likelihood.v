(** Vocabulary of the properties of the likelihood. *)
From Coq Require Import Reals List Arith.
From Verif Require Import Lib_Sum Lib_Chol Lib_GLS Model_Kernel Model_Likelihood.
Import ListNotations.
Open Scope R_scope.

(** What LAPACK promises (exact arithmetic).  [factor n A L]: L is lower triangular with a positive diagonal and A = L L^T. *)
Definition symmetric (n : nat) (A : matrix) : Prop := forall i j, (i < n)%nat -> (j < n)%nat -> A i j = A j i.
Definition nonsingular (n : nat) (L : matrix) : Prop := forall i, (i < n)%nat -> L i i <> 0.
Record lapack (cholesky : nat -> matrix -> option matrix) (qr : nat -> nat -> matrix -> matrix * matrix)
    (solve_lower solve_upper : nat -> matrix -> (nat -> R) -> nat -> R) (cho_solve : nat -> matrix -> matrix -> matrix)
    (matrix_rank : nat -> matrix -> nat) : Prop := {
  cholesky_factor : forall n A L, symmetric n A -> cholesky n A = Some L -> factor n A L;
  cholesky_found : forall n A L, symmetric n A -> factor n A L -> cholesky n A <> None;
  qr_factors : forall n p M, independent n p M -> is_qr n p M (fst (qr n p M)) (snd (qr n p M));
  lower_solved : forall n L b i, lower n L -> nonsingular n L -> (i < n)%nat -> sumn n (fun k => L i k * solve_lower n L b k) = b i;
  upper_solved : forall n U b i, upper n U -> nonsingular n U -> (i < n)%nat -> sumn n (fun k => U i k * solve_upper n U b k) = b i;
  cho_solved : forall n L B i j, lower n L -> nonsingular n L -> (i < n)%nat -> (j < n)%nat ->
    sumn n (fun k => sumn n (fun c => L i c * L k c) * cho_solve n L B k j) = B i j;
  rank_of_projection : forall n p Q, (forall a b, (a < p)%nat -> (b < p)%nat -> sumn n (fun i => Q i a * Q i b) = identity a b) ->
    matrix_rank n (fun i l => sumn p (fun c => Q i c * Q l c)) = p }.

(** The logarithm of the density at r of a Gaussian vector with mean zero and covariance matrix C: r = L w, where C = L L^T and
    w is standard normal, so the density of r is the product of the densities of the w_i divided by the determinant of L. *)
Definition gaussian_log_density (n : nat) (C : matrix) (r : nat -> R) (v : R) : Prop :=
  exists L w, factor n C L /\ (forall i, (i < n)%nat -> sumn n (fun k => L i k * w k) = r i) /\
    v = sumn n (fun i => ln (/ sqrt (2 * PI) * exp (- (w i * w i) / 2)) - ln (L i i)).

(** The trend is known, or estimated from linearly independent basis functions.  [coefficients m n b r]: b are coefficients of the trend
    and r are the values of the trend at the data. *)
Definition proper (n : nat) (m : trend) : Prop := match m with Known _ => True | Estimated p F => (p <= n)%nat /\ independent n p F end.
Definition trend_values (m : trend) (b : nat -> R) (i : nat) : R := match m with Known v => v i | Estimated p F => sumn p (fun c => F i c * b c) end.
(** The finite values. *)
Definition finite {A} (o : outcome A) : option A := match o with Value v => Some v | _ => None end.
(** The correlation functions for which the gradient is implemented. *)
Definition smooth (k : kernel) : Prop := k = SqExp \/ k = AbsExp \/ k = Matern.
(** The data of one target. *)
Definition single (d : data) (j : nat) : data := Data (X d) 1 (fun i _ => y d i j) (mean d) (kern d).
(** The largest element of a set of numbers. *)
Definition largest (P : R -> Prop) (v : R) : Prop := P v /\ forall u, P u -> u <= v.
