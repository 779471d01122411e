(** Specification for the Gaussian process: the contracts of LAPACK's factorisations, and the posterior
    of a Gaussian process written with the inverse covariance matrix (Rasmussen and Williams 2006,
    equations 2.23-2.24 and 2.41-2.42), independent of any factorisation. *)
From mathcomp Require Import all_ssreflect all_algebra.
Set Implicit Arguments.
Unset Strict Implicit.
Unset Printing Implicit Defensive.
Import GRing.Theory Num.Theory.
Local Open Scope ring_scope.

(** scipy.linalg.cholesky(lower=True): a lower triangular factor with positive diagonal. *)
Definition cholesky_contract (F : realFieldType) n (cholesky : 'M[F]_n -> option 'M[F]_n) : Prop :=
  forall A L, cholesky A = Some L ->
    [/\ forall i j : 'I_n, (i < j)%N -> L i j = 0, forall i, 0 < L i i & L *m L^T = A].

(** scipy.linalg.qr(mode="economic"): orthonormal columns and an upper triangular factor. *)
Definition qr_contract (F : realFieldType) n p (qr : 'M[F]_(n, p) -> 'M[F]_(n, p) * 'M[F]_p) : Prop :=
  forall A, [/\ A = (qr A).1 *m (qr A).2, (qr A).1^T *m (qr A).1 = 1%:M
    & forall i j : 'I_p, (j < i)%N -> (qr A).2 i j = 0].

Section Posterior.
Variables (F : fieldType) (n p t : nat).
(** K: covariances of the observations (noise included); k: covariances of the observations with the
    value at the new point; v: prior variance there; H: trend functions at the observations; h: at the
    new point. *)
Variables (K : 'M[F]_n) (k : 'rV[F]_n) (v : F) (H : 'M[F]_(n, p)) (h : 'rV[F]_p) (y : 'M[F]_(n, t)).

(** Known trend coefficients. *)
Definition posterior_mean_known (beta : 'M[F]_(p, t)) : 'rV[F]_t := h *m beta + k *m invmx K *m (y - H *m beta).
Definition posterior_var_known : F := v - (k *m invmx K *m k^T) 0 0.

(** Unknown coefficients: generalised least squares, and the extra variance that this costs. *)
Definition gls_beta : 'M[F]_(p, t) := invmx (H^T *m invmx K *m H) *m (H^T *m invmx K *m y).
Definition posterior_mean_estimated : 'rV[F]_t := posterior_mean_known gls_beta.
Definition posterior_var_estimated : F :=
  let u := h - k *m invmx K *m H in
  posterior_var_known + (u *m invmx (H^T *m invmx K *m H) *m u^T) 0 0.
End Posterior.

Section Process.
Variables (F : realFieldType) (P : Type) (corr : P -> P -> F).
(** A correlation: symmetric, and one between a point and itself. *)
Definition is_correlation : Prop := (forall x, corr x x = 1) /\ (forall x x', corr x x' = corr x' x).
(** A correlation of some random process is positive semi-definite. *)
Definition psd : Prop := forall m (Z : 'I_m -> P) (v : 'rV[F]_m), 0 <= \sum_i \sum_j v 0 i * v 0 j * corr (Z i) (Z j).
(** Covariances of noisy observations of a process with variance s2; of one of them with a new value. *)
Definition obs_cov n (s2 noise : F) (X : 'I_n -> P) : 'M[F]_n :=
  \matrix_(i, j) (s2 * corr (X i) (X j) + (if i == j then noise else 0)).
Definition new_cov n (s2 : F) (X : 'I_n -> P) (x : P) : 'rV[F]_n := \row_j (s2 * corr x (X j)).
Definition trend_at n p (f : P -> 'rV[F]_p) (X : 'I_n -> P) : 'M[F]_(n, p) := \matrix_(i, j) f (X i) 0 j.
(** Mean and variance of the value at x given the observations y, with known or unknown coefficients b. *)
Definition process_mean n p t (s2 noise : F) (f : P -> 'rV[F]_p) (b : option 'cV[F]_p) (X : 'I_n -> P)
    (y : 'M[F]_(n, t)) (x : P) : 'rV[F]_t :=
  match b with
  | Some b => posterior_mean_known (obs_cov s2 noise X) (new_cov s2 X x) (trend_at f X) (f x) y (b *m const_mx 1)
  | None => posterior_mean_estimated (obs_cov s2 noise X) (new_cov s2 X x) (trend_at f X) (f x) y
  end.
Definition process_var n p (s2 noise : F) (f : P -> 'rV[F]_p) (b : option 'cV[F]_p) (X : 'I_n -> P) (x : P) : F :=
  match b with
  | Some _ => posterior_var_known (obs_cov s2 noise X) (new_cov s2 X x) s2
  | None => posterior_var_estimated (obs_cov s2 noise X) (new_cov s2 X x) s2 (trend_at f X) (f x)
  end.
End Process.
