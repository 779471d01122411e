(** Covariance of the (1+1)-CMA-ES: bayes_optim/acquisition/optim/one_plus_one_cma_es.py, over an
    arbitrary real closed field (exact arithmetic, with square roots) and in every dimension n.
    Vectors are rows.  [None] is a vector or matrix of nan (0 / 0 in NumPy). *)
From mathcomp Require Import all_ssreflect all_algebra.
Set Implicit Arguments.
Unset Strict Implicit.
Unset Printing Implicit Defensive.
Import GRing.Theory Num.Theory.
Local Open Scope ring_scope.

Section Cholesky.
Variables (R : rcfType) (n : nat).

(** 148-158: ccov and cc; the step [low] is whether success_rate < threshold. *)
Record params := Params { ccov : R; cc : R }.
(** 158 *)
Definition coeff (P : params) : R := cc P * (2%:R - cc P).

(** OnePlusOne_Cholesky_CMA: pc, _A, _A_inv. *)
Record chol := Chol { pc : 'rV[R]_n; A : 'M[R]_n; A_inv : 'M[R]_n }.

(** 426-449: the A setter asserts that A is lower triangular and solves A X = I; [None]: assertion or
    singular matrix.  C0 = None gives the identity. *)
Definition init (A0 : 'M[R]_n) : option chol :=
  if is_trig_mx A0 && (A0 \in unitmx) then Some (Chol 0 A0 (invmx A0)) else None.

(** 453-458 (and 380-385) *)
Definition next_pc (P : params) (low : bool) (z p : 'rV[R]_n) : 'rV[R]_n :=
  if low then (1 - cc P) *: p + Num.sqrt (coeff P) *: z else (1 - cc P) *: p.
(** 453-458: the factor of the old matrix, for a success rate below or above the threshold. *)
Definition ca_of (P : params) (low : bool) : R :=
  if low then 1 - ccov P else (1 - ccov P) + ccov P * cc P * (2%:R - cc P).

(** 451-468  _update_covariance *)
Definition update (P : params) (low : bool) (z : 'rV[R]_n) (s : chol) : option chol :=
  let cb := ccov P in
  let p := next_pc P low z (pc s) in
  let ca := ca_of P low in
  let w := p *m (A_inv s)^T in
  let w_ := w *m A_inv s in
  let L := \sum_j w 0 j ^+ 2 in
  if L == 0 then None
  else
    let A1 := A s + ((Num.sqrt (1 + L * cb / ca) - 1) / L) *: (p^T *m w) in
    let A2 := Num.sqrt ca *: A1 in
    let B1 := A_inv s - ((1 - 1 / Num.sqrt (1 + L * cb / ca)) / L) *: (w^T *m w_) in
    let B2 := (1 / Num.sqrt ca) *: B1 in
    Some (Chol p A2 B2).

(** 408-417  _handle_exception of the base class: _A_inv is not reset. *)
Definition reset (s : chol) : chol := Chol 0 1%:M (A_inv s).

(** What happens to the covariance: a successful step (326-331), an exception, a restart (266-277).
    The restart assigns x, which tells the new point; if that is a success the covariance is updated
    with z = (x - _x) / sigma = 0; then pc and _A are reset, _A_inv is not. *)
Inductive op := Success (low : bool) (z : 'rV[R]_n) | Exn | Restart (success low : bool).
(** One of these events. *)
Definition step (P : params) (o : op) (s : chol) : option chol :=
  match o with
  | Success low z => update P low z s
  | Exn => Some (reset s)
  | Restart success low => if success then omap reset (update P low 0 s) else Some (reset s)
  end.
(** A sequence of these events. *)
Fixpoint steps (P : params) (os : seq op) (s : chol) : option chol :=
  if os is o :: r then obind (steps P r) (step P o s) else Some s.

(** The base class OnePlusOne_CMA (379-388): pc and _C; the matrix is made symmetric from its upper
    triangle. *)
Record full := Full { fpc : 'rV[R]_n; fC : 'M[R]_n }.
(** 387: np.triu(C) + np.triu(C, 1).T. *)
Definition symm (M : 'M[R]_n) : 'M[R]_n :=
  (\matrix_(i, j) if (i <= j)%N then M i j else 0) + (\matrix_(i, j) if (i < j)%N then M i j else 0)^T.
(** 379-387. *)
Definition update_full (P : params) (low : bool) (z : 'rV[R]_n) (s : full) : full :=
  if low then
    let p := (1 - cc P) *: fpc s + Num.sqrt (coeff P) *: z in
    Full p (symm ((1 - ccov P) *: fC s + ccov P *: (p^T *m p)))
  else
    let p := (1 - cc P) *: fpc s in
    Full p (symm ((1 - ccov P * (1 - coeff P)) *: fC s + ccov P *: (p^T *m p))).
End Cholesky.
