(** The Gaussian process of bayes_optim/surrogate/gaussian_process/gpr.py with the trends of trend.py,
    over an arbitrary real field (exact arithmetic), for any number n of training points, any number p
    of trend functions and any number t of targets.  The points form an arbitrary type: the kernel is a
    parameter here (see Model_Kernel for the kernels).  Oracles: LAPACK's Cholesky and QR
    factorisations, the maximiser of the likelihood, and whether the likelihood value is accepted. *)
From mathcomp Require Import all_ssreflect all_algebra.
Set Implicit Arguments.
Unset Strict Implicit.
Unset Printing Implicit Defensive.
Import GRing.Theory Num.Theory.
Local Open Scope ring_scope.

Section GP.
Variables (F : realFieldType) (P Theta : Type) (n p t : nat).

(** trend.py 10-38: a basis expansion with coefficients or with [None]; 145-151: a regression model. *)
Inductive trend := Basis (f : P -> 'rV[F]_p) (beta : option 'cV[F]_p) | Nonparametric.
(** gpr.py 256-263 *)
Inductive mode := Noiseless | NoiseEstim | Noisy.
(** gpr.py 208, 222 and 265-266: the argument likelihood. *)
Inductive likelihood := Concentrated | Restricted.
(** The exceptions of the functions below: scipy's LinAlgError, trend.py 28, and Python's own. *)
Inductive error := LinAlgError | ShapesDoNotMatch | TypeError | AttributeError | ValueError | Undetermined.
(** No counterpart in the code: a value or an exception. *)
Inductive result (A : Type) := Ok (a : A) | Error (e : error).
Arguments Error {A}.

(** The hyper-parameters: theta, and sigma2 (noisy mode) or alpha (noise_estim mode). *)
Record par := Par { theta : Theta; extra : F }.

(** scipy.linalg.solve_triangular reads one triangle of its first argument only. *)
Definition tril m (A : 'M[F]_m) : 'M[F]_m := \matrix_(i, j) (if (j <= i)%N then A i j else 0).
(** The upper triangle, likewise. *)
Definition triu m (A : 'M[F]_m) : 'M[F]_m := \matrix_(i, j) (if (i <= j)%N then A i j else 0).
(** solve_triangular(A, B, lower=True), used by gpr.py 790-811. *)
Definition solve_lower m k (A : 'M[F]_m) (B : 'M[F]_(m, k)) : 'M[F]_(m, k) := invmx (tril A) *m B.
(** solve_triangular(A, B), used by gpr.py 784-788. *)
Definition solve_upper m k (A : 'M[F]_m) (B : 'M[F]_(m, k)) : 'M[F]_(m, k) := invmx (triu A) *m B.

Variable corr : Theta -> P -> P -> F.
Variable cholesky : 'M[F]_n -> option 'M[F]_n.
Variable qr : 'M[F]_(n, p) -> 'M[F]_(n, p) * 'M[F]_p.

(** gpr.py 772-782  correlation_matrix (see Model_Kernel for the pairs of indices) *)
Definition correlation_matrix (th : Theta) (X : 'I_n -> P) : 'M[F]_n :=
  \matrix_(i, j) (if (i < j)%N then corr th (X i) (X j) else if (j < i)%N then corr th (X j) (X i) else 1).

(** 298-310: the matrix F of the trend at the training points. *)
Definition basis_matrix (f : P -> 'rV[F]_p) (X : 'I_n -> P) : 'M[F]_(n, p) := \matrix_(i, j) f (X i) 0 j.
(** A column of coefficients is broadcast against the targets. *)
Definition broadcast (b : 'cV[F]_p) : 'M[F]_(p, t) := b *m const_mx 1.

(** What _compute_aux_var returns; [None] for the trend part is (None, None, None). *)
Record aux := Aux { aL : 'M[F]_n; aYt : 'M[F]_(n, t); arho : 'M[F]_(n, t);
  atrend : option ('M[F]_(n, p) * 'M[F]_(n, p) * 'M[F]_p) }.

(** 790-811  _compute_aux_var; [None] is a LinAlgError.  A nonparametric trend leaves the attribute
    estimate_trend undefined (272-277), see [fit]. *)
Definition compute_aux_var (f : P -> 'rV[F]_p) (b : option 'cV[F]_p) (X : 'I_n -> P) (y : 'M[F]_(n, t))
    (R : 'M[F]_n) : option aux :=
  match cholesky R with
  | None => None
  | Some L =>
      let Yt := solve_lower L y in
      match b with
      | None =>
          let Ft := solve_lower L (basis_matrix f X) in
          let QG := qr Ft in
          let rho := Yt - (QG.1 *m QG.1^T) *m Yt in
          Some (Aux L Yt rho (Some (Ft, QG.1, QG.2)))
      | Some b =>
          let rho := Yt - solve_lower L (basis_matrix f X *m broadcast b) in
          Some (Aux L Yt rho None)
      end
  end.

(** The environment that the likelihood function fills in: sigma2, noise_var and the auxiliary variables. *)
Record env := Env { e_sigma2 : 'rV[F]_t; e_noise : 'rV[F]_t; e_aux : aux }.

(** The sums of squares of the columns of rho, gpr.py 919-986. *)
Definition colsq (rho : 'M[F]_(n, t)) : 'rV[F]_t := \row_j \sum_i rho i j ^+ 2.

(** 920-986  log_likelihood_concentrated, without the value: [None] is a LinAlgError, ValueError or
    warning, or an infinite value, which 988 rejects like a positive one.  Noiseless: sigma2 = sum of squares / (n - rank of Q Q^T); a division by zero and the
    logarithm of zero are warnings turned into errors.  Noise_estim: the logarithm of zero is -inf
    (no warning filter there), the value +inf. *)
Definition concentrated (m : mode) (noise : F) f b X y (q : par) : option env :=
  let R0 := correlation_matrix (theta q) X in
  match m with
  | Noiseless =>
      match compute_aux_var f b X y R0 with
      | None => None
      | Some a =>
          let k := if atrend a is Some (_, Q, _) then \rank (Q *m Q^T) else 0%N in
          let sigma2 := (n - k)%:R^-1 *: colsq (arho a) in
          if ((n - k)%N == 0%N) || [exists j, sigma2 0 j == 0] then None else Some (Env sigma2 0 a)
      end
  | NoiseEstim =>
      let alpha := extra q in
      match compute_aux_var f b X y (alpha *: R0 + (1 - alpha) *: 1%:M) with
      | None => None
      | Some a =>
          let total := n%:R^-1 *: colsq (arho a) in
          if [exists j, total 0 j == 0] then None
          else Some (Env (alpha *: total) ((1 - alpha) *: total) a)
      end
  | Noisy =>
      let sigma2 := extra q in
      match compute_aux_var f b X y ((sigma2 + noise)^-1 *: (sigma2 *: R0 + noise *: 1%:M)) with
      | None => None
      | Some a => Some (Env (const_mx sigma2) (const_mx noise) a)
      end
  end.

(** 988: the value must exist and be finite and not positive; [accept] compares the value. *)
Variable accept : mode -> par -> env -> bool.
(** 1077-1194  _optimize_hyperparameter, as far as [fit] depends on it: [best i] are the parameters
    that attempt i ends with; the likelihood is evaluated once more there. *)
Variable best : nat -> par.

(** 384-401: the loop of [fit], with the number of attempts made so far; [None]: still running after
    [fuel] attempts. *)
Fixpoint attempts (fuel : nat) (i : nat) (m : mode) (noise : F) f b X y : option (mode * par * env) :=
  match fuel with
  | 0%N => None
  | k.+1 =>
      let q := best i in
      let ok := match concentrated m noise f b X y q with
                | Some e => if accept m q e then Some e else None
                | None => None
                end in
      match ok with
      | Some e => Some (m, q, e)
      | None =>
          match m with
          | Noiseless => attempts k i.+1 Noisy (10%:R^-1 ^+ 5) f b X y
          | _ => attempts k i.+1 m (noise * 10%:R) f b X y
          end
      end
  end.

(** The attributes of a fitted model. *)
Record gp := GP { g_mode : mode; g_theta : Theta; g_X : 'I_n -> P; g_f : P -> 'rV[F]_p;
  g_C : 'M[F]_n; g_rho : 'M[F]_(n, t); g_gamma : 'M[F]_(n, t); g_beta : 'M[F]_(p, t);
  g_trend : option ('M[F]_(n, p) * 'M[F]_p);
  g_sigma2 : 'rV[F]_t; g_noise : 'rV[F]_t }.

(** 784-788 compute_beta_gamma with the setter of trend.py 21-29: the coefficients become one column,
    so that p * t of them do not fit unless t = 1; a singular G raises LinAlgError. *)
Definition finish (m : mode) (q : par) (e : env) f b X : result gp :=
  let a := e_aux e in
  let gamma := solve_upper (aL a)^T (arho a) in
  match atrend a, b with
  | Some (Ft, Q, G), _ =>
      if triu G \notin unitmx then Error LinAlgError
      else if (p * t)%N != p then Error ShapesDoNotMatch
      else Ok (GP m (theta q) X f (aL a) (arho a) gamma (solve_upper G (Q^T *m aYt a)) (Some (Ft, G))
             (e_sigma2 e) (e_noise e))
  | None, Some b =>
      Ok (GP m (theta q) X f (aL a) (arho a) gamma (broadcast b) None (e_sigma2 e) (e_noise e))
  | None, None => Error AttributeError
  end.

(** 374-417  fit.  (The restricted likelihood is not modelled beyond this: the search before it may itself
    fail or run on.)  The restricted likelihood leaves a scalar sigma2 (834, 904), of which [len] raises
    TypeError (408); a nonparametric trend fails at the first use of estimate_trend; 280-288: more
    trend functions than points. *)
Definition fit (fuel : nat) (lik : likelihood) (m : mode) (noise : F) (tr : trend) X y : option (result gp) :=
  match tr with
  | Nonparametric => Some (Error AttributeError)
  | Basis f b =>
      if (b == None) && (n < p)%N then Some (Error Undetermined)
      else match lik with
           | Restricted => Some (Error TypeError)
           | Concentrated =>
               match attempts fuel 0 m noise f b X y with
               | None => None
               | Some (m', q, e) => Some (finish m' q e f b X)
               end
           end
  end.

(** 459-512  predict without batches, at one point. *)
Definition corr_row (g : gp) (x : P) : 'rV[F]_n := \row_j corr (g_theta g) x (g_X g j).
(** gpr.py 486-490: the prediction, without batches, at one point. *)
Definition predict_mean (g : gp) (x : P) : 'rV[F]_t := g_f g x *m g_beta g + corr_row g x *m g_gamma g.
(** gpr.py 493-503: the mean squared error divided by sigma2. *)
Definition mse_factor (g : gp) (x : P) : F :=
  let rt := solve_lower (g_C g) (corr_row g x)^T in
  let u := match g_trend g with
           | Some (Ft, G) => \sum_i (solve_lower G^T (Ft^T *m rt - (g_f g x)^T)) i 0 ^+ 2
           | None => 0
           end in
  1 - \sum_i rt i 0 ^+ 2 + u.
(** gpr.py 502-510: the mean squared error, negative values set to zero. *)
Definition predict_mse (g : gp) (x : P) : 'rV[F]_t :=
  \row_j (let v := mse_factor g x * g_sigma2 g 0 j in if v < 0 then 0 else v).

(** 513-535  predict with batch_size (a positive int): n_eval / batch_size is a float, so [range]
    raises TypeError unless the maximum is the integer 1, and then the result, of shape (n_eval, t), is
    assigned to a slice of shape (n_eval): ValueError unless both are of size one. *)
Definition predict (g : gp) (batch : option nat) (xs : seq P) : result (seq ('rV[F]_t * 'rV[F]_t)) :=
  let all := [seq (predict_mean g x, predict_mse g x) | x <- xs] in
  match batch with
  | None => Ok all
  | Some bs =>
      if (bs < size xs)%N then Error TypeError
      else if (size xs == 1%N) && (t == 1%N) then Ok all
      else Error ValueError
  end.

(** 537-576  gradient, in d directions: [r_dx] is what corr_dx returns, transposed (see Model_Kernel), and
    [f_dx] is the Jacobian of the trend functions (trend.py 84-86 and 108-111).  The factor 2 sigma2 is
    multiplied with a row of length d, which is right for one target only: other numbers of targets are not
    modelled.  numpy.linalg.inv of a singular matrix raises. *)
Definition gradient d (g : gp) (x : P) (r_dx : 'M[F]_(n, d)) (f_dx : 'M[F]_(p, d)) : result ('M[F]_(t, d) * 'rV[F]_d) :=
  let y_dx := (g_beta g)^T *m f_dx + (g_gamma g)^T *m r_dx in
  let rt := solve_lower (g_C g) (corr_row g x)^T in
  let rt_dx := solve_lower (g_C g) r_dx in
  let mse_dx := - (rt^T *m rt_dx) in
  let scale (m : 'rV[F]_d) := \row_k (2%:R * (\sum_(j < t) g_sigma2 g 0 j) * m 0 k) in
  match g_trend g with
  | None => Ok (y_dx, scale mse_dx)
  | Some (Ft, G) =>
      let u := Ft^T *m rt - (g_f g x)^T in
      let u_dx := Ft^T *m rt_dx - f_dx in
      if Ft^T *m Ft \notin unitmx then Error LinAlgError
      else Ok (y_dx, scale (mse_dx + u^T *m invmx (Ft^T *m Ft) *m u_dx))
  end.
End GP.
Arguments Error {A}.
Arguments Ok {A}.
