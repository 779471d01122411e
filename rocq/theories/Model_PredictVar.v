(** The mean squared error returned by predict(X, eval_MSE=True), with the correlation functions of kernel.py:
    bayes_optim/surrogate/gaussian_process/gpr.py 404-412, 459-511.  Real arithmetic. *)
From Coq Require Import Reals List Arith.
From Verif Require Import Lib_Sum Model_Kernel Model_PriorCov Model_Likelihood.
Import ListNotations.
Open Scope R_scope.

(** env["sigma2"] of target j, 942, 956 and 970: kept by fit at 404. *)
Definition sigma2_of (m : mode) (par : list R) (e : evaluation) (j : nat) : R :=
  match m with Noiseless => total e j | NoiseEstim => last par 0 * total e j | Noisy => last par 0 end.
(** env["noise_var"] of target j, 934, 956 and 965: kept by fit at 403. *)
Definition noise_of (m : mode) (noise : R) (par : list R) (e : evaluation) (j : nat) : R :=
  match m with Noiseless => 0 | NoiseEstim => (1 - last par 0) * total e j | Noisy => noise end.

Section Predict.
Variable qr : nat -> nat -> matrix -> matrix * matrix.
Variable solve_lower : nat -> matrix -> (nat -> R) -> nat -> R.

(** 493-503: 1.0 - (rt ** 2.0).sum(axis=0) + (u ** 2.0).sum(axis=0) for one point x with the row r of correlations; [f] is mean.F, the
    basis functions at a point.  self.Ft and self.G are those of _compute_aux_var (804-805), kept by fit at 410-411. *)
Definition mse_factor (d : data) (L : matrix) (f : list R -> nat -> R) (x r : list R) : R :=
  let n := length (X d) in
  let rt := solve_lower n L (fun i => nth i r 0) in
  1 - sumn n (fun i => rt i * rt i) +
  match mean d with
  | Known _ => 0
  | Estimated p F =>
      let Ft := fun i c => solve_lower n L (fun k => F k c) i in
      let G := snd (qr n p Ft) in
      let u := solve_lower p (fun a b => G b a) (fun c => sumn n (fun i => Ft i c * rt i) - f x c) in
      sumn p (fun c => u c * u c)
  end.
(** 486-511: one row for each point, one column for each target; negative values become zero.  [None]: an exception of the correlation
    function.  [e] is the evaluation of the likelihood whose variables fit keeps. *)
Definition predict_mse (m : mode) (d : data) (par : list R) (e : evaluation) (f : list R -> nat -> R) (Xn : list (list R)) : option (list (list R)) :=
  match cross_corr (kern d) (theta e) Xn (X d) with
  | None => None
  | Some r => Some (map2 (fun x row => map (fun j => let v := mse_factor d (a_L (aux_of e)) f x row * sigma2_of m par e j in if Rlt_dec v 0 then 0 else v) (seq 0 (targets d))) Xn r)
  end.
End Predict.
