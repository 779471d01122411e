(** The concentrated likelihood and its gradient, as maximised when a Gaussian process is fitted:
    bayes_optim/surrogate/gaussian_process/gpr.py 790-811, 920-1040 and 1113-1124.  Real arithmetic; vectors and matrices are
    functions of their indices, of which only those below the dimensions count. *)
From Coq Require Import Reals List Arith Bool.
From Verif Require Import Lib_Sum Model_Kernel.
Import ListNotations.
Open Scope R_scope.

Definition matrix := nat -> nat -> R.
(** The three values of estimation_mode, 256-263. *)
Inductive mode := Noiseless | NoiseEstim | Noisy.
(** The trend at the training points: known values (222-223: zero by default) or p basis functions with unknown coefficients. *)
Inductive trend := Known (m : nat -> R) | Estimated (p : nat) (F : matrix).
(** X, y with [targets] columns, the trend and the correlation function. *)
Record data := Data { X : list (list R); targets : nat; y : matrix; mean : trend; kern : kernel }.
(** An exception; the value -inf (with a gradient of zeros); a finite value. *)
Inductive outcome (A : Type) := Fails | MinusInf | Value (a : A).
Arguments Fails {A}. Arguments MinusInf {A}. Arguments Value {A}.

Section Likelihood.
(** scipy.linalg: cholesky(lower=True) ([None]: LinAlgError), qr(mode="economic"), solve_triangular for one right-hand side,
    cho_solve((L, True), .); numpy.linalg.matrix_rank.  The first argument is the number of rows. *)
Variable cholesky : nat -> matrix -> option matrix.
Variable qr : nat -> nat -> matrix -> matrix * matrix.
Variable solve_lower : nat -> matrix -> (nat -> R) -> nat -> R.
Variable solve_upper : nat -> matrix -> (nat -> R) -> nat -> R.
Variable cho_solve : nat -> matrix -> matrix -> matrix.
Variable matrix_rank : nat -> matrix -> nat.

Record aux := Aux { a_L : matrix; a_rho : matrix; a_Q : option (nat * matrix) }.
(** 790-811  _compute_aux_var; None: LinAlgError.  A column of known trend values is broadcast against the targets. *)
Definition compute_aux_var (d : data) (A : matrix) : option aux :=
  let n := length (X d) in
  match cholesky n A with
  | None => None
  | Some L =>
      let Yt := fun i j => solve_lower n L (fun k => y d k j) i in
      match mean d with
      | Estimated p F =>
          let Ft := fun i c => solve_lower n L (fun k => F k c) i in
          let Q := fst (qr n p Ft) in
          let rho := fun i j => Yt i j - sumn n (fun l => sumn p (fun c => Q i c * Q l c) * Yt l j) in
          Some (Aux L rho (Some (p, Q)))
      | Known m => Some (Aux L (fun i j => Yt i j - solve_lower n L m i) None)
      end
  end.

(** (rho ** 2.0).sum(axis=0), 920-984. *)
Definition sum_sq (n : nat) (rho : matrix) (j : nat) : R := sumn n (fun i => rho i j ^ 2).
(** What the value and the gradient are computed from: the log likelihood of each target, the parameters theta, the correlation
    matrix, the auxiliary variables, and sigma2 or sigma2_total for each target. *)
Record evaluation := Evaluation { ll : nat -> R; theta : list R; R0 : matrix; aux_of : aux; total : nat -> R }.
(** 2 * sum(log(diag(L))), 920-984. *)
Definition log_det (n : nat) (L : matrix) : R := 2 * sumn n (fun i => ln (L i i)).
(** 930-984: Fails is an exception of the correlation function (932, 951, 967 are outside the [try]); None stands for
    log_likelihood = None and for a value of +inf.
    Noiseless: a division by zero and the logarithm of zero are warnings turned into exceptions. *)
Definition evaluate (m : mode) (noise : R) (d : data) (par : list R) : outcome (option evaluation) :=
  let n := length (X d) in
  let theta := match m with Noiseless => par | _ => removelast par end in
  match correlation_matrix (kern d) theta (X d) with
  | None => Fails
  | Some R0 =>
      Value
        match m with
        | Noiseless =>
            match compute_aux_var d R0 with
            | None => None
            | Some a =>
                let k := match a_Q a with Some (p, Q) => matrix_rank n (fun i l => sumn p (fun c => Q i c * Q l c)) | None => 0%nat end in
                let sigma2 := fun j => sum_sq n (a_rho a) j / INR (n - k) in
                if ((n - k =? 0)%nat || existsb (fun j => if Req_EM_T (sigma2 j) 0 then true else false) (seq 0 (targets d)))%bool then None
                else Some (Evaluation (fun j => - (1 / 2) * (INR n * ln (2 * PI * sigma2 j) + log_det n (a_L a) + INR n)) theta R0 a sigma2)
            end
        | NoiseEstim =>
            let alpha := last par 0 in
            match compute_aux_var d (fun i j => alpha * R0 i j + (1 - alpha) * eye i j) with
            | None => None
            | Some a =>
                let sigma2_total := fun j => sum_sq n (a_rho a) j / INR n in
                if existsb (fun j => if Req_EM_T (sigma2_total j) 0 then true else false) (seq 0 (targets d)) then None
                else Some (Evaluation (fun j => - (1 / 2) * (INR n * ln (2 * PI * sigma2_total j) + log_det n (a_L a) + INR n)) theta R0 a sigma2_total)
            end
        | Noisy =>
            let sigma2_total := last par 0 + noise in
            match compute_aux_var d (fun i j => (last par 0 * R0 i j + noise * eye i j) / sigma2_total) with
            | None => None
            | Some a =>
                Some (Evaluation (fun j => - (1 / 2) * (INR n * ln (2 * PI * sigma2_total) + log_det n (a_L a) + sum_sq n (a_rho a) j / sigma2_total)) theta R0 a (fun _ => sigma2_total))
            end
        end
  end.
(** 986-987: a positive value for one target is rejected. *)
Definition accept (d : data) (o : outcome (option evaluation)) : outcome evaluation :=
  match o with
  | Fails => Fails
  | MinusInf | Value None => MinusInf
  | Value (Some e) => if existsb (fun j => if Rlt_dec 0 (ll e j) then true else false) (seq 0 (targets d)) then MinusInf else Value e
  end.
(** 920-1040  log_likelihood_concentrated(par) *)
Definition log_likelihood (m : mode) (noise : R) (d : data) (par : list R) : outcome R :=
  match accept d (evaluate m noise d par) with
  | Fails => Fails
  | MinusInf => MinusInf
  | Value e => Value (sumn (targets d) (ll e))
  end.

(** np.triu_indices(n, 1) *)
Definition upper_sum (n : nat) (f : matrix) : R := sumn n (fun i => sumn n (fun j => if (i <? j)%nat then f i j else 0)).
(** np.sum of a matrix, 988-1040. *)
Definition full_sum (n : nat) (f : matrix) : R := sumn n (fun i => sumn n (fun j => f i j)).
(** corr_grad_theta(theta, X, R0)[:, :, c] *)
Definition grad_slice (d : data) (e : evaluation) (c : nat) : matrix := fun i j =>
  match corr_grad_theta (kern d) (theta e) (R0 e i j) (absdiff (nth i (X d) []) (nth j (X d) [])) with
  | Some g => nth c g 0
  | None => 0
  end.
(** 1000-1038: the gradient, summed over the targets.  Noisy: entry c is made from slice c of the tensor of all features with R0 after
    them.  The correlation functions without a gradient fail (UnboundLocalError in
    corr_grad_theta). *)
Definition gradient (m : mode) (d : data) (e : evaluation) (par : list R) : option (list R) :=
  let n := length (X d) in
  let L := a_L (aux_of e) in
  let gamma := fun i j => solve_upper n (fun a b => L b a) (fun k => a_rho (aux_of e) k j) i in
  let Rinv := cho_solve n L eye in
  let n_theta := length (theta e) in
  let sum_targets f := sumn (targets d) f in
  match kern d with
  | GenExp | Cubic => None
  | _ =>
      Some match m with
      | Noiseless | NoiseEstim =>
          let alpha := match m with Noiseless => 1 | _ => last par 0 end in
          let R_grad c := fun i j => alpha * grad_slice d e c i j in
          let gg := fun i l => sum_targets (fun j => gamma i j * gamma l j) in
          map (fun c => sum_targets (fun j => upper_sum n (fun i l => gg i l * R_grad c i l) / total e j - upper_sum n (fun i l => Rinv i l * R_grad c i l))) (seq 0 n_theta) ++
          match m with
          | Noiseless => []
          | _ => let R_dv := fun i l => R0 e i l - eye i l in
                 [sum_targets (fun j => - (1 / 2) * (full_sum n (fun i l => Rinv i l * R_dv i l) - full_sum n (fun i l => gamma i j * R_dv i l * gamma l j) / total e j))]
          end
      | Noisy =>
          let s := total e 0%nat in
          let gamma_ := fun i j => gamma i j / s in
          let Cinv := fun i l => Rinv i l / s in
          let component C_grad := sum_targets (fun j => - (1 / 2) * (full_sum n (fun i l => Cinv i l * C_grad i l) - full_sum n (fun i l => gamma_ i j * C_grad i l * gamma_ l j))) in
          let n_features := length (nth 0 (X d) []) in
          map (fun c => component (if (c <? n_features)%nat then fun i l => s * grad_slice d e c i l else R0 e)) (seq 0 (length par))
      end
  end.
(** log_likelihood_concentrated(par, eval_grad=True) *)
Definition likelihood_and_gradient (m : mode) (noise : R) (d : data) (par : list R) : outcome (R * list R) :=
  match accept d (evaluate m noise d par) with
  | Fails => Fails
  | MinusInf => MinusInf
  | Value e => match gradient m d e par with Some g => Value (sumn (targets d) (ll e), g) | None => Fails end
  end.
(** 1113-1124: the function that L-BFGS-B minimizes; its argument is log10 of the parameters. *)
Definition objective (m : mode) (noise : R) (d : data) (x : list R) : outcome (R * list R) :=
  match likelihood_and_gradient m noise d (map (fun v => Rpower 10 v) x) with
  | Fails => Fails
  | MinusInf => MinusInf
  | Value (v, g) => Value (-1 * v, map (fun a => -1 * a) g)
  end.
End Likelihood.
