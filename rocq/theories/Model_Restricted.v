(** The restricted likelihood and its gradient: bayes_optim/surrogate/gaussian_process/gpr.py 813-918, selected with
    [likelihood="restricted"].  Real arithmetic and the routines of Model_Likelihood. *)
From Coq Require Import Reals List Arith Bool.
From Verif Require Import Lib_Sum Model_Kernel Model_Likelihood.
Import ListNotations.
Open Scope R_scope.

Section Restricted.
Variable cholesky : nat -> matrix -> option matrix.
Variable qr : nat -> nat -> matrix -> matrix * matrix.
Variable solve_lower : nat -> matrix -> (nat -> R) -> nat -> R.
Variable solve_upper : nat -> matrix -> (nat -> R) -> nat -> R.
Variable cho_solve : nat -> matrix -> matrix -> matrix.
(** numpy.linalg.det *)
Variable det : nat -> matrix -> R.

(** 826-834: theta, sigma2 and noise_var. *)
Definition parameters (m : mode) (noise : R) (par : list R) : list R * R * R :=
  match m with
  | Noiseless => (removelast par, last par 0, 0)
  | Noisy => (removelast par, last par 0, noise)
  | NoiseEstim => (removelast (removelast par), last (removelast par) 0, last par 0)
  end.
(** 799-803: G of the QR factorisation in _compute_aux_var. *)
Definition g_factor (n p : nat) (L F : matrix) : matrix := snd (qr n p (fun i c => solve_lower n L (fun k => F k c) i)).
(** np.prod(np.diag(G)) of gpr.py 813-918 (the determinant of the triangular factor G). *)
Definition prod_diag (p : nat) (G : matrix) : R := fold_right Rmult 1 (map (fun c => G c c) (seq 0 p)).
(** 837-839: the matrix R. *)
Definition scaled (sigma2 noise_var : R) (R0 : matrix) : matrix := fun i j => (sigma2 * R0 i j + noise_var * eye i j) / (sigma2 + noise_var).
(** 850-870: rho.T.dot(rho) is a matrix with a row and a column for each target, to which the other terms are broadcast. *)
Definition restricted_value (d : data) (total_var : R) (a : aux) : R :=
  let n := length (X d) in
  let quad := fun j l => sumn n (fun i => a_rho a i j * a_rho a i l) in
  - (1 / 2) *
  sumn (targets d) (fun j => sumn (targets d) (fun l =>
    match mean d with
    | Estimated p F =>
        INR (n - p) * ln (2 * PI * total_var) - ln (det p (fun b c => sumn n (fun i => F i b * F i c))) + log_det n (a_L a)
        + ln (prod_diag p (g_factor n p (a_L a) F) ^ 2) + quad j l / total_var
    | Known _ => INR n * ln (2 * PI * total_var) - log_det n (a_L a) + quad j l / total_var
    end)).
(** 836-870: the parameters theta, R0, the auxiliary variables, the value and total_var, as a record of Model_Likelihood.
    Fails: the correlation function fails, or the total variance is not positive, so that the value is not a number.
    843-848: if Cholesky fails the value is -inf and the gradient is zero (the warning is filtered out, __init__.py 22). *)
Definition restricted_evaluate (m : mode) (noise : R) (d : data) (par : list R) : outcome evaluation :=
  let '(theta, sigma2, noise_var) := parameters m noise par in
  match correlation_matrix (kern d) theta (X d) with
  | None => Fails
  | Some R0 =>
      let total_var := sigma2 + noise_var in
      if Rle_dec total_var 0 then Fails
      else match compute_aux_var cholesky qr solve_lower d (scaled sigma2 noise_var R0) with
           | None => MinusInf
           | Some a => Value (Evaluation (fun _ => restricted_value d total_var a) theta R0 a (fun _ => total_var))
           end
  end.
(** 872-875: a positive value is rejected. *)
Definition restricted_accept (o : outcome evaluation) : outcome evaluation :=
  match o with
  | Value e => if Rlt_dec 0 (ll e 0) then MinusInf else Value e
  | _ => o
  end.
(** 813-918  log_likelihood_restricted(par) *)
Definition log_likelihood_restricted (m : mode) (noise : R) (d : data) (par : list R) : outcome R :=
  match restricted_accept (restricted_evaluate m noise d par) with
  | Fails => Fails
  | MinusInf => MinusInf
  | Value e => Value (ll e 0)
  end.

(** 885-892: the slices of C_grad_tensor. *)
Definition slices (m : mode) (d : data) (e : evaluation) : list matrix :=
  map (fun c => (fun i j => total e 0 * grad_slice d e c i j) : matrix) (seq 0 (length (nth 0 (X d) []))) ++
  [R0 e] ++ match m with NoiseEstim => [eye] | _ => [] end.
(** 895-904: one entry of the gradient. *)
Definition entry (d : data) (e : evaluation) (C_grad : matrix) : R :=
  let n := length (X d) in
  let L := a_L (aux_of e) in
  let s := total e 0 in
  let gamma_ := fun i => solve_upper n (fun a b => L b a) (fun k => a_rho (aux_of e) k 0%nat) i / s in
  let Cinv := fun i l => cho_solve n L eye i l / s in
  let quad := full_sum n (fun i l => gamma_ i * C_grad i l * gamma_ l) in
  match a_Q (aux_of e) with
  | Some (p, Q) =>
      let u := fun i c => solve_upper n (fun a b => L b a) (fun k => Q k c) i in
      let term := fun i l => sumn p (fun c => u i c * u l c) in
      - (1 / 2) * (full_sum n (fun i l => Cinv i l * C_grad i l) - quad - full_sum n (fun i l => term i l * C_grad i l))
  | None => - (1 / 2) * (full_sum n (fun i l => Cinv i l * C_grad i l) - quad)
  end.
(** 877-904: with several targets [gamma_] has too many rows, which fails, as do a correlation function without a gradient and a
    parameter without a slice. *)
Definition restricted_gradient (m : mode) (d : data) (e : evaluation) (par : list R) : option (list R) :=
  if (targets d =? 1)%nat then
    match kern d with
    | GenExp | Cubic => None
    | _ =>
        fold_right (fun c acc => match nth_error (slices m d e) c, acc with Some C_grad, Some g => Some (entry d e C_grad :: g) | _, _ => None end)
          (Some []) (seq 0 (length par))
    end
  else None.
(** log_likelihood_restricted(par, eval_grad=True).  A gradient is also returned beside -inf; it is left out. *)
Definition restricted_and_gradient (m : mode) (noise : R) (d : data) (par : list R) : outcome (R * list R) :=
  match restricted_accept (restricted_evaluate m noise d par) with
  | Fails => Fails
  | MinusInf => MinusInf
  | Value e => match restricted_gradient m d e par with Some g => Value (ll e 0, g) | None => Fails end
  end.
End Restricted.
