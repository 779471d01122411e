(** The CMA-ES of the hyper-parameter search: bayes_optim/surrogate/gaussian_process/cma_es.py and boundary_handling.py, as
    called by gpr.py 1168-1177 (sampling_method 0, no _lambda, _mu and damps in opts, restart "IPOP").  Real arithmetic;
    vectors and matrices are functions of their indices.  The end of the loop is in Model_Search; here, the
    generations.  Left out: the registration of the history (450-469), the entries of stop_dict (they do not end
    the loop, see C144) and the exception for infinite fitness values (480-482). *)
From Coq Require Import Reals List Arith ZArith.
From Verif Require Import Lib_Sum.
Open Scope R_scope.

(** boundary_handling.py 33-39 for one entry with finite bounds.  floor is [Int_part]. *)
Definition reflectR (x lb ub : R) : R :=
  let y := (x - lb) / (ub - lb) in
  let fl := Int_part y in
  let d := Rabs (y - IZR fl) in
  lb + (ub - lb) * (if Z.even fl then d else 1 - d).

(** ** Strategy parameters, 123-161 *)
Definition mu_prime (lam : nat) : R := (INR lam - 1) / 2.
(** 124  int(ceil((lambda - 1) / 2)) is the integer half of lambda. *)
Definition mu (lam : nat) : nat := (lam / 2)%nat.
(** 129-131; index i is the weight of rank i + 1. *)
Definition raw_weight (lam i : nat) : R := ln (mu_prime lam + 1) - ln (INR (i + 1)).
(** 130: the normalised weights. *)
Definition weight (lam i : nat) : R := raw_weight lam i / sumn (mu lam) (raw_weight lam).
(** 131: the variance-effective number of parents. *)
Definition mueff (lam : nat) : R := (sumn (mu lam) (weight lam)) ^ 2 / sumn (mu lam) (fun i => (weight lam i) ^ 2).
(** 145-161 *)
Definition cc (lam dim : nat) : R := (4 + mueff lam / INR dim) / (INR dim + 4 + 2 * mueff lam / INR dim).
(** 146: the constant of the step-size path. *)
Definition cs (lam dim : nat) : R := (mueff lam + 2) / (INR dim + mueff lam + 5).
(** 148 and 152: the rate of the rank-one update. *)
Definition c_1 (lam dim : nat) : R :=
  (if (mu lam =? 1)%nat then Rmin 2 (INR lam / 3) else 2) / ((INR dim + 13 / 10) ^ 2 + mueff lam).
(** 149 and 153-155: the damping of the step size. *)
Definition damps (lam dim : nat) : R :=
  if (mu lam =? 1)%nat then 3 / 10 + 2 * mueff lam / INR lam + cs lam dim
  else 1 + 2 * Rmax 0 (sqrt ((mueff lam - 1) / (INR dim + 1)) - 1) + cs lam dim.
(** 156-161: the rate of the rank-mu update. *)
Definition c_mu (lam dim : nat) : R :=
  Rmin (1 - c_1 lam dim) (2 * (mueff lam - 2 + 1 / mueff lam) / ((INR dim + 2) ^ 2 + mueff lam)).
(** 193 *)
Definition chiN (dim : nat) : R := sqrt (INR dim) * (1 - 1 / (4 * INR dim) + 1 / (21 * INR dim ^ 2)).

(** The attributes of the object (109-141) that a generation changes. *)
Record cma := CMA {
  wcm : nat -> R; pc : nat -> R; ps : nat -> R; C : nat -> nat -> R; sigma : R;
  e_vector : nat -> nat -> R; e_value : nat -> R; invsqrt_C : nat -> nat -> R; evalcount : nat; eigeneval : nat }.

Section CMAES.
Variables (dim lam : nat) (lb ub : nat -> R) (sigma0 : R).
(** The function to be minimized, numpy's argsort of the lambda fitness values, and eigh of scipy (eigenvalues and
    eigenvectors in columns; [None] is LinAlgError). *)
Variable fitness : (nat -> R) -> R.
Variable argsort : (nat -> R) -> nat -> nat.
Variable eigh : (nat -> nat -> R) -> option ((nat -> R) * (nat -> nat -> R)).

(** 552-559 *)
Definition reset_state (s : cma) : cma :=
  CMA (wcm s) (fun _ => 0) (fun _ => 0) identity sigma0 identity (fun _ => 1) identity (evalcount s) (eigeneval s).
(** 103-141 *)
Definition init (wcm0 : nat -> R) : cma :=
  CMA wcm0 (fun _ => 0) (fun _ => 0) identity sigma0 identity (fun _ => 1) identity 0 0.

(** 380-384: offspring k, coordinate j *)
Definition offspring (s : cma) (z : nat -> nat -> R) (k j : nat) : R :=
  reflectR (wcm s j + sigma s * sumn dim (fun l => e_vector s j l * (e_value s l * z l k))) (lb j) (ub j).
(** 392, 580: the offspring of rank i *)
Definition selected (s : cma) (z : nat -> nat -> R) (i : nat) : nat -> R :=
  offspring s z (argsort (fun k => fitness (offspring s z k)) i).
(** 584 *)
Definition recombine (s : cma) (z : nat -> nat -> R) (j : nat) : R :=
  sumn (mu lam) (fun i => selected s z i j * weight lam i).

(** 395-419; evalcount has been increased before (391). *)
Definition update (s : cma) (z : nat -> nat -> R) : cma :=
  let cs := cs lam dim in let cc := cc lam dim in let c_1 := c_1 lam dim in let c_mu := c_mu lam dim in let mueff := mueff lam in
  let wcm' := recombine s z in
  let evals := (evalcount s + lam)%nat in
  let ps' := fun j => (1 - cs) * ps s j + sqrt (cs * (2 - cs) * mueff) * sumn dim (fun l => invsqrt_C s j l * ((wcm' l - wcm s l) / sigma s)) in
  let hsig := if Rlt_dec (sumn dim (fun j => ps' j ^ 2) / (1 - Rpower (1 - cs) (2 * INR evals / INR lam)) / INR dim) (2 + 4 / (INR dim + 1)) then 1 else 0 in
  let pc' := fun j => (1 - cc) * pc s j + hsig * sqrt (cc * (2 - cc) * mueff) * (wcm' j - wcm s j) / sigma s in
  let offset := fun j i => (selected s z i j - wcm s j) / sigma s in
  let C' := fun j l => (1 - c_1 - c_mu) * C s j l + c_1 * (pc' j * pc' l + (1 - hsig) * cc * (2 - cc) * C s j l)
                       + c_mu * sumn (mu lam) (fun i => offset j i * (weight lam i * offset l i)) in
  let sigma' := sigma s * exp ((sqrt (sumn dim (fun j => ps' j ^ 2)) / chiN dim - 1) * cs / damps lam dim) in
  CMA wcm' pc' ps' C' sigma' (e_vector s) (e_value s) (invsqrt_C s) evals (eigeneval s).

(** 427-446: the decomposition is used unless it fails or an eigenvalue is negative (its root is then complex). *)
Definition triu_sym (A : nat -> nat -> R) : nat -> nat -> R := fun i j => if (i <=? j)%nat then A i j else A j i.
(** 427-446 updateBD. *)
Definition updateBD (s : cma) : cma :=
  match eigh (triu_sym (C s)) with
  | None => s
  | Some (w, V) =>
    if existsb (fun i => if Rlt_dec (w i) 0 then true else false) (seq 0 dim) then s
    else CMA (wcm s) (pc s) (ps s) (C s) (sigma s) V (fun i => sqrt (w i))
             (fun j l => sumn dim (fun i => V j i * (/ sqrt (w i) * V l i))) (evalcount s) (eigeneval s)
  end.
(** 588-593 *)
Definition lazyBD (s : cma) : cma :=
  if Rlt_dec (INR lam / (c_1 lam dim + c_mu lam dim) / INR dim / 10) (INR (evalcount s - eigeneval s))
  then updateBD (CMA (wcm s) (pc s) (ps s) (C s) (sigma s) (e_vector s) (e_value s) (invsqrt_C s) (evalcount s) (evalcount s)) else s.
(** 484-488 with is_stop_on_warning False, 548-550 *)
Definition rectify (s : cma) : cma :=
  if Rlt_dec (sigma s) (/ 10 ^ 16) then reset_state s else if Rlt_dec (10 ^ 6) (sigma s) then reset_state s else s.
(** The loop of 568-602 once. *)
Definition generation (s : cma) (z : nat -> nat -> R) : cma := rectify (lazyBD (update s z)).
(** The population that generation g evaluates is that of the state before it. *)
Fixpoint generations (g : nat) (s : cma) (zs : nat -> nat -> nat -> R) : cma :=
  match g with O => s | S g => generation (generations g s zs) (zs g) end.
End CMAES.
