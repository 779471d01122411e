(** Scales of real variables: bayes_optim/search_space/variable.py:19-53 and 192-248, over the
    real numbers (floating-point rounding is not modelled). *)
From Coq Require Import Reals.
Open Scope R_scope.

Inductive scale := Linear | Log | Log10 | Logit | Bilog.

(** np.sign *)
Definition rsign (x : R) : R := if Rlt_dec x 0 then -1 else if Rlt_dec 0 x then 1 else 0.

(** variable.py:40-46, first entries (np.log10 is ln x / ln 10, scipy's logit is ln (x / (1 - x)));
    bilog 23-24. *)
Definition trans (s : scale) (x : R) : R :=
  match s with
  | Linear => x
  | Log => ln x
  | Log10 => ln x / ln 10
  | Logit => ln (x / (1 - x))
  | Bilog => rsign x * ln (1 + Rabs x)
  end.
(** variable.py:47-53, 27-36 *)
Definition inv_trans (s : scale) (y : R) : R :=
  match s with
  | Linear => y
  | Log => exp y
  | Log10 => Rpower 10 y
  | Logit => 1 / (1 + exp (- y))
  | Bilog => rsign y * (exp (Rabs y) - 1)
  end.

(** variable.py:39 and 40-46, second entries. *)
Definition MAX : R := (2 - / 2 ^ 52) * 2 ^ 1023.
(** variable.py:42-44: 1e-300. *)
Definition tiny : R := / 10 ^ 300.
(** variable.py:40-46, second entries: the range of a scale. *)
Definition working_range (s : scale) : R * R :=
  match s with
  | Linear | Bilog => (- MAX, MAX)
  | Log | Log10 => (tiny, MAX)
  | Logit => (tiny, 1)
  end.

(** variable.py:216-245: the scale setter, on the bounds. *)
Definition fix_lower (r : R * R) (lb : R) : R :=
  if Rlt_dec lb (fst r) then fst r else if Rlt_dec (snd r) lb then fst r else lb.
(** variable.py:216-245: the same for the upper bound. *)
Definition fix_upper (r : R * R) (ub : R) : R :=
  if Rlt_dec ub (fst r) then snd r else if Rlt_dec (snd r) ub then snd r else ub.
(** variable.py:192-197: construction; None is the AssertionError. *)
Definition make_real (s : scale) (lb ub : R) : option (R * R) :=
  if Rlt_dec lb ub then Some (fix_lower (working_range s) lb, fix_upper (working_range s) ub) else None.

(** search_space.py:742-754 (uniform, LHS and Sobol designs all scale u in [0, 1]) followed by
    to_linear_scale (variable.py:247-248); rounding to a precision is Model_Var.real_round. *)
Definition sample_real (s : scale) (b : R * R) (u : R) : R :=
  inv_trans s ((trans s (snd b) - trans s (fst b)) * u + trans s (fst b)).
