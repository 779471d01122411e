(** Integer variables with integer or fractional bounds and step:
    bayes_optim/search_space/variable.py:314-334 and the sampling of an all-integer space
    (search_space.py:783-794). *)
From Coq Require Import ZArith QArith Qround.
Open Scope Q_scope.

(** variable.py:331 *)
Definition grid_size (lb ub step : Q) : Z := (Qfloor ((ub - lb) / step) + 1)%Z.
(** variable.py:63-70 *)
Definition grid_value (lb step : Q) (i : Z) : Q := lb + inject_Z i * step.
(** variable.py:333-334 *)
Definition grid_contains (lb ub x : Q) : bool := Qle_bool lb x && Qle_bool x ub.
(** search_space.py:784-793: a space whose variables are all Integer collects the samples in an
    array of ints; storing a float there truncates it towards zero. *)
Definition to_int (q : Q) : Z := if Qle_bool 0 q then Qfloor q else Qceiling q.
(** search_space.py:791-793 with variable.py:277-278: the stored i-th value. *)
Definition integer_space_sample (lb step : Q) (i : Z) : Z := to_int (grid_value lb step i).
