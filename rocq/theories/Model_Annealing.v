(** Annealing of the acquisition parameter (bayes_optim/bayes_opt.py 118-143).  The numbers are
    real numbers. *)
From Coq Require Import Reals.
Open Scope R_scope.

Inductive schedule := Exp | Linear | Log.

Section Annealing.
  Variables (t0 tf : R).
  (** 127  max_iter = (max_FEs - DoE_size) / n_point, not necessarily a whole number *)
  Variable max_iter : R.

  (** 128-138  one application of the annealer; iter is self.iter_count at that moment *)
  Definition anneal (s : schedule) (iter : nat) (t : R) : R :=
    match s with
    | Exp => t * Rpower (tf / t0) (1 / max_iter)
    | Linear => t - (t0 - tf) / max_iter
    | Log => t * (tf * ln (max_iter + 1)) / ln (INR iter + 2)
    end.

  (** 124 and 140-143  the parameter after k calls of arg_max_acquisition; it j is the iteration
      counter at the j-th of them *)
  Fixpoint temperature (s : schedule) (it : nat -> nat) (k : nat) : R :=
    match k with 0%nat => t0 | S k => anneal s (it k) (temperature s it k) end.
End Annealing.

(** 127 *)
Definition max_iterations (max_FEs DoE_size n_point : nat) : R := (INR max_FEs - INR DoE_size) / INR n_point.
