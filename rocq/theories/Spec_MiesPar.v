(** Vocabulary for the statements about the strategy parameters and the stopping criteria of MIES. *)
From Coq Require Import List Bool Arith ZArith QArith Qabs Reals Qreals.
From Verif Require Import Model_Var Model_Ask Spec_Ask Model_MIES Spec_MIES Model_MiesPar.
Import ListNotations.

(** What the random numbers guarantee with probability one: the factors exp(...) are positive and the normal numbers are not
    zero; parents and levels are positions. *)
Definition noise_ok (d : noise) : Prop :=
  (forall j, ~ (n_R d j == 0)%Q) /\ (forall j, (0 < n_sigma d j)%Q) /\ (forall j, (0 < n_eta d j)%Q) /\ (0 < n_prob d)%Q.
Definition positions_ok (vs : list var) (mu : nat) (d : noise) : Prop :=
  (n_p1 d < mu)%nat /\ (n_p2 d < mu)%nat /\
  forall j i v, nth_error (id_d vs) j = Some i -> nth_error vs i = Some v -> (n_level d j < length (levels (vkind v)))%nat.

(** A probability numpy accepts for the geometric distribution. *)
Definition probability (p : R) : Prop := (0 < p <= 1)%R.

(** The points evaluated in a run, with their values. *)
Definition evaluated (s : pst) : list (point * Q) := map (fun a => (i_x (fst a), snd a)) (p_trace s).

(** The fitness of the first offspring of generation g (counted from 1) of a run from m initial points. *)
Definition first_value (m lambda : nat) (s : pst) (g : nat) : option Q := option_map snd (nth_error (p_trace s) (m + (g - 1) * lambda)).
(** These values differ by less than tol in the last n generations. *)
Definition stagnant (m lambda n : nat) (tol : Q) (s : pst) : Prop :=
  forall g1 g2 v1 v2, (1 <= g1 <= p_iters s)%nat -> (1 <= g2 <= p_iters s)%nat -> (p_iters s < g1 + n)%nat -> (p_iters s < g2 + n)%nat ->
    first_value m lambda s g1 = Some v1 -> first_value m lambda s g2 = Some v2 -> (Qabs (v1 - v2) < tol)%Q.
