(** Vocabulary for the statements about proposals made with the evolution strategy. *)
From Coq Require Import List Bool Arith ZArith QArith.
From Verif Require Import Model_Var Model_Ask Spec_Ask Model_Sol Model_MIES Spec_MIES Model_MiesPar Spec_MiesPar.
Import ListNotations.

(** A space whose integer variables take every integer between their bounds (the default), with the bounds in order. *)
Definition plain_space (vs : list var) : Prop :=
  Forall proper vs /\ forall v lb ub step, In v vs -> vkind v = KInt lb ub step -> step = 1%Z.
(** What sample and the random number generators guarantee for each run of the evolution strategy with its default sizes, four
    parents and ten offspring. *)
Definition run_inputs_ok (vs : list var) (start : list point) (rnd : nat -> nat -> noise) : Prop :=
  length start = 4%nat /\ Forall (in_space vs) start /\ (forall g i, noise_ok (rnd g i)) /\ forall g i, (i < 10)%nat -> positions_ok vs 4 (rnd g i).
