(** Property C283: no part of the search space is out of reach of the mixed-integer evolution strategy. *)
From Coq Require Import Bool Arith ZArith QArith String List Lia Lqa.
From Verif Require Import Model_Var Model_Pareto Model_Ask Model_Sol Spec_Ask Spec_Pareto Spec_Sol Proofs_Pareto.
From Verif Require Import Model_MIES Spec_MIES Proofs_MIES Proofs_MiesReach.
Import ListNotations.
Open Scope nat_scope.

(** Every point y in the domains of the variables can be reached from every point x by one mutation: for
    suitable random numbers the offspring equals y rounded to the precisions of the real variables
    (SearchSpace.round), component by component in the sense of Python's ==. *)
Theorem C283_one_mutation :
  forall vs mu x y, Forall proper vs -> 0 < mu -> in_domain vs x -> in_domain vs y ->
    exists d z, draws_ok vs mu d /\ mutate vs d x = Some z /\
      Forall2 (fun a b => val_eqb a b = true) (round_point vs y) z.
Proof.
  intros vs mu x y P M DX DY. destruct (reach vs x y P DX DY) as (z & Z & F).
  exists (towards vs x y), z. split; [now apply towards_ok|]. split; [exact Z|exact F].
Qed.
Print Assumptions C283_one_mutation.

(** Hence a run that is not stopped before its first generation may evaluate any point of the space in that
    generation, whatever the initial population and the objective. *)
Theorem C283_first_generation :
  forall c fit argsort other_stop X s y,
    sorts argsort -> Forall proper (m_vs c) -> Forall (in_domain (m_vs c)) X -> init c fit X = Some s ->
    1 <= m_mu c -> 1 <= m_lambda c -> stop c other_stop 0 s = false -> in_domain (m_vs c) y ->
    exists rnd z, (forall g i, draws_ok (m_vs c) (m_mu c) (rnd g i)) /\
      Forall2 (fun a b => val_eqb a b = true) (round_point (m_vs c) y) z /\
      exists f, In (z, f) (trace (final (optimize c fit argsort rnd other_stop 1 0 s))).
Proof.
  intros c fit argsort other_stop X s y SO P D I MU LA ST DY.
  destruct (reach_run c fit argsort other_stop X s y SO P D I MU LA ST DY) as (d & z & DO & F & T).
  exists (fun _ _ => d), z. split; [auto|]. split; [exact F|eauto].
Qed.
Print Assumptions C283_first_generation.

(** A space with variables of all kinds, and two of its points that differ everywhere. *)
Example C283_case :
  let vs := [mkVar "o" (KOrdinal [VI 1; VI 2; VI 3]); mkVar "r" (KReal 0 1 (Some 1%Z)); mkVar "n" (KInt (-5) 5 1);
             mkVar "d" (KDiscrete [VS "a"; VS "b"]); mkVar "b" KBool; mkVar "s" (KSubset [VS "u"; VS "v"])]%string in
  let x := [VI 1; VR (1#2); VI 0; VS "a"; VB false; VT [VS "u"]]%string in
  let y := [VI 3; VR (19#100); VI (-4); VS "b"; VB true; VT [VS "u"; VS "v"]]%string in
  Forall proper vs /\ in_domain vs x /\ in_domain vs y /\ mutate vs (towards vs x y) x =
    Some [VI 3; VR (2#10); VI (-4); VS "b"; VB true; VT [VS "u"; VS "v"]]%string.
Proof.
  cbv zeta. split; [repeat constructor; reflexivity|]. split; [|split].
  - repeat apply Forall2_cons; try apply Forall2_nil; cbn [vkind within admissible]; try (cbn; tauto).
    + exists (1#2). repeat split; cbn; lra.
    + exists 0%Z. repeat split; lia.
    + exists 1, [VS "u"]%string. repeat split; cbn; auto.
  - repeat apply Forall2_cons; try apply Forall2_nil; cbn [vkind within admissible]; try (cbn; tauto).
    + exists (19#100). repeat split; cbn; lra.
    + exists (-4)%Z. repeat split; lia.
    + exists 2, [VS "u"; VS "v"]%string. repeat split; cbn; auto.
  - vm_compute. reflexivity.
Qed.
