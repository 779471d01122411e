(** Property C267: the arguments of the constructors of the acquisition functions. *)
From Coq Require Import Reals List Bool Lra.
From Verif Require Import Model_Acquisition Properties_Acquisition.
Import ListNotations.
Open Scope R_scope.

(** The keyword arguments of each class. *)
Definition takes_alpha (c : cls) : Prop := c = UCB.
Definition takes_epsilon (c : cls) : Prop := c = EpsilonPI \/ c = PI.
Definition takes_t (c : cls) : Prop := c = MGFI.
Definition takes_plugin (c : cls) : Prop := c <> UCB.

(** C267: a keyword argument that belongs to another class is refused. *)
Theorem C267_foreign_argument :
  forall c minimize s k,
    (k_alpha k <> None /\ ~ takes_alpha c) \/ (k_epsilon k <> None /\ ~ takes_epsilon c) \/ (k_t k <> None /\ ~ takes_t c) \/ (k_plugin k <> None /\ ~ takes_plugin c) ->
    construct c minimize s k = Err TypeError.
Proof.
  intros c mi s [a e t p] H. unfold takes_alpha, takes_epsilon, takes_t, takes_plugin in H. cbn [k_alpha k_epsilon k_t k_plugin] in H.
  destruct c; cbn; unfold new_EpsilonPI; cbn; destruct a, e, t, p; cbn; try reflexivity; exfalso; intuition congruence.
Qed.
Print Assumptions C267_foreign_argument.

(** An object that is constructed has the values given, with the defaults of the documentation for the others; the plugin is that of the
    user, with its sign changed for maximisation, or the best observation. *)
Theorem C267_values_used :
  forall c minimize s k a, construct c minimize s k = Ok a ->
    (forall p, k_plugin k = Some p -> match a with AUCB _ => False | AEI q | AEpsilonPI _ q | AMGFI _ q => q = Some (if minimize then p else - p) end) /\
    match c with
    | UCB => exists v, a = AUCB v /\ 0 < v /\ (k_alpha k = None -> v = / 2) /\ forall w, k_alpha k = Some w -> v = w
    | EI => exists q, a = AEI q
    | EpsilonPI => exists v q, a = AEpsilonPI v q /\ 0 < v /\ (k_epsilon k = None -> v = / 10000000000) /\ forall w, k_epsilon k = Some w -> v = w
    | PI => False
    | MGFI => exists v q, a = AMGFI v q /\ 0 < v <= 2236 / 100 /\ (k_t k = None -> v = 1) /\ forall w, k_t k = Some w -> w <= 2236 / 100 -> v = w
    end.
Proof.
  intros c mi s [al e t p] a H. cbn [k_alpha k_epsilon k_t k_plugin].
  assert (MI : forall q, -1 * q = - q) by (intros; ring).
  assert (SP : forall v w, set_positive v = Ok w -> w = v /\ 0 < v). { intros v w E. unfold set_positive in E. destruct (rltb_spec 0 v); [|discriminate]. injection E as <-. auto. }
  assert (ST : forall v w, MGFI_set_t v = Ok w -> w = Rmin v (2236 / 100) /\ 0 < v). { intros v w E. unfold MGFI_set_t in E. destruct (rltb_spec 0 v); [|discriminate]. injection E as <-. auto. }
  assert (PL : forall q, set_plugin mi s p = Ok q -> forall p', p = Some p' -> q = Some (if mi then p' else - p')).
  { intros q E p' ->. cbn in E. injection E as <-. destruct mi; [reflexivity|]. now rewrite MI. }
  destruct c; cbn [construct k_alpha k_epsilon k_t k_plugin] in H; unfold new_EpsilonPI in H; cbn [k_alpha k_epsilon k_t k_plugin] in H.
  - destruct (unexpected e || unexpected t || unexpected p) eqn:U; [discriminate|]. destruct p as [p|]; [rewrite orb_true_r in U; discriminate|].
    destruct (set_positive (dflt (/ 2) al)) as [v|] eqn:E; [|discriminate]. cbn [bind] in H. injection H as <-. destruct (SP _ _ E) as [-> L]. split; [discriminate|].
    exists (dflt (/ 2) al). split; [reflexivity|]. split; [exact L|]. split; [intros ->; reflexivity|intros w ->; reflexivity].
  - destruct (unexpected al || unexpected e || unexpected t); [discriminate|]. destruct (set_plugin mi s p) as [q|] eqn:E; [|discriminate]. cbn [bind] in H. injection H as <-.
    split; [exact (PL q eq_refl)|]. now exists q.
  - destruct (unexpected al || unexpected t); [discriminate|]. destruct (set_plugin mi s p) as [q|] eqn:E; [|discriminate]. cbn [bind] in H.
    destruct (set_positive (dflt (/ 10000000000) e)) as [v|] eqn:E'; [|discriminate]. cbn [bind] in H. injection H as <-. destruct (SP _ _ E') as [-> L].
    split; [exact (PL q eq_refl)|]. exists (dflt (/ 10000000000) e), q. split; [reflexivity|]. split; [exact L|]. split; [intros ->; reflexivity|intros w ->; reflexivity].
  - exfalso. destruct (unexpected al || unexpected t); [discriminate|]. destruct (set_plugin mi s p) as [q|] eqn:E; [|discriminate]. cbn [bind dflt] in H.
    destruct (set_positive 0) as [v|] eqn:E'; [|discriminate]. destruct (SP _ _ E') as [_ L]. lra.
  - destruct (unexpected al || unexpected e); [discriminate|]. destruct (set_plugin mi s p) as [q|] eqn:E; [|discriminate]. cbn [bind] in H.
    destruct (MGFI_set_t (dflt 1 t)) as [v|] eqn:E'; [|discriminate]. cbn [bind] in H. injection H as <-. destruct (ST _ _ E') as [-> L].
    split; [exact (PL q eq_refl)|]. exists (Rmin (dflt 1 t) (2236 / 100)), q. split; [reflexivity|]. split; [split; [apply Rmin_glb_lt; lra|apply Rmin_r]|].
    split; [intros ->; apply Rmin_left; cbn; lra|intros w -> L'; apply Rmin_left; exact L'].
Qed.
Print Assumptions C267_values_used.

Example C267_case :
  construct EI true line (Kwargs (Some 1) None None None) = Err TypeError /\ construct MGFI false line (Kwargs None None (Some 2) (Some 5)) = Ok (AMGFI (Rmin 2 (2236 / 100)) (Some (-1 * 5))).
Proof. split; [reflexivity|]. cbn. unfold MGFI_set_t. destruct (rltb_spec 0 2); [reflexivity|lra]. Qed.
