(** Property C28: the dynamic penalty (uses the axioms of Coq's real numbers). *)
From Coq Require Import List Reals Lra.
From Verif Require Import Model_Penalty Proofs_Penalty.
Import ListNotations.
Open Scope R_scope.

(** The constraint values at x: none if the constraint is not given; None if the call raises. *)
Definition values {X} (f : option (X -> option (list R))) (x : X) : option (list R) :=
  match f with None => Some [] | Some f => f x end.
(** Parameters as documented. *)
Definition usual (P : ppar) : Prop := 1 <= tt P /\ 0 < CC P /\ 0 < alpha P /\ 0 < beta P /\ 0 <= epsilon P.
(** All constraints hold at x (equalities up to the tolerance). *)
Definition holds_at {X} (P : ppar) (e i : option (X -> option (list R))) (x : X) : Prop :=
  forall h g, values e x = Some h -> values i x = Some g ->
    (forall v, In v h -> Rabs v <= epsilon P) /\ (forall v, In v g -> v <= 0).
(** The penalty in the direction of the optimisation: positive means punished. *)
Definition cost (P : ppar) (p : R) : R := if minimize P then p else - p.

Lemma single_value {X} (P : ppar) e i (x : X) p : dynamic_penalty P e i [x] = Some [p] ->
  exists h g, values e x = Some h /\ values i x = Some g /\ p = penalty1 P h g.
Proof.
  intro H. unfold dynamic_penalty, eval_opt in H.
  destruct e as [e|], i as [i|]; simpl in H; repeat (match type of H with context [match ?q x with _ => _ end] => destruct (q x) eqn:? end; simpl in H; try discriminate);
    injection H as <-; simpl; eauto 6.
Qed.

(** C28, shape: an evaluation that raises is reported, and otherwise each point gets the penalty it
    would get on its own. *)
Theorem C28_rows :
  forall (X : Type) P (e i : option (X -> option (list R))) xs,
    (dynamic_penalty P e i xs = None <-> exists x, In x xs /\ (values e x = None \/ values i x = None)) /\
    forall ps, dynamic_penalty P e i xs = Some ps ->
      length ps = length xs /\
      forall k x p, nth_error xs k = Some x -> nth_error ps k = Some p -> dynamic_penalty P e i [x] = Some [p].
Proof.
  intros X P e i xs.
  assert (N : forall f : option (X -> option (list R)), eval_opt f xs = None <-> exists x, In x xs /\ values f x = None).
  { intros [f|]; simpl; [apply eval_all_none|]. split; [discriminate|]. intros (x&_&H). discriminate. }
  assert (V : forall (f : option (X -> option (list R))) vs, eval_opt f xs = Some vs -> length vs = length xs /\
             forall k x, nth_error xs k = Some x -> exists v, values f x = Some v /\ nth_error vs k = Some v).
  { intros [f|] vs H; simpl in H; [apply eval_all_nth; exact H|]. injection H as <-. split; [apply map_length|].
    intros k x Hk. exists []. rewrite nth_error_map, Hk. auto. }
  unfold dynamic_penalty. split.
  - destruct (eval_opt e xs) eqn:E1.
    + destruct (eval_opt i xs) eqn:E2.
      * split; [discriminate|]. intros (x&Hx&[F|F]).
        { assert (eval_opt e xs = None) by (apply N; eauto). congruence. }
        { assert (eval_opt i xs = None) by (apply N; eauto). congruence. }
      * split; auto. intros _. apply N in E2. destruct E2 as (x&Hx&F). eauto.
    + split; auto. intros _. apply N in E1. destruct E1 as (x&Hx&F). eauto.
  - intros ps H. destruct (eval_opt e xs) as [H1|] eqn:E1; [|discriminate].
    destruct (eval_opt i xs) as [G1|] eqn:E2; [|discriminate]. injection H as <-.
    destruct (V _ _ E1) as [L1 V1]. destruct (V _ _ E2) as [L2 V2]. split.
    + rewrite map_length, combine_length, L1, L2. apply PeanoNat.Nat.min_id.
    + intros k x p Hx Hp. destruct (V1 k x Hx) as (hv&Eh&Nh). destruct (V2 k x Hx) as (gv&Eg&Ng).
      rewrite nth_error_map in Hp.
      assert (C : nth_error (combine H1 G1) k = Some (hv, gv)).
      { clear - Nh Ng. revert G1 k Nh Ng. induction H1 as [|a H1 IH]; intros [|b G1] [|k] Nh Ng; simpl in *; try discriminate.
        - congruence.
        - apply IH; assumption. }
      rewrite C in Hp. simpl in Hp. injection Hp as <-.
      unfold values, eval_opt in *. destruct e as [e|], i as [i|]; simpl; rewrite ?Eh, ?Eg; simpl;
        try (injection Eh as <-); try (injection Eg as <-); reflexivity.
Qed.
Print Assumptions C28_rows.

(** C28, sign: zero iff all constraints hold, otherwise strictly a punishment. *)
Theorem C28_zero_iff_feasible :
  forall (X : Type) P (e i : option (X -> option (list R))) x p, usual P ->
    dynamic_penalty P e i [x] = Some [p] ->
    (p = 0 <-> holds_at P e i x) /\ (~ holds_at P e i x -> 0 < cost P p).
Proof.
  intros X P e i x p (Ht&HC&Ha&Hb&He) H. apply single_value in H. destruct H as (h&g&Eh&Eg&->).
  rewrite penalty1_total. pose proof (total_0 P h g He) as T0. pose proof (total_nonneg P h g) as TN.
  assert (0 < CC P * tt P) by (apply Rmult_lt_0_compat; lra).
  assert (K := pow_nn_pos _ (alpha P) H).
  assert (HI : holds_at P e i x <-> total P h g = 0).
  { unfold holds_at. rewrite T0, Eh, Eg. split; [intro A; apply A; reflexivity|].
    intros A h' g' E1 E2. injection E1 as <-. injection E2 as <-. exact A. }
  rewrite HI. set (k := pow_nn (CC P * tt P) (alpha P)) in *. set (s := total P h g) in *. split.
  - split.
    + intro E. destruct (Req_dec s 0) as [?|NZ]; [assumption|]. exfalso.
      assert (k * s <> 0) by (apply Rmult_integral_contrapositive; split; lra).
      destruct (minimize P); lra.
    + intros ->. lra.
  - intro NZ. assert (0 < k * s) by (apply Rmult_lt_0_compat; lra).
    unfold cost. destruct (minimize P); lra.
Qed.
Print Assumptions C28_zero_iff_feasible.

(** C28, growth: for an infeasible point the punishment grows strictly with t. *)
Theorem C28_grows_with_t :
  forall (X : Type) P t' (e i : option (X -> option (list R))) x p p', usual P -> tt P < t' ->
    let P' := mkPP t' (CC P) (alpha P) (beta P) (epsilon P) (minimize P) in
    dynamic_penalty P e i [x] = Some [p] -> dynamic_penalty P' e i [x] = Some [p'] ->
    (holds_at P e i x -> p' = p) /\ (~ holds_at P e i x -> cost P p < cost P p').
Proof.
  intros X P t' e i x p p' HU Ht' P' H H'. destruct (C28_zero_iff_feasible X P e i x p HU H) as [Z S].
  assert (HU' : usual P') by (destruct HU as (?&?&?&?&?); repeat split; simpl; lra).
  destruct (C28_zero_iff_feasible X P' e i x p' HU' H') as [Z' S'].
  split; [intro F; rewrite (proj2 Z F); apply Z'; exact F|]. intro NF. specialize (S NF).
  apply single_value in H. apply single_value in H'. destruct H as (h&g&Eh&Eg&->), H' as (h'&g'&Eh'&Eg'&->).
  assert (h' = h) by congruence. assert (g' = g) by congruence. subst h' g'.
  rewrite (penalty1_total P'), (penalty1_total P) in *. unfold cost in *. change (minimize P') with (minimize P) in *.
  change (total P' h g) with (total P h g) in *. change (alpha P') with (alpha P).
  destruct HU as (Ht&HC&Ha&Hb&He).
  assert (K : pow_nn (CC P * tt P) (alpha P) < pow_nn (CC P' * tt P') (alpha P)).
  { apply pow_nn_lt; [left; apply Rmult_lt_0_compat; lra| |exact Ha]. simpl. apply Rmult_lt_compat_l; lra. }
  assert (T : 0 < total P h g).
  { destruct (total_nonneg P h g) as [?|E]; [assumption|]. rewrite <- E in S. destruct (minimize P); lra. }
  assert (pow_nn (CC P * tt P) (alpha P) * total P h g < pow_nn (CC P' * tt P') (alpha P) * total P h g)
    by (apply Rmult_lt_compat_r; assumption).
  clear S Z S' Z' HU'. revert H. change (CC P' * tt P') with (CC P * t'). 
  generalize (pow_nn (CC P * tt P) (alpha P) * total P h g). generalize (pow_nn (CC P * t') (alpha P) * total P h g).
  intros a b Hab. destruct (minimize P); lra.
Qed.
Print Assumptions C28_grows_with_t.

(** C28, monotonicity: a point violating each constraint at least as much is punished at least as
    much. *)
Theorem C28_no_reward_for_violation :
  forall (X : Type) P (e i : option (X -> option (list R))) x y p q, usual P ->
    dynamic_penalty P e i [x] = Some [p] -> dynamic_penalty P e i [y] = Some [q] ->
    (forall h h', values e x = Some h -> values e y = Some h' -> Forall2 (fun v w => Rabs v <= Rabs w) h h') ->
    (forall g g', values i x = Some g -> values i y = Some g' -> Forall2 Rle g g') ->
    cost P p <= cost P q.
Proof.
  intros X P e i x y p q (Ht&HC&Ha&Hb&He) H1 H2 HE HG.
  apply single_value in H1. apply single_value in H2. destruct H1 as (h&g&Eh&Eg&->), H2 as (h'&g'&Eh'&Eg'&->).
  assert (T := total_mono P h g h' g' Hb (HE _ _ Eh Eh') (HG _ _ Eg Eg')).
  rewrite !penalty1_total. unfold cost.
  assert (pow_nn (CC P * tt P) (alpha P) * total P h g <= pow_nn (CC P * tt P) (alpha P) * total P h' g')
    by (apply Rmult_le_compat_l; [apply pow_nn_nonneg|exact T]).
  destruct (minimize P); lra.
Qed.
Print Assumptions C28_no_reward_for_violation.

(** The defaults of the function and a one-dimensional problem with both constraints. *)
Definition default_par (t : R) (m : bool) : ppar := mkPP t (1/2) 1 (3/2) (1/10) m.
Example C28_example :
  let e := Some (fun x : R => Some [x - 1]) in let i := Some (fun x : R => Some [x - 2; - x]) in
  usual (default_par 1 true) /\ holds_at (default_par 1 true) e i 1 /\ ~ holds_at (default_par 1 true) e i 3 /\
  (exists p, dynamic_penalty (default_par 1 true) e i [3] = Some [p] /\ 0 < p).
Proof.
  cbv zeta.
  assert (U : usual (default_par 1 true)) by (unfold usual, default_par; simpl; lra).
  assert (NF : ~ holds_at (default_par 1 true) (Some (fun x : R => Some [x - 1])) (Some (fun x : R => Some [x - 2; - x])) 3).
  { intro F. destruct (F _ _ eq_refl eq_refl) as [_ F2]. specialize (F2 (3 - 2) (or_introl eq_refl)). lra. }
  split; [exact U|]. split; [|split; [exact NF|]].
  - intros h g E1 E2. injection E1 as <-. injection E2 as <-. split; intros v Hv; simpl in Hv.
    + destruct Hv as [<-|[]]. simpl. rewrite Rminus_diag_eq by reflexivity. rewrite Rabs_R0. lra.
    + destruct Hv as [<-|[<-|[]]]; lra.
  - eexists. split; [reflexivity|].
    refine (proj2 (C28_zero_iff_feasible R (default_par 1 true) (Some (fun x : R => Some [x - 1]))
      (Some (fun x : R => Some [x - 2; - x])) 3 _ U eq_refl) NF).
Qed.
