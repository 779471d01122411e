(** Properties C32 (incumbent, box, step size of the (1+1)-CMA-ES), C35 (restarts), C92 (budget) and
    C93 (random streams of the restarts of the acquisition maximisation). *)
From Coq Require Import Bool Arith ZArith QArith Qreals Reals List Lia Lra.
From Verif Require Import Model_Var Model_Box Model_Penalty Model_CMA Spec_CMA Proofs_CMA Proofs_CMARuns.
Import ListNotations.
Open Scope R_scope.

(** * C32 *)

(** C32, incumbent.  For every configuration, objective (also a noisy one), constraints, random
    moves, restarts and failing covariance updates: take any two states of a run, the second later
    than the first.  The reported optimum is an evaluated point with its value.  Once it is feasible
    it stays feasible and its value never gets worse.  The best penalised value never gets worse
    either, and it is the best over everything told so far.  Missing from the full claim: the reported
    optimum may stay infeasible although a feasible point was evaluated, see the refutation below. *)
Theorem C32_incumbent_partial : forall c obj h g move fails uniform x0 s0 n m s s',
  init c obj h g x0 = Some s0 ->
  run c obj h g move fails uniform n 0 s0 = Some s ->
  run c obj h g move fails uniform m n s = Some s' ->
  In (xopt s', fopt s') (seen s') /\
  (feasible h g (xopt s) -> feasible h g (xopt s') /\ no_worse (c_min c) (fopt s') (fopt s)) /\
  no_worse (c_min c) (fpen s') (fpen s) /\
  (forall y fy p, In (y, fy, p) (told s') ->
     In (y, fy) (seen s') /\ (p = 0 <-> feasible h g y) /\ no_worse (c_min c) (fpen s') (fy + p)) /\
  evals s' = length (seen s') /\
  (stopped s' = false -> map fst (told s') = seen s').
Proof.
  intros c obj h g move fails uniform x0 s0 n m s s' I R1 R2.
  pose proof (init_inv c obj h g x0 s0 I) as V0.
  destruct (run_inv _ _ _ _ _ _ _ _ _ _ _ V0 R1) as [V1 _].
  destruct (run_inv _ _ _ _ _ _ _ _ _ _ _ V1 R2) as [V2 [K1 K2]].
  destruct V2 as [A1 A2 A3 A4 A5 A6 A7 A8].
  split. { destruct A1 as (p & H). exact (proj1 (A2 _ _ _ H)). }
  split; [exact K1|]. split; [exact K2|]. split; [|split; assumption].
  intros y fy p H. destruct (A2 _ _ _ H) as (B1 & B2 & _). split; [exact B1|]. split; [exact B2|]. exact (A3 _ _ _ H).
Qed.
Print Assumptions C32_incumbent_partial.

(** Without constraints (or if every point is feasible) the reported value is the best of all values
    told, and while the run goes on of all values computed. *)
Theorem C32_all_feasible : forall c obj h g move fails uniform x0 s0 n s,
  (forall y, feasible h g y) ->
  init c obj h g x0 = Some s0 -> run c obj h g move fails uniform n 0 s0 = Some s ->
  (forall y fy p, In (y, fy, p) (told s) -> no_worse (c_min c) (fopt s) fy) /\
  (stopped s = false -> forall y fy, In (y, fy) (seen s) -> no_worse (c_min c) (fopt s) fy).
Proof.
  intros c obj h g move fails uniform x0 s0 n s F I R.
  pose proof (init_inv c obj h g x0 s0 I) as V0.
  destruct (run_inv _ _ _ _ _ _ _ _ _ _ _ V0 R) as [V1 _].
  pose proof (run_same c obj h g move fails uniform F n 0 s0 s (init_same _ _ _ _ F _ _ I) R) as E.
  assert (T : forall y fy p, In (y, fy, p) (told s) -> no_worse (c_min c) (fopt s) fy).
  { intros y fy p H. pose proof (i_pen _ _ _ _ V1 y fy p H) as B. destruct (i_told _ _ _ _ V1 y fy p H) as (_ & B2 & _).
    rewrite (proj2 B2 (F y)), Rplus_0_r in B. now rewrite E. }
  split; [exact T|]. intros ST y fy H. rewrite <- (i_all _ _ _ _ V1 ST) in H. apply in_map_iff in H.
  destruct H as ([[y' fy'] p] & Q & H). cbn [fst] in Q. injection Q as -> ->. exact (T _ _ _ H).
Qed.
Print Assumptions C32_all_feasible.

(** C32, box and step size: every evaluated point lies in the box, the step size is positive and the
    smoothed success rate stays in [0,1], in every state of every run. *)
Theorem C32_box_and_step_size : forall c obj h g move fails uniform x0 s0 n s,
  sensible c -> fair c move uniform -> in_box (c_box c) x0 ->
  init c obj h g x0 = Some s0 -> run c obj h g move fails uniform n 0 s0 = Some s ->
  (forall y fy, In (y, fy) (seen s) -> in_box (c_box c) y) /\ in_box (c_box c) (xopt s) /\ 0 < sigma s /\ 0 <= rate s <= 1.
Proof.
  intros c obj h g move fails uniform x0 s0 n s OK FAIR X I R.
  pose proof (init_range c obj h g OK x0 s0 X I) as V0.
  pose proof (run_range c obj h g move fails uniform OK FAIR _ _ _ _ V0 R) as V1.
  destruct (run_inv _ _ _ _ _ _ _ _ _ _ _ (init_inv _ _ _ _ _ _ I) R) as [W _].
  destruct (i_opt _ _ _ _ W) as (p & Hp). destruct (i_told _ _ _ _ W _ _ _ Hp) as (Hs & _).
  destruct V1 as [V1 V2 V3 V4]. repeat split; try apply V4; auto. exact (V2 _ _ Hs).
Qed.
Print Assumptions C32_box_and_step_size.

(** A run with a restart and no budget meets the hypotheses of the three theorems. *)
Example C32_example : sensible (c35 None) /\ fair (c35 None) move35 uni35 /\ in_box (c_box (c35 None)) [1 # 2] /\
  (forall y, feasible None None y) /\
  exists s0 s, init (c35 None) obj35 None None [1 # 2] = Some s0 /\
    run (c35 None) obj35 None None move35 (fun _ => false) uni35 10 0 s0 = Some s /\ restarts s = 5%nat.
Proof.
  split; [apply sensible35|]. split; [apply fair35|].
  split. { constructor; [|constructor]. split; discriminate. }
  split. { intro y. exists [], []. repeat split; intros v []. }
  destruct (reach_exhausted None) as (s0 & s & I & X & R & _ & E); [discriminate|].
  destruct (exhausted_run None 4 6 s eq_refl X) as (s' & E' & _ & R'). exists s0, s'. split; [exact I|].
  split; [change 10%nat with (6 + 4)%nat; rewrite E; exact E'|]. rewrite R', R. reflexivity.
Qed.

(** C32 refuted: minimise on [0,1] with one inequality constraint that holds at 1 and not at 0.  The
    start 0 is infeasible and has the value 0, the second point 1 is feasible and has the value 10:
    the reported optimum is still the infeasible start. *)
Definition g32 (y : pt) : option (list R) := Some [if Qle_bool 1 (hd 0%Q y) then 0 else 1].
Definition obj32 (_ : nat) (y : pt) : R := if Qle_bool 1 (hd 0%Q y) then 10 else 0.
Definition c32 : ccfg := mkC [(0, 1)%Q] [None] true None None 0 1 1 1 (2 / 11) (/ 12) (default_d 1).
Theorem C32_feasible_missed_refuted : exists c obj g move uniform x0 s0 s y fy,
  sensible c /\ fair c move uniform /\ in_box (c_box c) x0 /\
  init c obj None (Some g) x0 = Some s0 /\ run c obj None (Some g) move (fun _ => false) uniform 1 0 s0 = Some s /\
  In (y, fy) (seen s) /\ feasible None (Some g) y /\ ~ feasible None (Some g) (xopt s).
Proof.
  set (c := c32). set (mv := fun _ : nat => [1%Q]).
  assert (I : exists s0, init c obj32 None (Some g32) [0%Q] = Some s0 /\ fpen s0 = / 2 /\ xopt s0 = [0%Q] /\ x s0 = [0%Q] /\
    stopped s0 = false /\ rflag s0 = false /\ n_restart s0 = 0%Z /\ keys s0 = no_keys).
  { unfold init. cbn [evaluate]. unfold penalize, dynamic_penalty, eval_opt, eval_all, g32. cbn [map combine fst snd iters Qle_bool hd].
    eexists. split; [reflexivity|]. cbn [fpen xopt x stopped rflag n_restart keys]. repeat split.
    unfold penalty1, ppar_at, c, c32. cbn [CC tt alpha beta epsilon minimize c_min INR]. unfold rsum, ineq_term, obj32. cbn [map fold_right Qle_bool hd].
    destruct (Rle_dec (if Qle_bool 1 0 then 0 else 1) 0) as [L|L]; [vm_compute in L; exfalso; revert L; change (1 <= 0 -> False); lra|].
    change (Qle_bool 1 0) with false. cbv iota.
    rewrite Rabs_R1. unfold pow_nn. destruct (Req_EM_T (/ 2 * 1) 0); [lra|]. destruct (Req_EM_T 1 0); [lra|].
    rewrite Rpower_1 by lra. unfold Rpower. rewrite ln_1, Rmult_0_r, exp_0. lra. }
  destruct I as (s0 & I & F0 & X0 & X1 & ST & RF & NR & KS).
  assert (A : ask c mv 0 s0 = [1%Q]).
  { unfold ask. rewrite X1. reflexivity. }
  assert (P : forall s, penalize c None (Some g32) s [1%Q] = Some 0).
  { intro s. unfold penalize, dynamic_penalty, eval_opt, eval_all, g32. cbn [map combine fst snd hd].
    change (Qle_bool 1 1) with true. cbv iota. f_equal. unfold penalty1, rsum, ineq_term. cbn [map fold_right].
    destruct (Rle_dec 0 0); [|lra]. rewrite Rabs_R0. unfold pow_nn at 2. destruct (Req_EM_T 0 0); [ring|lra]. }
  assert (R : exists s, run c obj32 None (Some g32) mv (fun _ => false) uni35 1 0 s0 = Some s /\ In ([1%Q], 10) (seen s) /\ xopt s = [0%Q]).
  { cbn [run]. rewrite ST. unfold step. rewrite A. cbn [evaluate]. rewrite P.
    match goal with |- context [tell c _ ?k ?s0 ?y ?fy 0] => pose (s0' := s0); pose (fy' := fy); change (tell c (fun _ => false) k s0 y fy 0) with (tell c (fun _ => false) k s0' y fy' 0) end.
    assert (T : exists s1, tell c (fun _ => false) (2 * 0) s0' [1%Q] fy' 0 = s1 /\ xopt s1 = [0%Q] /\ In ([1%Q], 10) (seen s1) /\
      rflag s1 = false /\ n_restart s1 = 0%Z).
    { eexists. split; [reflexivity|]. unfold tell. replace (stopped s0') with false by (symmetry; exact ST).
      assert (B : better c (fy' + 0) (fpen s0') = false).
      { unfold better, c, c32. cbn [c_min]. apply leb_false. unfold s0', fy', obj32. cbn [fpen hd]. change (Qle_bool 1 1) with true. cbv iota. rewrite F0. lra. }
      rewrite B. cbn [andb xopt seen rflag n_restart]. unfold s0'. cbn [xopt seen rflag n_restart]. split; [exact X0|].
      split; [apply in_or_app; right; left; reflexivity|]. split; [exact RF|exact NR]. }
    destruct T as (s1 & -> & T1 & T2 & T3 & T4).
    assert (Q : rflag (check_stop c s1) = false).
    { unfold check_stop. cbn [rflag]. rewrite T3, T4. cbn [Z.ltb Z.compare]. destruct (_ || _); reflexivity. }
    unfold restart. rewrite Q. eexists. cbn [run]. destruct (stopped (check_stop c s1)); split; try reflexivity; split; assumption. }
  destruct R as (s & R & S1 & S2).
  exists c, obj32, g32, mv, uni35, [0%Q], s0, s, [1%Q], 10.
  split. { unfold sensible, c, c32, default_d. cbn [c_box c_prec c_sigma0 c_target_rate c_cp c_d fst snd INR].
    repeat split; try lra. constructor; [reflexivity|constructor]. }
  split. { intro k. split; [reflexivity|]. constructor; [|constructor]. split; discriminate. }
  split. { constructor; [|constructor]. split; discriminate. }
  split; [exact I|]. split; [exact R|]. split; [exact S1|]. split.
  - exists [], [0]. repeat split; try (intros v []; fail). intros v [<-|[]]. lra.
  - rewrite S2. intros (hv & gv & _ & Eg & _ & G). unfold values, g32 in Eg. injection Eg as <-.
    specialize (G 1 (or_introl eq_refl)). lra.
Qed.
Print Assumptions C32_feasible_missed_refuted.

(** * C35 *)

(** C35 without restarts (n_restart <= 0, the default): none is made, and after each step the run
    has stopped exactly if some criterion has been met. *)
Theorem C35_no_restart_partial : forall c obj h g move fails uniform x0 s0 n s,
  (c_restart c <= 0)%Z ->
  init c obj h g x0 = Some s0 -> run c obj h g move fails uniform n 0 s0 = Some s ->
  restarts s = 0%nat /\
  forall k s', stopped s = false -> step c obj h g move fails uniform k s = Some s' ->
    restarts s' = 0%nat /\ (stopped s' = true <-> any_key (keys s') = true) /\
    (df s' < c_ftol c \/ dx s' < c_xtol c \/ sigma s' < lo_sigma \/ hi_sigma < sigma s' -> stopped s' = true).
Proof.
  intros c obj h g move fails uniform x0 s0 n s C I R.
  assert (Z0 : (n_restart s0 <= 0)%Z /\ rflag s0 = false /\ restarts s0 = 0%nat).
  { unfold init in I. cbn [evaluate] in I. destruct (penalize _ _ _ _ _); [|discriminate]. injection I as <-.
    cbn [n_restart rflag restarts]. repeat split. lia. }
  destruct Z0 as (Z1 & Z2 & Z3).
  destruct (run_no_restart _ _ _ _ _ _ _ _ _ _ _ R Z1 Z2) as (G1 & G2 & G3 & _).
  split; [now rewrite G1|]. intros k s' ST H. rewrite step_before in H.
  destruct (before _ _ _ _ _ _ k s) as [s1|] eqn:B; [|discriminate].
  destruct (before_spec _ _ _ _ _ _ _ _ _ B) as (F1 & F2 & F3 & _ & _ & F6 & F7 & _).
  unfold restart in H. rewrite (F6 G3), G2 in H. injection H as <-.
  split; [rewrite F3, G1; exact Z3|]. rewrite (F7 G3). split; [reflexivity|].
  unfold before in B. cbn [evaluate] in B. destruct (penalize _ _ _ _ _); [|discriminate]. injection B as <-.
  set (s2 := tell _ _ _ _ _ _ _). unfold check_stop. cbn [df dx sigma keys any_key k_ftarget k_FEs k_sigma k_ftol k_xtol].
  clearbody s2. intros H.
  assert (HK : ltb (df s2) (c_ftol c) = true \/ ltb (dx s2) (c_xtol c) = true \/ (ltb (sigma s2) lo_sigma || ltb hi_sigma (sigma s2))%bool = true).
  { rewrite orb_true_iff, !ltb_iff. tauto. }
  unfold any_key. cbn [k_ftarget k_FEs k_sigma k_ftol k_xtol]. clear -HK. destruct HK as [-> |[-> | ->]]; rewrite ?orb_true_r; reflexivity.
Qed.
Print Assumptions C35_no_restart_partial.

(** C35 refuted: with n_restart = 1 and no budget, for every number N there is a run with more than N
    restarts that has not stopped: the flag asking for a restart is never cleared. *)
Theorem C35_restarts_refuted : forall N, exists c obj move uniform x0 s0 n s,
  sensible c /\ fair c move uniform /\ c_restart c = 1%Z /\
  init c obj None None x0 = Some s0 /\ run c obj None None move (fun _ => false) uniform n 0 s0 = Some s /\
  (N < restarts s)%nat /\ stopped s = false.
Proof.
  intro N. destruct (reach_exhausted None) as (s0 & s & I & X & R & _ & E); [discriminate|].
  destruct (exhausted_run None N 6 s eq_refl X) as (s' & E' & S' & R').
  exists (c35 None), obj35, move35, uni35, [1 # 2], s0, (6 + N)%nat, s'.
  split; [apply sensible35|]. split; [apply fair35|]. split; [reflexivity|]. split; [exact I|].
  split; [rewrite E; exact E'|]. split; [rewrite R', R; lia|exact S'].
Qed.
Print Assumptions C35_restarts_refuted.

(** * C92 *)

(** C92: with a budget of m >= 1 evaluations a run makes at most m + 2, and it stops within m steps;
    without restarts it makes at most max(2, m). *)
Theorem C92_budget_partial : forall c obj h g move fails uniform x0 s0 n s m,
  c_max c = Some m -> (1 <= m)%nat ->
  init c obj h g x0 = Some s0 -> run c obj h g move fails uniform n 0 s0 = Some s ->
  (length (seen s) <= m + 2)%nat /\ (m <= n -> stopped s = true)%nat /\
  ((c_restart c <= 0)%Z -> (length (seen s) <= Nat.max 2 m)%nat).
Proof.
  intros c obj h g move fails uniform x0 s0 n s m M M1 I R.
  assert (Z0 : evals s0 = 1%nat /\ n_restart s0 = Z.max 0 (c_restart c) /\ rflag s0 = false).
  { unfold init in I. cbn [evaluate] in I. destruct (penalize _ _ _ _ _); [|discriminate]. injection I as <-. repeat split. }
  destruct Z0 as (Z1 & Z2 & Z3).
  destruct (run_inv _ _ _ _ _ _ _ _ _ _ _ (init_inv _ _ _ _ _ _ I) R) as [W _]. rewrite <- (i_evals _ _ _ _ W).
  destruct (run_budget _ _ _ _ _ _ _ m M M1 _ _ _ _ R) as [B1 B2]; [lia|lia|].
  split; [exact B1|]. split; [intro L; apply B2; left; lia|].
  intro C. destruct (run_no_restart _ _ _ _ _ _ _ _ _ _ _ R) as (_ & _ & _ & G); [lia|exact Z3|].
  apply (G m M); lia.
Qed.
Print Assumptions C92_budget_partial.

(** C92 refuted with a restart: budget 9, but 10 points are evaluated. *)
Theorem C92_budget_refuted : exists c obj move uniform x0 s0 n s m,
  sensible c /\ fair c move uniform /\ c_max c = Some m /\
  init c obj None None x0 = Some s0 /\ run c obj None None move (fun _ => false) uniform n 0 s0 = Some s /\
  (m < length (seen s))%nat.
Proof.
  destruct (reach_exhausted (Some 9%nat)) as (s0 & s & I & X & R & EV & E). { intros n [= <-]. lia. }
  destruct (over_budget 9 6 s X EV) as (s' & E' & EV').
  assert (RR : run (c35 (Some 9%nat)) obj35 None None move35 (fun _ => false) uni35 (6 + 1) 0 s0 = Some s').
  { rewrite E. exact E'. }
  exists (c35 (Some 9%nat)), obj35, move35, uni35, [1 # 2], s0, (6 + 1)%nat, s', 9%nat.
  split; [apply sensible35|]. split; [apply fair35|]. split; [reflexivity|]. split; [exact I|]. split; [exact RR|].
  destruct (run_inv _ _ _ _ _ _ _ _ _ _ _ (init_inv _ _ _ _ _ _ I) RR) as [W _]. rewrite <- (i_evals _ _ _ _ W).
  lia.
Qed.
Print Assumptions C92_budget_refuted.

(** * C93 *)

(** C93 refuted: whatever the optimizer, the generator, its state and the seed keyword, two restarts
    with the same budget have the same outcome: each restart reseeds the generator with 42. *)
Theorem C93_restarts_identical_refuted :
  forall (G A : Type) (seeded : Z -> G) (cma : Z -> G -> A * G) (draw : G -> G) (seed_kwarg seed_kwarg' : nat -> Z) i j budget g g',
    inner seeded cma draw seed_kwarg i budget g = inner seeded cma draw seed_kwarg' j budget g'.
Proof. reflexivity. Qed.
Print Assumptions C93_restarts_identical_refuted.
(** although the optimizer's outcome does depend on the state of the generator *)
Definition cma93 (budget : Z) (g : Z) : Z * Z := (g, g).
Example C93_example : (cma93 10 1 <> cma93 10 2)%Z /\
  inner (fun z => z) cma93 (fun g => (g + 1)%Z) (fun i => Z.of_nat i) 0 10%Z 1%Z =
  inner (fun z => z) cma93 (fun g => (g + 1)%Z) (fun i => Z.of_nat i) 1 10%Z 2%Z.
Proof. split; [discriminate|reflexivity]. Qed.
