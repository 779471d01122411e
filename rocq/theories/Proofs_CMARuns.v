(** Particular runs of the (1+1)-CMA-ES, used as witnesses. *)
From Coq Require Import Bool Arith ZArith QArith Qreals Reals List Lia Lra.
From Verif Require Import Model_Var Model_Box Model_Penalty Model_CMA Spec_CMA Proofs_CMA.
Import ListNotations.
Open Scope R_scope.

(** One real variable on [0,1], default rates, one restart, no budget; every evaluation is worse
    than all before. *)
Definition c35 (m : option nat) : ccfg :=
  mkC [(0, 1)%Q] [None] true m None 1 1 1 1 (2 / 11) (/ 12) (default_d 1).
Definition obj35 (n : nat) (_ : pt) : R := INR n.
Definition move35 (_ : nat) : pt := [0%Q].
Definition uni35 (_ : nat) : pt := [1 # 2].

Lemma sensible35 m : sensible (c35 m).
Proof.
  unfold sensible, c35, default_d. cbn [c_box c_prec c_sigma0 c_target_rate c_cp c_d fst snd INR].
  repeat split; try lra. constructor; [reflexivity|constructor].
Qed.
Lemma fair35 m : fair (c35 m) move35 uni35.
Proof.
  intro k. split; [reflexivity|]. constructor; [|constructor]. split; discriminate.
Qed.

Lemma penalize_none c s y : penalize c None None s y = Some 0.
Proof.
  unfold penalize, dynamic_penalty, eval_opt. cbn [map combine fst snd]. unfold penalty1. cbn [map]. unfold rsum. cbn [fold_right].
  f_equal. ring.
Qed.

(** The step size changes by a bounded factor. *)
Lemma sigma_step r v : 0 <= r <= 1 -> 0 < v ->
  7 / 9 * v <= v * exp ((((1 - / 12) * r + / 12 * 0) - 2 / 11) / (1 - 2 / 11) / default_d 1) <= 3 * v.
Proof.
  intros R V. unfold default_d. cbn [INR].
  set (e := ((((1 - / 12) * r + / 12 * 0) - 2 / 11) / (1 - 2 / 11) / (1 + 1 / 2))).
  assert (E : e = (11 / 12 * r - 2 / 11) * (22 / 27)) by (unfold e; field).
  assert (L : 1 + e <= exp e) by apply exp_ineq1_le.
  assert (U : exp e <= 3).
  { apply Rle_trans with (exp 1); [|apply exp_le_3]. destruct (Req_dec e 1) as [->|N]; [lra|].
    left. apply exp_increasing. lra. }
  assert (7 / 9 <= exp e) by lra. split; nra.
Qed.

Section Runs.
  Variable m : option nat.
  Notation c := (c35 m).
  Notation tell := (tell c (fun _ => false)).
  Notation before := (before c obj35 None None move35 (fun _ => false)).
  Notation step := (step c obj35 None None move35 (fun _ => false) uni35).
  Notation run := (run c obj35 None None move35 (fun _ => false) uni35).

  Lemma tell_fail k s y fy : stopped s = false -> fpen s < fy + 0 -> 0 <= rate s <= 1 ->
    / 10000000 <= sigma s <= 10000000 ->
    let s' := tell k s y fy 0 in
    7 / 9 * sigma s <= sigma s' <= 3 * sigma s /\ 0 <= rate s' <= 1 /\ dx s' = dx s * (9 / 10) /\ df s' = df s * (9 / 10) /\
    fpen s' = fpen s.
  Proof.
    intros ST F R SG s'. unfold s', Model_CMA.tell. rewrite ST.
    assert (B : better c (fy + 0) (fpen s) = false).
    { unfold better, c35. cbn [c_min]. apply leb_false. exact F. }
    rewrite B. cbn [andb orb sigma rate dx df fpen].
    change (c_cp c) with (/ 12). change (c_target_rate c) with (2 / 11). change (c_d c) with (default_d 1). change (c_sigma0 c) with 1.
    pose proof (sigma_step (rate s) (sigma s) R ltac:(lra)) as [S1 S2].
    set (sg := sigma s * exp _) in *.
    assert (X1 : ltb sg lo_sigma = false) by (apply ltb_false; unfold lo_sigma; lra).
    assert (X2 : ltb hi_sigma sg = false) by (apply ltb_false; unfold hi_sigma; lra).
    rewrite X1, X2. cbn [orb]. repeat split; try lra.
  Qed.

  (** The run between its start and the first stagnation, and after the only restart. *)
  Record calm (s : cst) : Prop := {
    f_stop : stopped s = false; f_keys : keys s = no_keys; f_rate : 0 <= rate s <= 1;
    f_sigma : / 10000000 <= sigma s <= 10000000; f_pen : fpen s = 0; f_evals : (1 <= evals s)%nat }.

  Lemma before_calm k s : calm s ->
    exists s1, before k s = Some (check_stop c s1) /\
      7 / 9 * sigma s <= sigma s1 <= 3 * sigma s /\ 0 <= rate s1 <= 1 /\ dx s1 = dx s * (9 / 10) /\ df s1 = df s * (9 / 10) /\
      fpen s1 = 0 /\ evals s1 = S (evals s) /\ stopped s1 = false /\ keys s1 = no_keys /\ n_restart s1 = n_restart s /\
      rflag s1 = rflag s /\ restarts s1 = restarts s.
  Proof.
    intros [A B C D E F]. unfold Proofs_CMA.before. cbn [evaluate].
    rewrite penalize_none. eexists. split; [reflexivity|].
    match goal with |- context [tell ?k ?s0 ?y ?fy 0] => pose (s0' := s0); pose (y' := y); pose (fy' := fy); change (tell k s0 y fy 0) with (tell k s0' y' fy' 0) end.
    assert (P : fpen s0' < fy' + 0).
    { unfold s0', fy', obj35. cbn [fpen]. rewrite E. rewrite Rplus_0_r. apply (lt_INR 0). lia. }
    destruct (tell_fail (2 * k) s0' y' fy' A P C D) as (T1 & T2 & T3 & T4 & T5).
    destruct (tell_keep c (fun _ => false) (2 * k) s0' y' fy' 0) as (K1 & K2 & K3 & K4 & K5).
    pose proof (tell_stopped c (fun _ => false) (2 * k) s0' y' fy' 0) as K6.
    rewrite T5, K1, K2, K3, K4, K5, K6. repeat match goal with |- _ /\ _ => split end; auto; try apply T1; try apply T2.
  Qed.

  (** check_stop without a hard criterion *)
  Lemma check_calm s : keys s = no_keys -> (forall n, m = Some n -> (evals s < n)%nat) ->
    / 100000000 <= sigma s <= 100000000 -> 1 <= dx s -> 1 <= df s -> stopped s = false ->
    check_stop c s = mkS (x s) (xopt s) (fopt s) (fpen s) (sigma s) (rate s) (dx s) (df s) (evals s) (iters s) (n_restart s)
       (if (0 <? n_restart s)%Z then false else rflag s) false no_keys (seen s) (told s) (restarts s).
  Proof.
    intros K M SG DX DF ST. unfold check_stop. rewrite K, ST. cbn [no_keys k_ftarget k_FEs k_sigma k_ftol k_xtol orb].
    change (c_ftarget c) with (@None R). change (c_max c) with m. change (c_ftol c) with 1. change (c_xtol c) with 1.
    assert (X : match m with Some n => (n <=? evals s)%nat | None => false end = false).
    { destruct m as [n|]; auto. apply Nat.leb_gt. auto. }
    assert (X1 : ltb (sigma s) lo_sigma = false) by (apply ltb_false; unfold lo_sigma; lra).
    assert (X2 : ltb hi_sigma (sigma s) = false) by (apply ltb_false; unfold hi_sigma; lra).
    assert (X3 : ltb (df s) 1 = false) by (apply ltb_false; lra).
    assert (X4 : ltb (dx s) 1 = false) by (apply ltb_false; lra).
    rewrite X, X1, X2, X3, X4. cbn [orb any_key k_ftarget k_FEs k_sigma k_ftol k_xtol]. fold no_keys.
    destruct (0 <? n_restart s)%Z; reflexivity.
  Qed.

  Definition phase (j : nat) (s : cst) : Prop :=
    calm s /\ (7 / 9) ^ j <= sigma s <= 3 ^ j /\ dx s = (9 / 10) ^ j / (9 / 10) ^ 5 /\ df s = (9 / 10) ^ j / (9 / 10) ^ 5 /\
    evals s = S j /\ n_restart s = 1%Z /\ rflag s = false /\ restarts s = 0%nat.

  Lemma phase_0 : exists s, init c obj35 None None [1 # 2] = Some s /\ phase 0 s.
  Proof.
    unfold init. cbn [evaluate]. rewrite penalize_none. eexists. split; [reflexivity|].
    unfold phase. cbn [sigma dx df evals n_restart rflag restarts fpen pow].
    change (c_sigma0 c) with 1. change (c_xtol c) with 1. change (c_ftol c) with 1. change (c_restart c) with 1%Z.
    change (length (c_box c)) with 1%nat. change (5 * 1)%nat with 5%nat.
    split; [|repeat split; try lra; auto].
    split; cbn [stopped keys rate sigma fpen evals]; auto; change (c_target_rate c) with (2 / 11); change (c_sigma0 c) with 1; try lra.
    unfold obj35. simpl. lra.
  Qed.

  Lemma phase_S j k s : phase j s -> (j < 5)%nat -> (forall n, m = Some n -> (7 < n)%nat) ->
    exists s', step k s = Some s' /\ phase (S j) s'.
  Proof.
    intros (A & SG & DX & DF & EV & NR & RF & RS) J M.
    destruct (before_calm k s A) as (s1 & B & T1 & T2 & T3 & T4 & T5 & T6 & T7 & T8 & T9 & T10 & T11).
    assert (P7 : / 10000 <= (7 / 9) ^ j * (7 / 9)) by (do 5 (destruct j as [|j]; [simpl; lra|]); lia).
    assert (P3 : 3 ^ j * 3 <= 10000) by (do 5 (destruct j as [|j]; [simpl; lra|]); lia).
    assert (P9 : 1 <= (9 / 10) ^ j / (9 / 10) ^ 5 * (9 / 10)).
    { do 5 (destruct j as [|j]; [simpl; lra|]). lia. }
    rewrite step_before, B, check_calm; auto.
    - rewrite T9, NR. cbn [Z.ltb Z.compare]. unfold restart. cbn [rflag].
      eexists. split; [reflexivity|]. unfold phase. cbn [sigma dx df evals n_restart rflag restarts].
      split; [split; cbn [stopped keys rate sigma fpen evals]; auto; [lra|lia]|].
      rewrite T3, T4, DX, DF, T6, EV, T11, RS. repeat split; auto; try (simpl; lra); rewrite <- tech_pow_Rmult; lra.
    - intros n N. specialize (M n N). rewrite T6, EV. lia.
    - lra.
    - rewrite T3, DX. exact P9.
    - rewrite T4, DF. exact P9.
  Qed.

  (** After the restart. *)
  Definition exhausted (s : cst) : Prop :=
    calm s /\ sigma s = 1 /\ dx s = 200 /\ df s = 200 /\ (n_restart s <= 0)%Z /\ rflag s = true.

  Lemma restart_calm k s : stopped s = false -> fpen s = 0 -> 0 <= rate s <= 1 -> / 10000000 <= sigma s <= 10000000 ->
    (1 <= evals s)%nat -> rflag s = true -> (n_restart s <= 1)%Z ->
    exists s', restart c obj35 None None (fun _ => false) uni35 k s = Some s' /\ exhausted s' /\
      restarts s' = S (restarts s) /\ evals s' = S (evals s).
  Proof.
    intros ST FP R SG EV RF NR. unfold restart. rewrite RF. unfold set_x. cbn [evaluate]. rewrite penalize_none.
    match goal with |- context [tell ?k ?s0 ?y ?fy 0] => pose (s0' := s0); pose (y' := y); pose (fy' := fy); pose (k' := k); change (tell k s0 y fy 0) with (tell k' s0' y' fy' 0) end.
    assert (P : fpen s0' < fy' + 0).
    { unfold s0', fy', obj35. cbn [fpen]. rewrite FP. rewrite Rplus_0_r. apply (lt_INR 0). cbn [evals]. lia. }
    destruct (tell_fail k' s0' y' fy' ST P R SG) as (T1 & T2 & T3 & T4 & T5).
    destruct (tell_keep c (fun _ => false) k' s0' y' fy' 0) as (K1 & K2 & K3 & K4 & K5).
    pose proof (tell_stopped c (fun _ => false) k' s0' y' fy' 0) as K6.
    eexists. split; [reflexivity|]. unfold exhausted. cbn [sigma dx df evals n_restart rflag restarts].
    rewrite K2, K4, K3, K1. change (c_sigma0 c) with 1. change (c_xtol c) with 1. change (c_ftol c) with 1.
    split; [|split; reflexivity].
    split; [|repeat split; try lra; auto; cbn [n_restart]; unfold s0'; cbn [n_restart]; lia].
    split; cbn [stopped keys rate sigma fpen evals]; auto.
    - now rewrite K6.
    - change (c_sigma0 c) with 1. lra.
    - now rewrite T5.
    - unfold s0'. cbn [evals]. lia.
  Qed.

  Lemma phase_5 k s : phase 5 s -> (forall n, m = Some n -> (7 < n)%nat) ->
    exists s', step k s = Some s' /\ exhausted s' /\ restarts s' = 1%nat /\ evals s' = 8%nat.
  Proof.
    intros (A & SG & DX & DF & EV & NR & RF & RS) M.
    destruct (before_calm k s A) as (s1 & B & T1 & T2 & T3 & T4 & T5 & T6 & T7 & T8 & T9 & T10 & T11).
    assert (P7 : / 10000 <= (7 / 9) ^ 5 * (7 / 9)) by (simpl; lra).
    assert (P3 : 3 ^ 5 * 3 <= 10000) by (simpl; lra).
    rewrite step_before, B.
    destruct (restart_calm k (check_stop c s1)) as (s' & E & X & RS' & EV').
    - unfold check_stop. cbn [stopped]. rewrite T8, T9, NR. cbn [no_keys k_ftarget k_FEs k_sigma k_ftol k_xtol orb].
      change (c_ftarget c) with (@None R). change (c_max c) with m. cbn [Z.ltb Z.compare].
      assert (X : match m with Some n => (n <=? evals s1)%nat | None => false end = false).
      { destruct m as [n|]; auto. apply Nat.leb_gt. specialize (M n eq_refl). rewrite T6, EV. lia. }
      rewrite X. cbn [orb]. exact T7.
    - exact T5.
    - exact T2.
    - cbn [check_stop sigma]. lra.
    - cbn [check_stop evals]. lia.
    - unfold check_stop. cbn [rflag]. rewrite T8, T9, NR. cbn [no_keys k_ftarget k_FEs k_sigma k_ftol k_xtol orb].
      change (c_ftarget c) with (@None R). change (c_max c) with m. change (c_ftol c) with 1. change (c_xtol c) with 1.
      cbn [Z.ltb Z.compare].
      assert (X : match m with Some n => (n <=? evals s1)%nat | None => false end = false).
      { destruct m as [n|]; auto. apply Nat.leb_gt. specialize (M n eq_refl). rewrite T6, EV. lia. }
      rewrite X. cbn [orb any_key k_ftarget k_FEs k_sigma k_ftol k_xtol].
      assert (X4 : ltb (df s1) 1 = true). { apply ltb_iff. rewrite T4, DF. simpl. lra. }
      rewrite X4. cbn [orb]. destruct (ltb (sigma s1) lo_sigma || ltb hi_sigma (sigma s1)); reflexivity.
    - cbn [check_stop n_restart]. rewrite T9, NR. lia.
    - exists s'. split; [exact E|]. split; [exact X|]. split.
      + rewrite RS'. cbn [check_stop restarts]. now rewrite T11, RS.
      + rewrite EV'. cbn [check_stop evals]. now rewrite T6, EV.
  Qed.

  Lemma exhausted_step k s : exhausted s -> (forall n, m = Some n -> (S (evals s) < n)%nat) ->
    exists s', step k s = Some s' /\ exhausted s' /\ restarts s' = S (restarts s) /\ evals s' = S (S (evals s)).
  Proof.
    intros (A & SG & DX & DF & NR & RF) M.
    destruct (before_calm k s A) as (s1 & B & T1 & T2 & T3 & T4 & T5 & T6 & T7 & T8 & T9 & T10 & T11).
    rewrite step_before, B, check_calm; auto; try lra.
    - destruct (restart_calm k (mkS (x s1) (xopt s1) (fopt s1) (fpen s1) (sigma s1) (rate s1) (dx s1) (df s1) (evals s1) (iters s1) (n_restart s1)
       (if (0 <? n_restart s1)%Z then false else rflag s1) false no_keys (seen s1) (told s1) (restarts s1))) as (s' & E & X & RS' & EV');
        cbn [stopped fpen rate sigma evals rflag n_restart]; auto; try lra; try lia.
      + rewrite T9. replace (0 <? n_restart s)%Z with false by (symmetry; apply Z.ltb_ge; lia). now rewrite T10.
      + exists s'. split; [exact E|]. split; [exact X|]. split; [rewrite RS'; cbn [restarts]; now rewrite T11|].
        rewrite EV'. cbn [evals]. now rewrite T6.
    - intros n N. rewrite T6. auto.
  Qed.

  Lemma exhausted_run : forall n k s, m = None -> exhausted s ->
    exists s', run n k s = Some s' /\ stopped s' = false /\ restarts s' = (n + restarts s)%nat.
  Proof.
    induction n as [|n IH]; intros k s M X.
    - exists s. simpl. destruct X as (A & _). rewrite (f_stop s A). repeat split; auto.
    - simpl. assert (ST : stopped s = false) by (destruct X as (A & _); apply A). rewrite ST.
      destruct (exhausted_step k s X) as (s1 & E & X1 & R1 & _). { intros j J. congruence. }
      rewrite E. destruct (IH (S k) s1 M X1) as (s' & G1 & G2 & G3). exists s'. repeat split; auto. rewrite G3, R1. lia.
  Qed.

  Lemma reach_exhausted : (forall n, m = Some n -> (7 < n)%nat) ->
    exists s0 s, init c obj35 None None [1 # 2] = Some s0 /\ exhausted s /\ restarts s = 1%nat /\ evals s = 8%nat /\
      forall n, run (6 + n) 0 s0 = run n 6 s.
  Proof.
    intro M. destruct phase_0 as (s0 & I & P0).
    destruct (phase_S 0 0 s0 P0 ltac:(lia) M) as (s1 & E1 & P1).
    destruct (phase_S 1 1 s1 P1 ltac:(lia) M) as (s2 & E2 & P2).
    destruct (phase_S 2 2 s2 P2 ltac:(lia) M) as (s3 & E3 & P3).
    destruct (phase_S 3 3 s3 P3 ltac:(lia) M) as (s4 & E4 & P4).
    destruct (phase_S 4 4 s4 P4 ltac:(lia) M) as (s5 & E5 & P5).
    destruct (phase_5 5 s5 P5 M) as (s6 & E6 & X & R & EV).
    exists s0, s6. split; [exact I|]. split; [exact X|]. split; [exact R|]. split; [exact EV|]. intro n. change (6 + n)%nat with (S (S (S (S (S (S n)))))).
    assert (Q : forall j s, phase j s -> stopped s = false) by (intros j s (A & _); apply A).
    cbn [Model_CMA.run]. rewrite (Q _ _ P0), E1, (Q _ _ P1), E2, (Q _ _ P2), E3, (Q _ _ P3), E4, (Q _ _ P4), E5, (Q _ _ P5), E6.
    reflexivity.
  Qed.

  (** The budget is reached, and a restart is made all the same. *)
  Lemma check_rflag s : (n_restart s <= 0)%Z -> rflag (check_stop c s) = rflag s.
  Proof.
    intro N. unfold check_stop. cbn [rflag]. replace (0 <? n_restart s)%Z with false by (symmetry; apply Z.ltb_ge; lia).
    destruct (_ || _); reflexivity.
  Qed.
  Lemma run_0 k s : run 0 k s = Some s.
  Proof. cbn [Model_CMA.run]. destruct (stopped s); reflexivity. Qed.
  Lemma run_1 k s : stopped s = false -> run 1 k s = step k s.
  Proof. intro ST. cbn [Model_CMA.run]. rewrite ST. destruct (step k s) as [s'|]; auto. destruct (stopped s'); reflexivity. Qed.
  Lemma over_budget1 k s : exhausted s -> exists s', run 1 k s = Some s' /\ evals s' = S (S (evals s)).
  Proof.
    intros (A & SG & DX & DF & NR & RF).
    destruct (before_calm k s A) as (s1 & B & T1 & T2 & T3 & T4 & T5 & T6 & T7 & T8 & T9 & T10 & T11).
    rewrite run_1 by exact (f_stop s A). rewrite step_before, B. unfold restart. rewrite check_rflag by (rewrite T9; exact NR). rewrite T10, RF.
    unfold set_x. cbn [evaluate]. rewrite penalize_none. eexists. split; [reflexivity|].
    match goal with |- context [Model_CMA.tell c ?f ?k ?s0 ?y ?fy 0] => destruct (tell_keep c f k s0 y fy 0) as (K1 & _) end.
    eapply eq_trans; [exact K1|]. cbn [evals check_stop]. now rewrite T6.
  Qed.
End Runs.

Lemma over_budget n k s : exhausted s -> evals s = 8%nat ->
  exists s', run (c35 (Some n)) obj35 None None move35 (fun _ => false) uni35 1 k s = Some s' /\ evals s' = 10%nat.
Proof.
  intros X E. destruct (over_budget1 (Some n) k s X) as (s' & H & E'). exists s'. split; [exact H|]. rewrite E', E. reflexivity.
Qed.
