(** Lemmas about Model_CMA.v. *)
From Coq Require Import Bool Arith ZArith QArith Qreals Reals List Lia Lra.
From Verif Require Import Lib_List Model_Var Model_Box Proofs_Var Proofs_Box Model_Penalty Properties_Penalty.
From Verif Require Import Model_CMA Spec_CMA.
Import ListNotations.
Open Scope R_scope.

Lemma leb_iff a b : leb a b = true <-> a <= b.
Proof. unfold leb. destruct (Rle_dec a b); split; intros; auto; try discriminate; contradiction. Qed.
Lemma leb_false a b : leb a b = false <-> b < a.
Proof. unfold leb. destruct (Rle_dec a b); split; intros; auto; try discriminate; lra. Qed.
Lemma ltb_iff a b : ltb a b = true <-> a < b.
Proof. unfold ltb. destruct (Rlt_dec a b); split; intros; auto; try discriminate; contradiction. Qed.
Lemma ltb_false a b : ltb a b = false <-> b <= a.
Proof. unfold ltb. destruct (Rlt_dec a b); split; intros; auto; try discriminate; lra. Qed.
Lemma eqb_iff a b : eqb a b = true <-> a = b.
Proof. unfold eqb. destruct (Req_EM_T a b); split; intros; auto; try discriminate; contradiction. Qed.

Section Proofs.
  Variable c : ccfg.
  Variable obj : nat -> pt -> R.
  Variables h g : option (pt -> option (list R)).
  Variable move : nat -> pt.
  Variable chol_fails : nat -> bool.
  Variable uniform : nat -> pt.
  Notation nw := (no_worse (c_min c)).
  Notation step := (step c obj h g move chol_fails uniform).
  Notation restart := (restart c obj h g chol_fails uniform).
  Notation tell := (tell c chol_fails).
  Notation run := (run c obj h g move chol_fails uniform).

  Lemma nw_refl a : nw a a.
  Proof. unfold no_worse. destruct (c_min c); lra. Qed.
  Lemma nw_trans a b d : nw a b -> nw b d -> nw a d.
  Proof. unfold no_worse. destruct (c_min c); lra. Qed.
  Lemma better_true a b : better c a b = true <-> nw a b.
  Proof. unfold better, no_worse. destruct (c_min c); apply leb_iff. Qed.
  Lemma better_false a b : better c a b = false -> nw b a.
  Proof. unfold better, no_worse. destruct (c_min c); rewrite leb_false; lra. Qed.

  Lemma usual_at t : usual (ppar_at c (S t)).
  Proof.
    unfold usual, ppar_at. cbn [tt CC alpha beta epsilon]. rewrite S_INR. pose proof (pos_INR t). repeat split; lra.
  Qed.

  Lemma penalize_spec s y p : penalize c h g s y = Some p ->
    (p = 0 <-> feasible h g y) /\ nw 0 p.
  Proof.
    unfold penalize. intro H.
    destruct (dynamic_penalty _ h g [y]) as [[|q [|]]|] eqn:E; try discriminate. injection H as ->.
    destruct (C28_zero_iff_feasible _ _ h g y p (usual_at _) E) as [Z N].
    apply single_value in E as E'. destruct E' as (hv & gv & Eh & Eg & _).
    assert (F : holds_at (ppar_at c (S (iters s))) h g y <-> feasible h g y).
    { unfold holds_at, feasible. split.
      - intro K. destruct (K hv gv Eh Eg). exists hv, gv. auto.
      - intros (h' & g' & E1 & E2 & K1 & K2) h'' g'' E3 E4.
        unfold values, Properties_Penalty.values in *.
        assert (h'' = h') by congruence. assert (g'' = g') by congruence. subst. auto. }
    split; [rewrite Z; exact F|].
    destruct (Req_EM_T p 0) as [->|NZ]; [apply nw_refl|].
    assert (NF : ~ holds_at (ppar_at c (S (iters s))) h g y) by (intro K; apply NZ, Z, K).
    specialize (N NF). unfold cost, ppar_at in N. cbn [minimize] in N. unfold no_worse. destruct (c_min c); lra.
  Qed.

  (** *** The incumbent *)
  Record inv (s : cst) : Prop := {
    i_opt : exists p, In (xopt s, fopt s, p) (told s);
    i_told : forall y fy p, In (y, fy, p) (told s) -> In (y, fy) (seen s) /\ (p = 0 <-> feasible h g y) /\ nw 0 p;
    i_pen : forall y fy p, In (y, fy, p) (told s) -> nw (fpen s) (fy + p);
    i_att : exists y fy p, In (y, fy, p) (told s) /\ fpen s = fy + p;
    i_feas : feasible h g (xopt s) -> nw (fpen s) (fopt s);
    i_evals : evals s = length (seen s);
    i_count : (length (told s) <= length (seen s))%nat;
    i_all : stopped s = false -> map fst (told s) = seen s }.

  Definition keeps (s s' : cst) : Prop :=
    (feasible h g (xopt s) -> feasible h g (xopt s') /\ nw (fopt s') (fopt s)) /\ nw (fpen s') (fpen s).
  Lemma keeps_refl s : keeps s s.
  Proof. split; auto using nw_refl. Qed.
  Lemma keeps_trans s1 s2 s3 : keeps s1 s2 -> keeps s2 s3 -> keeps s1 s3.
  Proof.
    intros [A1 A2] [B1 B2]. split; [|eapply nw_trans; eauto]. intro F. destruct (A1 F) as [F2 N2]. destruct (B1 F2) as [F3 N3].
    split; auto. eapply nw_trans; eauto.
  Qed.

  (** evaluate, penalize and tell together *)
  Definition moved (s : cst) (x' : pt) : cst :=
    mkS x' (xopt s) (fopt s) (fpen s) (sigma s) (rate s) (dx s) (df s) (evals s) (iters s) (n_restart s)
                 (rflag s) (stopped s) (keys s) (seen s) (told s) (restarts s).

  Lemma tell_inv k s y fy s1 p :
    inv s -> evaluate obj s y = (fy, s1) -> penalize c h g s1 y = Some p ->
    inv (tell k s1 y fy p) /\ keeps s (tell k s1 y fy p).
  Proof.
    intros I E P. unfold evaluate in E. injection E as <- <-.
    set (fy := obj (evals s) y) in *. apply penalize_spec in P as [PZ PN].
    unfold Model_CMA.tell. cbn [stopped].
    destruct (stopped s) eqn:ST.
    - split.
      + destruct I as [A B C D E F G H]. split; cbn [xopt fopt fpen told seen evals stopped]; auto.
        * intros y' f' p' T. destruct (B _ _ _ T) as (B1 & B2). split; auto. apply in_or_app; auto.
        * rewrite app_length. simpl. lia.
        * rewrite app_length. lia.
        * congruence.
      + split; cbn [xopt fopt fpen]; auto using nw_refl.
    - cbn [rate fpen sigma df dx x xopt fopt evals iters n_restart rflag keys seen told restarts].
      destruct (better c (fy + p) (fpen s)) eqn:B.
      + apply better_true in B. cbn [andb].
        assert (K : keeps s (mkS y (if eqb p 0 then y else xopt s) (if eqb p 0 then fy else fopt s) (fy + p) 0 0 0 0 0 0 0 true true no_keys [] [] 0)).
        { split; cbn [xopt fopt fpen]; auto. intro F. destruct (eqb p 0) eqn:Z.
          - apply eqb_iff in Z. split; [now apply PZ|]. pose proof (i_feas s I F) as K. subst p. rewrite Rplus_0_r in B.
            eapply nw_trans; eauto.
          - split; auto using nw_refl. }
        split; [|exact K].
        split; cbn [xopt fopt fpen told seen evals stopped].
        * destruct (eqb p 0); [exists p; apply in_or_app; right; now left|].
          destruct (i_opt s I) as [q Q]. exists q. apply in_or_app; auto.
        * intros y' f' p' T. apply in_app_or in T as [T|[T|[]]].
          -- destruct (i_told s I _ _ _ T) as (T1 & T2). split; auto. apply in_or_app; auto.
          -- injection T as <- <- <-. split; auto. apply in_or_app. right. now left.
        * intros y' f' p' T. apply in_app_or in T as [T|[T|[]]].
          -- eapply nw_trans; [exact B|]. eapply i_pen; eauto.
          -- injection T as <- <- <-. apply nw_refl.
        * exists y, fy, p. split; auto. apply in_or_app. right. now left.
        * destruct (eqb p 0) eqn:Z.
          -- apply eqb_iff in Z. subst p. intros _. rewrite Rplus_0_r. apply nw_refl.
          -- intro F. eapply nw_trans; [exact B|]. now apply (i_feas s I).
        * rewrite app_length. simpl. rewrite (i_evals s I). lia.
        * rewrite !app_length. simpl. pose proof (i_count s I). lia.
        * intros _. rewrite map_app, (i_all s I ST). reflexivity.
      + apply better_false in B. cbn [andb]. split; [|split; cbn [xopt fopt fpen]; auto using nw_refl].
        split; cbn [xopt fopt fpen told seen evals stopped].
        * destruct (i_opt s I) as [q Q]. exists q. apply in_or_app; auto.
        * intros y' f' p' T. apply in_app_or in T as [T|[T|[]]].
          -- destruct (i_told s I _ _ _ T) as (T1 & T2). split; auto. apply in_or_app; auto.
          -- injection T as <- <- <-. split; auto. apply in_or_app. right. now left.
        * intros y' f' p' T. apply in_app_or in T as [T|[T|[]]].
          -- eapply i_pen; eauto.
          -- injection T as <- <- <-. exact B.
        * destruct (i_att s I) as (y' & f' & p' & T & E). exists y', f', p'. split; auto. apply in_or_app; auto.
        * apply (i_feas s I).
        * rewrite app_length. simpl. rewrite (i_evals s I). lia.
        * rewrite !app_length. simpl. pose proof (i_count s I). lia.
        * intros _. rewrite map_app, (i_all s I ST). reflexivity.
  Qed.

  Lemma check_inv s : inv s -> stopped s = false -> inv (check_stop c s) /\ keeps s (check_stop c s).
  Proof. intros [A B C D E F G H] ST. split; [split; auto|split; auto using nw_refl]. Qed.

  Lemma tell_stopped k s y fy p : stopped (tell k s y fy p) = stopped s.
  Proof. unfold Model_CMA.tell. destruct (stopped s) eqn:E; auto. Qed.

  Lemma set_x_inv k s y s' : inv s -> set_x c obj h g chol_fails k s y = Some s' -> inv s' /\ keeps s s'.
  Proof.
    intros I H. unfold set_x in H. change (mkS y _ _ _ _ _ _ _ _ _ _ _ _ _ _ _ _) with (moved s y) in H.
    assert (I' : inv (moved s y)) by (destruct I; split; auto).
    destruct (evaluate obj (moved s y) y) as [fy s1] eqn:E.
    destruct (penalize c h g s1 y) as [p|] eqn:P; [|discriminate]. injection H as <-.
    destruct (tell_inv k _ _ _ _ _ I' E P) as [A B]. split; auto.
  Qed.

  Lemma restart_inv k s s' : inv s -> restart k s = Some s' -> inv s' /\ keeps s s'.
  Proof.
    unfold Model_CMA.restart. intros I H. destruct (rflag s).
    - destruct (set_x _ _ _ _ _ _ _ _) as [s1|] eqn:E; [|discriminate]. injection H as <-.
      destruct (set_x_inv _ _ _ _ I E) as [J K]. split; [|exact K]. destruct J; split; auto.
    - injection H as <-. split; auto using keeps_refl.
  Qed.

  Lemma step_inv k s s' : inv s -> stopped s = false -> step k s = Some s' -> inv s' /\ keeps s s'.
  Proof.
    intros I ST H. unfold Model_CMA.step in H.
    destruct (evaluate obj s (ask c move k s)) as [fy s1] eqn:E.
    destruct (penalize c h g s1 _) as [p|] eqn:P; [|discriminate].
    destruct (tell_inv (2 * k) _ _ _ _ _ I E P) as [I1 K1].
    assert (ST1 : stopped (tell (2 * k) s1 (ask c move k s) fy p) = false).
    { rewrite tell_stopped. unfold evaluate in E. injection E as _ <-. exact ST. }
    destruct (check_inv _ I1 ST1) as [I2 K2]. destruct (restart_inv _ _ _ I2 H) as [I3 K3].
    split; [exact I3|]. exact (keeps_trans _ _ _ K1 (keeps_trans _ _ _ K2 K3)).
  Qed.

  Lemma run_inv : forall n k s s', inv s -> run n k s = Some s' -> inv s' /\ keeps s s'.
  Proof.
    induction n as [|n IH]; intros k s s' I H; simpl in H; destruct (stopped s) eqn:ST;
      try (injection H as <-; split; auto using keeps_refl).
    destruct (step k s) as [s1|] eqn:E; [|discriminate].
    destruct (step_inv _ _ _ I ST E) as [I1 K1]. destruct (IH _ _ _ I1 H) as [I2 K2].
    split; [exact I2|]. exact (keeps_trans _ _ _ K1 K2).
  Qed.

  Lemma init_inv x0 s : init c obj h g x0 = Some s -> inv s.
  Proof.
    unfold init. cbn [evaluate]. intro H. simpl in H.
    destruct (penalize c h g _ x0) as [p|] eqn:P; [|discriminate]. injection H as <-.
    apply penalize_spec in P as [PZ PN].
    split; cbn [xopt fopt fpen told seen evals stopped]; auto.
    - exists p. now left.
    - intros y fy q [[= <- <- <-]|[]]. split; [now left|auto].
    - intros y fy q [[= <- <- <-]|[]]. apply nw_refl.
    - do 3 eexists. split; [left; reflexivity|reflexivity].
    - intro F. apply PZ in F. subst p. rewrite Rplus_0_r. apply nw_refl.
  Qed.

  (** *** Evaluations and stopping *)
  Lemma tell_keep k s y fy p : evals (tell k s y fy p) = evals s /\ rflag (tell k s y fy p) = rflag s /\
    n_restart (tell k s y fy p) = n_restart s /\ restarts (tell k s y fy p) = restarts s /\ keys (tell k s y fy p) = keys s.
  Proof. unfold Model_CMA.tell. destruct (stopped s); auto. Qed.

  (** The state of a step before restart. *)
  Definition before (k : nat) (s : cst) : option cst :=
    let y := ask c move k s in
    let '(fy, s1) := evaluate obj s y in
    match penalize c h g s1 y with None => None | Some p => Some (check_stop c (tell (2 * k) s1 y fy p)) end.
  Lemma step_before k s : step k s = match before k s with None => None | Some s1 => restart k s1 end.
  Proof. unfold Model_CMA.step, before. destruct (evaluate _ _ _). destruct (penalize _ _ _ _ _); auto. Qed.
  Lemma before_spec k s s1 : before k s = Some s1 ->
    evals s1 = S (evals s) /\ n_restart s1 = n_restart s /\ restarts s1 = restarts s /\
    (forall m, c_max c = Some m -> (m <= S (evals s))%nat -> stopped s1 = true) /\
    (k_ftarget (keys s1) || k_FEs (keys s1) = false -> (0 < n_restart s)%Z -> rflag s1 = any_key (keys s1)) /\
    ((n_restart s <= 0)%Z -> rflag s1 = rflag s) /\
    ((n_restart s <= 0)%Z -> stopped s1 = any_key (keys s1)) /\
    (stopped s = false -> stopped s1 = true -> any_key (keys s1) = true).
  Proof.
    unfold before. destruct (evaluate obj s (ask c move k s)) as [fy s0] eqn:E.
    destruct (penalize _ _ _ _ _) as [p|]; [|discriminate]. intro H.
    assert (X : s1 = check_stop c (tell (2 * k) s0 (ask c move k s) fy p)) by congruence. clear H. subst s1.
    destruct (tell_keep (2 * k) s0 (ask c move k s) fy p) as (K1 & K2 & K3 & K4 & K5).
    pose proof (tell_stopped (2 * k) s0 (ask c move k s) fy p) as K6.
    assert (E1 : evals s0 = S (evals s) /\ rflag s0 = rflag s /\ n_restart s0 = n_restart s /\ restarts s0 = restarts s /\ stopped s0 = stopped s).
    { unfold evaluate in E. injection E as _ <-. auto. }
    destruct E1 as (E1 & E2 & E3 & E4 & E5).
    set (s1 := tell (2 * k) s0 (ask c move k s) fy p) in *.
    unfold check_stop. cbn [evals n_restart restarts rflag stopped keys]. rewrite K1, K2, K3, K4, K6, E1, E2, E3, E4, E5.
    repeat match goal with |- _ /\ _ => split end; auto.
    - intros m -> L. apply Nat.leb_le in L. rewrite L, orb_true_r. cbn [k_FEs]. now rewrite orb_true_r.
    - intros Hd L. rewrite Hd. apply Z.ltb_lt in L. now rewrite L.
    - intro L. apply Z.ltb_ge in L. rewrite L. destruct (_ || _); auto.
    - intro L. apply Z.ltb_ge in L. rewrite L. unfold any_key. cbn [k_ftarget k_FEs k_sigma k_ftol k_xtol].
      destruct (k_ftarget (keys s1) || _); auto. destruct (k_FEs (keys s1) || _); auto.
    - intros NS. rewrite NS. unfold any_key. cbn [k_ftarget k_FEs k_sigma k_ftol k_xtol].
      destruct (k_ftarget (keys s1) || _); auto. destruct (k_FEs (keys s1) || _); auto. cbn [orb].
      destruct (0 <? n_restart s)%Z; auto; discriminate.
  Qed.
  Lemma restart_spec k s s' : restart k s = Some s' ->
    (rflag s = false /\ s' = s) \/
    (rflag s = true /\ rflag s' = true /\ evals s' = S (evals s) /\ restarts s' = S (restarts s) /\ stopped s' = stopped s /\
     n_restart s' = (n_restart s - 1)%Z /\ keys s' = no_keys).
  Proof.
    unfold Model_CMA.restart. destruct (rflag s) eqn:R; intro H; [right|left; split; congruence].
    unfold set_x in H. destruct (evaluate obj _ (uniform k)) as [fy s1] eqn:E.
    destruct (penalize _ _ _ _ _) as [p|]; [|discriminate].
    destruct (tell_keep (2 * k + 1) s1 (uniform k) fy p) as (K1 & K2 & K3 & K4 & K5).
    pose proof (tell_stopped (2 * k + 1) s1 (uniform k) fy p) as K6.
    unfold evaluate in E. injection E as <- <-. cbn [evals rflag n_restart restarts stopped] in *.
    set (s1 := tell _ _ _ _ _) in *. clearbody s1. injection H as <-. cbn [evals rflag n_restart restarts stopped keys]. rewrite K1, K2, K3, K4, K6. auto 10.
  Qed.

  (** At most two evaluations more than the budget; the budget ends the run. *)
  Lemma run_budget m : c_max c = Some m -> (1 <= m)%nat -> forall n k s s',
    run n k s = Some s' -> (stopped s = false -> evals s <= m)%nat -> (evals s <= m + 2)%nat ->
    (evals s' <= m + 2)%nat /\ ((1 <= n /\ m <= n + evals s)%nat \/ stopped s = true -> stopped s' = true).
  Proof.
    intros M M1. induction n as [|n IH]; intros k s s' H N B; simpl in H.
    - destruct (stopped s) eqn:ST; injection H as <-; split; auto.
      + intros [X|X]; [lia|congruence].
    - destruct (stopped s) eqn:ST; [injection H as <-; auto|].
      rewrite step_before in H. destruct (before k s) as [s1|] eqn:E1; [|discriminate].
      destruct (restart k s1) as [s2|] eqn:E2; [|discriminate].
      destruct (before_spec _ _ _ E1) as (F1 & _ & _ & F4 & _). specialize (N eq_refl).
      assert (G : (evals s2 <= S (S (evals s)))%nat /\ (S (evals s) <= evals s2)%nat /\ stopped s2 = stopped s1).
      { destruct (restart_spec _ _ _ E2) as [[_ ->]|(_ & _ & G1 & _ & G2 & _)]; [|rewrite G1, G2]; repeat split; lia. }
      destruct G as (G1 & G2 & G3).
      assert (ST2 : stopped s2 = false -> (S (evals s) < m)%nat).
      { intro K. destruct (le_lt_dec m (S (evals s))) as [X|X]; auto. rewrite G3, (F4 m M X) in K. discriminate. }
      assert (B2 : (evals s2 <= m + 2)%nat) by lia.
      destruct (IH (S k) s2 s' H) as [R1 R2]; auto.
      + intro K. specialize (ST2 K). lia.
      + split; auto. intros [L|L]; [|congruence]. apply R2. destruct (stopped s2) eqn:ST3; auto.
        specialize (ST2 eq_refl). left. lia.
  Qed.

  (** If all points are feasible the incumbent is the best penalised one. *)
  Section AllFeasible.
    Hypothesis ALL : forall y, feasible h g y.
    Lemma penalize_all s y p : penalize c h g s y = Some p -> p = 0.
    Proof. intro H. apply penalize_spec in H. destruct H as [H _]. apply H, ALL. Qed.
    Lemma tell_same k s y fy : fopt s = fpen s -> fopt (tell k s y fy 0) = fpen (tell k s y fy 0).
    Proof.
      intro E. unfold Model_CMA.tell. destruct (stopped s); [exact E|]. cbn [fopt fpen].
      replace (eqb 0 0) with true by (symmetry; apply eqb_iff; reflexivity). rewrite andb_true_r.
      destruct (better c (fy + 0) (fpen s)); [ring|exact E].
    Qed.
    Lemma step_same k s s' : fopt s = fpen s -> step k s = Some s' -> fopt s' = fpen s'.
    Proof.
      intros E H. rewrite step_before in H. unfold before in H. cbn [evaluate] in H.
      destruct (penalize _ _ _ _ _) as [p|] eqn:P; [|discriminate]. apply penalize_all in P. subst p.
      unfold Model_CMA.restart in H.
      match type of H with context [tell ?k ?a ?y ?b 0] => assert (G : fopt (tell k a y b 0) = fpen (tell k a y b 0)) by (apply tell_same; exact E);
        set (s1 := tell k a y b 0) in *; clearbody s1 end.
      destruct (rflag _); [|injection H as <-; exact G].
      unfold set_x in H. cbn [evaluate] in H.
      destruct (penalize _ _ _ _ _) as [p|] eqn:P; [|discriminate]. apply penalize_all in P. subst p.
      match type of H with context [Model_CMA.tell c chol_fails ?k ?a ?y ?b 0] => assert (G2 : fopt (tell k a y b 0) = fpen (tell k a y b 0)) by (apply tell_same; exact G);
        set (s2 := tell k a y b 0) in *; clearbody s2 end.
      injection H as <-. exact G2.
    Qed.
    Lemma run_same : forall n k s s', fopt s = fpen s -> run n k s = Some s' -> fopt s' = fpen s'.
    Proof.
      induction n as [|n IH]; intros k s s' E H; simpl in H; destruct (stopped s); try (injection H as <-; exact E).
      destruct (step k s) as [s1|] eqn:S1; [|discriminate]. exact (IH _ _ _ (step_same _ _ _ E S1) H).
    Qed.
    Lemma init_same x0 s : init c obj h g x0 = Some s -> fopt s = fpen s.
    Proof.
      unfold init. cbn [evaluate]. intro H. destruct (penalize _ _ _ _ _) as [p|] eqn:P; [|discriminate].
      apply penalize_all in P. subst p. injection H as <-. cbn [fopt fpen]. ring.
    Qed.
  End AllFeasible.

  (** Without restarts. *)
  Lemma run_no_restart : forall n k s s', run n k s = Some s' -> (n_restart s <= 0)%Z -> rflag s = false ->
    restarts s' = restarts s /\ rflag s' = false /\ (n_restart s' <= 0)%Z /\
    (forall m, c_max c = Some m -> (evals s <= Nat.max 2 m)%nat -> (stopped s = false -> evals s <= 1 \/ evals s < m)%nat -> (evals s' <= Nat.max 2 m)%nat).
  Proof.
    induction n as [|n IH]; intros k s s' H N R; simpl in H; destruct (stopped s) eqn:ST;
      try (injection H as <-; repeat split; auto).
    rewrite step_before in H. destruct (before k s) as [s1|] eqn:E1; [|discriminate].
    destruct (before_spec _ _ _ E1) as (F1 & F2 & F3 & F4 & _ & F6 & F7 & _).
    unfold Model_CMA.restart in H. rewrite (F6 N), R in H.
    destruct (IH _ _ _ H) as (G1 & G2 & G3 & G4).
    - now rewrite F2.
    - rewrite (F6 N). exact R.
    - rewrite G1, F3. repeat split; auto. intros m M B K. specialize (K eq_refl). apply (G4 m M).
      + lia.
      + intro K1. destruct (le_lt_dec m (S (evals s))) as [X|X]; [rewrite (F4 m M X) in K1; discriminate|]. lia.
  Qed.

  (** *** Box, step size, success rate *)
  Hypothesis OK : sensible c.
  Hypothesis FAIR : fair c move uniform.

  Record range (s : cst) : Prop := {
    r_x : in_box (c_box c) (x s);
    r_seen : forall y fy, In (y, fy) (seen s) -> in_box (c_box c) y;
    r_sigma : 0 < sigma s;
    r_rate : 0 <= rate s <= 1 }.

  Lemma Forall2_len {A B} (P : A -> B -> Prop) l m : Forall2 P l m -> length l = length m.
  Proof. intro H. induction H; simpl; auto. Qed.

  Lemma fit_box_in y : length y = length (c_box c) -> in_box (c_box c) (fit_box c y).
  Proof.
    destruct OK as (B & L & _). unfold fit_box, in_box. revert B L y. generalize (c_box c) (c_prec c). clear.
    induction l as [|b l IH]; intros [|p ps] B L [|q y] Ly; simpl in *; try discriminate; constructor.
    - inversion B; subst. simpl. destruct (reflect_in q _ _ H1). apply real_round_in. auto.
    - inversion B; subst. apply IH; auto.
  Qed.

  Lemma ask_in k s : in_box (c_box c) (x s) -> in_box (c_box c) (ask c move k s).
  Proof.
    intro H. apply fit_box_in. unfold add. rewrite map_length, combine_length. apply Forall2_len in H.
    destruct (FAIR k) as [L _]. rewrite L, H. apply Nat.min_id.
  Qed.

  Lemma tell_range k s y fy s1 p : range s -> in_box (c_box c) y -> evaluate obj s y = (fy, s1) ->
    range (tell k s1 y fy p).
  Proof.
    intros [A B C D] Y E. unfold evaluate in E. injection E as <- <-.
    assert (S1 : forall y' f', In (y', f') (seen s ++ [(y, obj (evals s) y)]) -> in_box (c_box c) y').
    { intros y' f' H. apply in_app_or in H as [H|[[= <- <-]|[]]]; eauto. }
    unfold Model_CMA.tell. cbn [stopped]. destruct (stopped s); [split; auto|].
    cbn [rate fpen sigma df dx x xopt fopt evals iters n_restart rflag keys seen told restarts].
    destruct OK as (_ & _ & S0 & TR & CP & DD).
    split; cbn [x seen sigma rate]; auto.
    - destruct (better _ _ _); auto.
    - destruct (_ || _); auto. apply Rmult_lt_0_compat; auto. apply exp_pos.
    - assert (0 <= (if better c (obj (evals s) y + p) (fpen s) then 1 else 0) <= 1) by (destruct (better _ _ _); lra).
      nra.
  Qed.

  Lemma step_range k s s' : range s -> step k s = Some s' -> range s'.
  Proof.
    intros R H. unfold Model_CMA.step in H.
    destruct (evaluate obj s (ask c move k s)) as [fy s1] eqn:E.
    destruct (penalize c h g s1 _) as [p|] eqn:P; [|discriminate].
    assert (R1 : range (tell (2 * k) s1 (ask c move k s) fy p)).
    { eapply tell_range; eauto. apply ask_in. apply R. }
    assert (R2 : range (check_stop c (tell (2 * k) s1 (ask c move k s) fy p))) by (destruct R1; split; auto).
    revert H R2. generalize (check_stop c (tell (2 * k) s1 (ask c move k s) fy p)). clear - OK FAIR.
    intros s H R. unfold Model_CMA.restart in H. destruct (rflag s); [|congruence].
    destruct (set_x _ _ _ _ _ _ _ _) as [s2|] eqn:E; [|discriminate]. injection H as <-.
    assert (R2 : range s2).
    { unfold set_x in E. change (mkS (uniform k) _ _ _ _ _ _ _ _ _ _ _ _ _ _ _ _) with (moved s (uniform k)) in E.
      assert (U : in_box (c_box c) (uniform k)) by apply FAIR.
      assert (R' : range (moved s (uniform k))) by (destruct R; split; auto).
      destruct (evaluate obj (moved s (uniform k)) (uniform k)) as [fy s1] eqn:E1.
      destruct (penalize c h g s1 _); [|discriminate]. injection E as <-. eapply tell_range; eauto. }
    destruct R2. split; auto. cbn [sigma]. apply OK.
  Qed.

  Lemma run_range : forall n k s s', range s -> run n k s = Some s' -> range s'.
  Proof.
    induction n as [|n IH]; intros k s s' R H; simpl in H; destruct (stopped s) eqn:ST; try congruence.
    destruct (step k s) as [s1|] eqn:E; [|discriminate]. exact (IH _ _ _ (step_range _ _ _ R E) H).
  Qed.

  Lemma init_range x0 s : in_box (c_box c) x0 -> init c obj h g x0 = Some s -> range s.
  Proof.
    unfold init. intros B H. cbn [evaluate] in H.
    destruct (penalize c h g _ x0) as [p|]; [|discriminate]. injection H as <-.
    destruct OK as (_ & _ & S0 & TR & _). split; cbn [x seen sigma rate]; auto.
    - intros y fy [[= <- <-]|[]]. exact B.
    - lra.
  Qed.
End Proofs.
