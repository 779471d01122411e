(** Proofs about Model_Run, part 2: the loop. *)
From Coq Require Import List Bool Arith ZArith QArith Qabs String Lia.
From Verif Require Import Model_Opt Spec_Opt Proofs_Opt Model_Var Model_Ask Spec_Ask Proofs_Ask Spec_Pareto Spec_MIES Model_MiesPar Spec_MiesPar.
From Verif Require Import Properties_Box Model_Propose Spec_Propose Proofs_Propose Properties_Propose Model_Run Spec_Run Proofs_Run.
Import ListNotations.
Open Scope nat_scope.

Lemma finite_values_app a b : finite_values (a ++ b) = finite_values a ++ finite_values b.
Proof. induction a as [|[x [[q| |[]]|e]] a IH]; cbn; auto. now rewrite IH. Qed.
Lemma given_obs l : given_values l = finite_obs l.
Proof. induction l as [|[x [q| |p]] l IH]; cbn; congruence. Qed.

Section L.
  Variable P : problem.
  Variable W : world.
  Variable func : nat -> nat -> point -> res fval.
  Notation c := (run_cfg P).
  Notation propose := (run_propose P W).
  Notation evaluate := (run_evaluate func).
  Notation evals_of := (evaluations func).
  Notation log := (run_log P W func).
  Notation run := (run propose evaluate (w_model W) c).
  Notation step := (step propose evaluate (w_model W) c).

  Lemma values_ok : forall X k i fv, values (evals_of k i X) = Ok fv ->
    List.length fv = List.length X /\ List.length (evals_of k i X) = List.length X /\ finite_values (evals_of k i X) = finite_obs (combine X fv) /\
    map fst (evals_of k i X) = X.
  Proof.
    induction X as [|x X IH]; intros k i fv H; cbn [evaluations values] in *; [injection H as <-; auto|].
    destruct (func k i x) as [v|e]; [|discriminate]. destruct (values (evals_of k (S i) X)) as [vs|] eqn:E; [|discriminate]. injection H as <-.
    destruct (IH k (S i) vs E) as (A & B & C & D). cbn. rewrite A, B, D. repeat split; auto. destruct v as [q| |[]]; cbn; now rewrite C.
  Qed.
  Lemma evaluations_in : forall X k i x r, In (x, r) (evals_of k i X) -> In x X.
  Proof.
    induction X as [|y X IH]; intros k i x r H; cbn in H; [contradiction|]. destruct H as [H|H]; [left; congruence|]. right. destruct (func k i y); [eauto|contradiction].
  Qed.
  Lemma evaluations_length : forall X k i, List.length (evals_of k i X) <= List.length X.
  Proof. induction X as [|y X IH]; intros k i; cbn; auto. destruct (func k i y); [specialize (IH k (S i)); lia|cbn; lia]. Qed.

  (** A step that does not raise. *)
  Lemma step_ok k s s2 X : propose k s = Ok X -> step k s = (None, s2) ->
    exists fv, values (evals_of k 0 X) = Ok fv /\ tell c s (mkCall X fv None false (w_model W k)) = (None, s2) /\
      evals s2 = evals s + List.length (evals_of k 0 X) /\ map qpair (rows s2) = map qpair (rows s) ++ finite_values (evals_of k 0 X) /\
      stop_max s2 = stop_max s /\ stop_tgt s2 = stop_tgt s.
  Proof.
    intros EP ES. unfold Model_Opt.step in ES. rewrite EP in ES. unfold run_evaluate in ES. destruct (values (evals_of k 0 X)) as [fv|] eqn:E; [|discriminate].
    exists fv. split; [reflexivity|]. split; [exact ES|]. destruct (values_ok _ _ _ _ E) as (A & B & C & _).
    assert (EX : exec c s [mkCall X fv None false (w_model W k)] = Some s2) by (cbn; now rewrite ES).
    destruct (accounting_gen _ _ _ _ EX) as (U & V). cbn in U. unfold observed in V. cbn [flat_map told1 c_X c_f] in V. rewrite app_nil_r in V.
    destruct (tell_stop c s (mkCall X fv None false (w_model W k))) as (T1 & T2). rewrite ES in T1, T2. cbn [snd] in T1, T2.
    rewrite B, C. repeat split; auto. lia.
  Qed.

  (** What is known when the i-th batch is proposed. *)
  Lemma log_nth : forall fuel k s i B, nth_error (log fuel k s) i = Some B ->
    exists si X, propose (k + i) si = Ok X /\ B = evals_of (k + i) 0 X /\
      map qpair (rows si) = map qpair (rows s) ++ finite_values (List.concat (firstn i (log fuel k s))) /\
      evals si = evals s + List.length (List.concat (firstn i (log fuel k s))) /\
      (forall m, p_max_FEs P = Some m -> evals si < m).
  Proof.
    induction fuel as [|fuel IH]; intros k s i B H; cbn [run_log] in H |- *.
    { destruct (check_stop c s) as [[[|] s1]|]; destruct i; discriminate. }
    destruct (check_stop c s) as [[[|] s1]|] eqn:EC; try (destruct i; discriminate).
    destruct (propose k s1) as [X|] eqn:EP; [|destruct i; discriminate].
    destruct (check_stop_evals _ _ _ _ EC) as (E1 & E2 & _ & _ & _).
    assert (LT : forall m, p_max_FEs P = Some m -> evals s < m).
    { intros m Hm. assert (Hc : max_fes c = Some m) by exact Hm. destruct (Nat.lt_ge_cases (evals s) m) as [|G]; auto. pose proof (check_stop_max c s m _ _ Hc EC G). discriminate. }
    destruct i as [|i].
    - cbn in H. injection H as <-. exists s1, X. rewrite Nat.add_0_r. split; [exact EP|]. split; [reflexivity|]. cbn [firstn List.concat finite_values].
      rewrite app_nil_r. unfold rows. rewrite E2. split; [reflexivity|]. split; [cbn; lia|]. intros m Hm. specialize (LT m Hm). lia.
    - cbn [nth_error firstn] in H |- *. destruct (step k s1) as [[e|] s2] eqn:ES; [destruct i; discriminate|].
      destruct (step_ok _ _ _ _ EP ES) as (fv & EV & ET & EE & ER & _).
      destruct (IH (S k) s2 i B H) as (si & X' & A1 & A2 & A3 & A4 & A5). exists si, X'. replace (k + S i) with (S k + i) by lia.
      split; [exact A1|]. split; [exact A2|]. cbn [List.concat]. rewrite finite_values_app, app_length. split; [|split; [lia|exact A5]].
      rewrite A3, ER. unfold rows. rewrite E2. now rewrite app_assoc.
  Qed.

  (** The iteration goes on only if the target is not reached. *)
  Lemma check_stop_target (s s' : st point) t : p_minimize P = true -> p_ftarget P = Some (FNum t) -> Forall (@finrow point) (rows s) ->
    check_stop c s = Ok (false, s') -> forall r, In r (rows s) -> (t <= rq r)%Q.
  Proof.
    intros MN FT FR H r I. unfold rows in *. destruct (data s) as [d|] eqn:ED; [|destruct I].
    assert (ND : d <> []) by (intros ->; destruct I). destruct (xopt_first_best c s d ED FR ND) as (d1 & b & d2 & -> & XO & B1 & B2).
    assert (FB : rf b = FNum (rq b)) by (apply finrow_rq; rewrite Forall_forall in FR; apply FR, in_elt).
    assert (LB : (t <= rq b)%Q).
    { unfold check_stop in H. rewrite XO, FB in H. cbn [ftarget run_cfg minimize] in H. rewrite FT, MN in H. unfold compare_ in H. cbn [fltb] in H.
      destruct (Qle_bool t (rq b)) eqn:E; [now apply Qle_bool_iff|]. exfalso. cbn [negb] in H. revert H.
      repeat match goal with |- context [match ?x with _ => _ end] => destruct x end; discriminate. }
    apply in_app_or in I. destruct I as [I|[->|I]].
    - specialize (B1 _ I). cbn [minimize run_cfg] in B1. rewrite MN in B1. unfold better in B1. cbn in B1. Lqa.lra.
    - exact LB.
    - specialize (B2 _ I). cbn [minimize run_cfg] in B2. rewrite MN in B2. unfold better in B2. cbn in B2. Lqa.lra.
  Qed.
  Lemma log_target t : p_minimize P = true -> p_ftarget P = Some (FNum t) -> forall fuel k (s : st point) i B, Forall (@finrow point) (rows s) -> nth_error (log fuel k s) i = Some B ->
    forall x q, In (x, q) (map qpair (rows s) ++ finite_values (List.concat (firstn i (log fuel k s)))) -> (t <= q)%Q.
  Proof.
    intros MN FT. induction fuel as [|fuel IH]; intros k s i B FR H x q I; cbn [run_log] in H, I.
    { destruct (check_stop c s) as [[[|] s1]|]; destruct i; discriminate. }
    destruct (check_stop c s) as [[[|] s1]|] eqn:EC; try (destruct i; discriminate).
    destruct (propose k s1) as [X|] eqn:EP; [|destruct i; discriminate].
    destruct (check_stop_evals _ _ _ _ EC) as (E1 & E2 & _ & _ & _). assert (R1 : rows s1 = rows s) by (unfold rows; now rewrite E2).
    destruct i as [|i].
    - cbn [firstn List.concat finite_values] in I. rewrite app_nil_r in I. apply in_map_iff in I. destruct I as (r & [= <- <-] & I).
      exact (check_stop_target _ _ _ MN FT FR EC r I).
    - cbn [nth_error firstn] in H, I. destruct (step k s1) as [[e|] s2] eqn:ES; [destruct i; discriminate|].
      destruct (step_ok _ _ _ _ EP ES) as (fv & EV & ET & EE & ER & _).
      refine (IH (S k) s2 i B _ H x q _).
      + unfold Model_Opt.step in ES. rewrite EP in ES. unfold Model_Run.run_evaluate in ES. rewrite EV in ES. replace s2 with (snd (Model_Opt.tell c s1 (mkCall X fv None false (w_model W k)))) by (now rewrite ES).
        apply tell_any_finite. now rewrite R1.
      + cbn [List.concat] in I. rewrite finite_values_app in I. rewrite ER, R1, <- app_assoc. exact I.
  Qed.

  Lemma check_stop_keep (s s' : st point) : stop_max s = None -> stop_tgt s = None -> check_stop c s = Ok (false, s') -> stop_max s' = None /\ stop_tgt s' = None.
  Proof.
    intros A B H. unfold check_stop in H. rewrite A, B in H.
    repeat match type of H with context [match ?x with _ => _ end] => destruct x; try discriminate end; injection H as <-; auto.
  Qed.
  Lemma check_stop_why (s s' : st point) r : stop_max s = None -> stop_tgt s = None -> check_stop c s = Ok (true, s') -> xopt c s' = Ok (Some r) ->
    (exists m, p_max_FEs P = Some m /\ m <= evals s) \/ (exists t, p_ftarget P = Some t /\ compare_ (p_minimize P) (rf r) t = true).
  Proof.
    intros A B H X. assert (X0 : xopt c s = Ok (Some r)) by (destruct (check_stop_evals _ _ _ _ H) as (_ & E & _); unfold xopt in *; now rewrite <- E).
    unfold check_stop in H. rewrite A, B, X0 in H. cbn [ftarget run_cfg max_fes minimize] in H.
    destruct (p_max_FEs P) as [m|]; [destruct (Nat.leb_spec m (evals s)); [left; eauto|]|].
    - destruct (p_ftarget P) as [t|]; [|discriminate]. destruct (compare_ (p_minimize P) (rf r) t) eqn:E; [right; eauto|discriminate].
    - destruct (p_ftarget P) as [t|]; [|discriminate]. destruct (compare_ (p_minimize P) (rf r) t) eqn:E; [right; eauto|discriminate].
  Qed.
  Lemma values_all : forall X k i fv, values (evals_of k i X) = Ok fv -> forall x v, In (x, v) (evals_of k i X) -> exists y, v = Ok y.
  Proof.
    induction X as [|x X IH]; intros k i fv H z v I; cbn [evaluations values] in *; [destruct I|].
    destruct (func k i x) as [y|e]; [|discriminate]. destruct (values (evals_of k (S i) X)) as [vs|] eqn:E; [|discriminate].
    destruct I as [I|I]; [|eapply IH; eauto]. exists y. congruence.
  Qed.

  Lemma run_end : forall fuel k (s : st point), stop_max s = None -> stop_tgt s = None -> match run fuel k s with
    | Returned s' r => xopt c s' = Ok (Some r) /\ map qpair (rows s') = map qpair (rows s) ++ finite_values (List.concat (log fuel k s)) /\
        evals s' = evals s + List.length (List.concat (log fuel k s)) /\ (forall x v, In (x, v) (List.concat (log fuel k s)) -> exists y, v = Ok y) /\
        ((exists m, p_max_FEs P = Some m /\ m <= evals s') \/ (exists t, p_ftarget P = Some t /\ compare_ (p_minimize P) (rf r) t = true))
    | Raised e s' => exists done last, log fuel k s = done ++ last /\ List.length last <= 1 /\
        exists new, map qpair (rows s') = map qpair (rows s) ++ finite_values (List.concat done) ++ new /\ incl new (finite_values (List.concat last))
    | OutOfFuel => True
    end.
  Proof.
    assert (R0 : forall (s s1 : st point) b, check_stop c s = Ok (b, s1) -> rows s1 = rows s) by (intros s s1 b E; destruct (check_stop_evals _ _ _ _ E) as (_ & E2 & _); unfold rows; now rewrite E2).
    assert (T : forall (s s1 : st point), stop_max s = None -> stop_tgt s = None -> check_stop c s = Ok (true, s1) -> match xopt c s1 with
      | Ok (Some r) => xopt c s1 = Ok (Some r) /\ map qpair (rows s1) = map qpair (rows s) ++ [] /\ evals s1 = evals s + 0 /\ (forall x v, In (x, v) (@nil (point * res fval)) -> exists y, v = Ok y) /\
          ((exists m, p_max_FEs P = Some m /\ m <= evals s1) \/ (exists t, p_ftarget P = Some t /\ compare_ (p_minimize P) (rf r) t = true))
      | _ => True end).
    { intros s s1 A B E. destruct (xopt c s1) as [[r|]|] eqn:X; auto. split; [reflexivity|]. rewrite (R0 _ _ _ E), app_nil_r, Nat.add_0_r.
      destruct (check_stop_evals _ _ _ _ E) as (E1 & _). rewrite E1. split; [reflexivity|]. split; [reflexivity|]. split; [intros x v []|]. eapply check_stop_why; eauto. }
    assert (Z : forall (s s1 : st point), rows s1 = rows s -> exists done last : list (list (point * res fval)), @nil (list (point * res fval)) = done ++ last /\ List.length last <= 1 /\
       exists new, map qpair (rows s1) = map qpair (rows s) ++ finite_values (List.concat done) ++ new /\ incl new (finite_values (List.concat last))).
    { intros s s1 E. exists [], []. split; [reflexivity|]. split; [cbn; lia|]. exists []. cbn. rewrite app_nil_r, E. split; [reflexivity|apply incl_refl]. }
    induction fuel as [|fuel IH]; intros k s A B; cbn [Model_Opt.run run_log].
    - destruct (check_stop c s) as [[[|] s1]|] eqn:E; [|exact I|].
      + specialize (T s s1 A B E). destruct (xopt c s1) as [[r|]|] eqn:XO; [rewrite XO; exact T|apply Z, (R0 _ _ _ E)|apply Z, (R0 _ _ _ E)].
      + apply Z; reflexivity.
    - destruct (check_stop c s) as [[[|] s1]|] eqn:E.
      + specialize (T s s1 A B E). destruct (xopt c s1) as [[r|]|] eqn:XO; [rewrite XO; exact T|apply Z, (R0 _ _ _ E)|apply Z, (R0 _ _ _ E)].
      + destruct (check_stop_keep _ _ A B E) as (A1 & B1). destruct (check_stop_evals _ _ _ _ E) as (EV1 & _).
        destruct (propose k s1) as [X|e] eqn:EP.
        2:{ unfold Model_Opt.step. rewrite EP. apply Z, (R0 _ _ _ E). }
        destruct (step k s1) as [[e|] s2] eqn:ES.
        * exists [], [evals_of k 0 X]. split; [reflexivity|]. split; [cbn; lia|]. rewrite <- (R0 _ _ _ E). cbn [List.concat finite_values]. rewrite app_nil_r. cbn [app].
          unfold Model_Opt.step in ES. rewrite EP in ES. unfold run_evaluate in ES. destruct (values (evals_of k 0 X)) as [fv|] eqn:EV.
          2:{ injection ES as _ <-. exists []. rewrite app_nil_r. split; [reflexivity|]. intros ? []. }
          destruct (values_ok _ _ _ _ EV) as (_ & _ & C & _).
          destruct (tell_effect _ _ _ _ _ ES) as [(X2 & D & _ & (R & X1 & C1 & C2 & C3) & _)|(_ & D & _)].
          -- exists (map qpair X2). unfold rows at 1. rewrite D, map_app. split; [reflexivity|]. subst X2. rewrite <- finite_obs_post, (told1_rows _ _ _ _ C1 C2). cbn. unfold told1. cbn. rewrite C. apply incl_refl.
          -- exists []. unfold rows at 1. rewrite D, app_nil_r. split; [reflexivity|]. intros ? [].
        * destruct (step_ok _ _ _ _ EP ES) as (fv & EV & ET & EE & ER & K1 & K2). specialize (IH (S k) s2 ltac:(congruence) ltac:(congruence)).
          rewrite (R0 _ _ _ E) in ER. destruct (run fuel (S k) s2) as [s' r|e s'|]; [| |exact I].
          -- destruct IH as (H1 & H2 & H3 & H4 & H5). cbn [List.concat]. rewrite finite_values_app, app_length. split; [exact H1|]. split; [rewrite H2, ER; now rewrite app_assoc|]. split; [lia|]. split; [|exact H5].
             intros x v I. apply in_app_or in I. destruct I as [I|I]; [eapply values_all; eauto|eauto].
          -- destruct IH as (dn & last & H1 & H2 & new & H3 & H4). exists (evals_of k 0 X :: dn), last. rewrite H1. split; [reflexivity|]. split; [exact H2|]. exists new. cbn [List.concat]. rewrite finite_values_app.
             split; [rewrite H3, ER; now rewrite <- !app_assoc|exact H4].
      + apply Z; reflexivity.
  Qed.

  Lemma run_finite : forall fuel k (s : st point), Forall finrow (rows s) -> match run fuel k s with Returned s' _ | Raised _ s' => Forall finrow (rows s') | OutOfFuel => True end.
  Proof.
    assert (R0 : forall (s s1 : st point) b, check_stop c s = Ok (b, s1) -> rows s1 = rows s) by (intros s s1 b E; destruct (check_stop_evals _ _ _ _ E) as (_ & E2 & _); unfold rows; now rewrite E2).
    induction fuel as [|fuel IH]; intros k s F; cbn [Model_Opt.run].
    - destruct (check_stop c s) as [[[|] s1]|] eqn:E; auto. rewrite <- (R0 _ _ _ E) in F. destruct (xopt c s1) as [[r|]|]; auto.
    - destruct (check_stop c s) as [[[|] s1]|] eqn:E; auto; rewrite <- (R0 _ _ _ E) in F; [destruct (xopt c s1) as [[r|]|]; auto|].
      assert (G : Forall finrow (rows (snd (step k s1)))).
      { unfold Model_Opt.step. destruct (propose k s1) as [X|]; [|exact F]. destruct (evaluate k X) as [fv|]; [|exact F]. apply tell_any_finite, F. }
      destruct (step k s1) as [[e|] s2]; cbn in G; [exact G|]. apply IH, G.
  Qed.

  (** The state with which run starts. *)
  Lemma start_spec warm s : set_warm c init warm true (w_warm_model W) = (None, s) ->
    map qpair (rows s) = warm_values warm /\ evals s = 0 /\ stop_max s = None /\ stop_tgt s = None /\ Forall finrow (rows s).
  Proof.
    intro E. destruct warm as [[X Y]|].
    - destruct (warm_ok _ _ _ _ _ _ _ eq_refl E) as (A & _ & _ & B & _). cbn. rewrite given_obs. split; [exact B|]. split; [exact A|].
      unfold set_warm in E. cbn in E. destruct (List.length X =? List.length Y); cbn in E; [|discriminate]. destruct (to_geno EList X None); [|discriminate].
      cbn [negb] in E. destruct (tell_stop c init (mkCall X Y None true (w_warm_model W))) as (T1 & T2). rewrite E in T1, T2. cbn in T1, T2. split; [exact T1|]. split; [exact T2|].
      pose proof (tell_any_finite c init (mkCall X Y None true (w_warm_model W)) ltac:(constructor)) as F. rewrite E in F. exact F.
    - cbn in E. injection E as <-. cbn. repeat split; constructor.
  Qed.
  Lemma known_rows (s : st point) : known s = map fst (map qpair (rows s)).
  Proof. unfold known, rows. destruct (data s); [|reflexivity]. rewrite map_map. reflexivity. Qed.

  Lemma propose_length k s X : good_space P -> good_world P W -> 1 <= p_n_point P -> 1 <= p_DoE_size P -> propose k s = Ok X -> List.length X <= Nat.max (p_n_point P) (p_DoE_size P).
  Proof.
    intros GS GW N D H. unfold run_propose, ask_mies in H.
    assert (Q : 1 <= List.length X <= (if fitted s then p_n_point P else p_DoE_size P)).
    { eapply ask_count with (np := None); [|destruct (fitted s); auto|exact H].
      intros count n. apply (run_samp_spec P W GS GW k count n). }
    destruct (fitted s); lia.
  Qed.
End L.
