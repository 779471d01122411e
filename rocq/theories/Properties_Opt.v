(** C01-C09, C81, C82: the ask/tell/run state machine.  Statements only; the proofs are in
    Proofs_Opt.v.  [exec c init ks = Some s] reads: a freshly constructed optimizer with
    configuration c is in state s after the tell calls ks, all of which returned normally;
    [exec_any c init ks] is the state after the calls ks when exceptions are caught. *)
From Coq Require Import List Bool Arith ZArith QArith String FinFun.
From Verif Require Import Model_Opt Spec_Opt Proofs_Opt.
Import ListNotations.
Open Scope nat_scope.

(** Configurations and calls used by the examples below. *)
Definition cfg0 := mkCfg true (Some 10) (Some (FNum (1#2))) EList.
Definition cfgmax := mkCfg false (Some 10) (Some (FNum (5#1))) EList.
Definition cfgdict := mkCfg true (Some 10) None EDict.
Definition fit_ok : bool * option exn := (true, None).
Definition mk (X : list nat) (f : list fval) := mkCall X f None false fit_ok.
Definition hist1 : list (call nat) :=
  [ mkCall [10; 11] [FNum (7#1); FInf true] None true fit_ok;
    mk [1; 2; 3] [FNum (4#1); FNan; FNum (3#1)];
    mk [4; 5] [FNum (9#1); FNum (6#2)];
    mk [6] [FNan] ].

(** C01. *)
Theorem C01_evaluation_accounting :
  forall (xv : Type) (c : cfg) (ks : list (call xv)) (s : st xv),
    exec c init ks = Some s ->
    evals s = points_told ks /\
    map (fun r => (rx r, rf r)) (rows s) = map (fun p => (fst p, FNum (snd p))) (observed ks).
Proof.
  intros xv c ks s H. destruct (accounting_gen _ _ _ _ H) as [A B].
  split; [exact A|]. simpl in B. rewrite <- B, map_map.
  apply map_ext_in. intros r Hr. simpl. f_equal. apply finrow_rq.
  assert (G : Forall finrow (rows s)) by (eapply exec_finite; [exact H|constructor]).
  rewrite Forall_forall in G. apply G, Hr.
Qed.
Print Assumptions C01_evaluation_accounting.

Example C01_nonvacuous : exists s, exec cfg0 init hist1 = Some s /\ evals s = 6 /\
  map (fun r => (rx r, rf r)) (rows s) = [(10, FNum (7#1)); (1, FNum (4#1)); (3, FNum (3#1)); (4, FNum (9#1)); (5, FNum (6#2))].
Proof. eexists; vm_compute; repeat split. Qed.

(** C02: one entry per paid call, each entry the best of everything observed so far, and the
    sequence never gets worse. *)
Theorem C02_history_running_optimum :
  forall (xv : Type) (c : cfg) (ks : list (call xv)) (s : st xv),
    exec c init ks = Some s ->
    List.length (hist s) = List.length (paid_calls ks) /\ iters s = List.length (hist s) /\
    (forall ks1 k ks2, ks = ks1 ++ k :: ks2 -> c_warm k = false ->
       exists q, nth_error (hist s) (List.length (paid_calls ks1)) = Some (FNum q) /\
                 best_of (minimize c) q (map snd (observed (ks1 ++ [k])))) /\
    (forall i j qi qj, i <= j -> nth_error (hist s) i = Some (FNum qi) ->
       nth_error (hist s) j = Some (FNum qj) -> ~ better (minimize c) qi qj).
Proof.
  intros xv c ks s H.
  destruct (exec_hist c ks init s ltac:(constructor) H) as (h&A&B&C). simpl in A, C. subst h.
  repeat split; [exact B|congruence| |].
  - intros ks1 k ks2 -> W. exact (exec_hist_entry _ _ _ _ _ H W).
  - intros i j qi qj. exact (hist_monotone c ks s i j qi qj H).
Qed.
Print Assumptions C02_history_running_optimum.

Example C02_nonvacuous : exists s, exec cfg0 init hist1 = Some s /\
  hist s = [FNum (3#1); FNum (3#1); FNum (3#1)] /\ List.length (paid_calls hist1) = 3.
Proof. eexists; vm_compute; repeat split. Qed.

(** C03: the recommendation is the first best observation. *)
Theorem C03_recommendation_first_best :
  forall (xv : Type) (c : cfg) (ks : list (call xv)) (s : st xv),
    exec c init ks = Some s -> observed ks <> [] ->
    exists l1 x q l2 r, observed ks = l1 ++ (x, q) :: l2 /\
      recommend c s = Ok r /\ rx r = x /\ rf r = FNum q /\
      (forall p, In p (map snd l1) -> better (minimize c) q p) /\
      (forall p, In p (map snd l2) -> ~ better (minimize c) p q).
Proof. exact @recommend_spec. Qed.
Print Assumptions C03_recommendation_first_best.

Example C03_nonvacuous : exists s r, exec cfg0 init hist1 = Some s /\ observed hist1 <> [] /\
  recommend cfg0 s = Ok r /\ rx r = 3.
Proof. eexists; eexists; vm_compute; repeat split. discriminate. Qed.

(** The same for histories with calls that raised: the recommendation is the first best row. *)
Theorem C03_recommendation_any_history :
  forall (xv : Type) (c : cfg) (ks : list (call xv)),
    let s := exec_any c init ks in
    rows s <> [] ->
    exists d1 r d2, rows s = d1 ++ r :: d2 /\ recommend c s = Ok r /\
      (forall r', In r' (rows s) -> exists q q', rf r = FNum q /\ rf r' = FNum q' /\ ~ better (minimize c) q' q) /\
      (forall r', In r' d1 -> exists q q', rf r = FNum q /\ rf r' = FNum q' /\ better (minimize c) q q').
Proof.
  intros xv c ks s H.
  assert (Hf : Forall finrow (rows s)) by (apply exec_any_finite; constructor).
  unfold rows in H, Hf. destruct (data s) as [d|] eqn:Ed; [|congruence].
  destruct (xopt_first_best c s d Ed Hf H) as (d1&r&d2&E&Ex&H1&H2).
  exists d1, r, d2. unfold rows. rewrite Ed.
  assert (F : forall r', In r' d -> rf r' = FNum (rq r')).
  { intros r' Hr'. apply finrow_rq. rewrite Forall_forall in Hf. apply Hf, Hr'. }
  assert (Fr : rf r = FNum (rq r)) by (apply F; rewrite E; apply in_elt).
  split; [exact E|]. split; [unfold recommend; rewrite Ex; reflexivity|]. split.
  - intros r' Hr'. exists (rq r), (rq r'). split; [exact Fr|]. split; [apply F, Hr'|].
    rewrite E in Hr'. apply in_app_or in Hr'. destruct Hr' as [Hr'|[<-|Hr']].
    + specialize (H1 _ Hr'). unfold better in *. destruct (minimize c); intro G;
        apply (Qlt_irrefl (rq r)); eapply Qlt_trans; eassumption.
    + apply not_better_refl.
    + apply H2, Hr'.
  - intros r' Hr'. exists (rq r), (rq r'). split; [exact Fr|]. split; [apply F; rewrite E; apply in_or_app; auto|].
    apply H1, Hr'.
Qed.
Print Assumptions C03_recommendation_any_history.

(** C81: with no observation recommend raises the recommendation-unavailable error, but after
    a first tell without a finite value (which raises) it raises a ValueError instead. *)
Theorem C81_recommend_unavailable_partial :
  forall (xv : Type) (c : cfg) (ks : list (call xv)) (s : st xv),
    exec c init ks = Some s -> observed ks = [] -> recommend c s = Err ERecommend.
Proof.
  intros xv c ks s H Ho. destruct (accounting_gen _ _ _ _ H) as [_ B]. simpl in B. rewrite Ho in B.
  destruct ks as [|k ks]; [injection H as <-; reflexivity|exfalso].
  simpl in H. destruct (tell c init k) as [[e|] s1] eqn:E; [discriminate|].
  destruct (tell_effect _ _ _ _ _ E) as [(X2&A&_&_&_&N&_)|(N&_)]; [|congruence].
  simpl in N. destruct (accounting_gen _ _ _ _ H) as [_ B1]. unfold rows at 2 in B1. rewrite A in B1.
  simpl in B1. rewrite B in B1. destruct X2; [congruence|discriminate].
Qed.
Print Assumptions C81_recommend_unavailable_partial.

Example C81_nonvacuous : exec (xv:=nat) cfg0 init [] = Some init /\ observed (@nil (call nat)) = [].
Proof. split; reflexivity. Qed.

Theorem C81_recommend_unavailable_refuted :
  exists (ks : list (call nat)), observed ks = [] /\
    recommend cfg0 (exec_any cfg0 init ks) = Err EValue.
Proof. exists [mk [1; 2] [FNan; FInf true]]. split; reflexivity. Qed.
Print Assumptions C81_recommend_unavailable_refuted.

(** C04: whatever is proposed, evaluated and fitted, a run with a finite budget of m returns or
    raises within m iterations; [run] with any larger fuel gives the same answer; if it
    returns with the budget used up, the overshoot is less than the last batch. *)
Theorem C04_run_terminates :
  forall (xv : Type) propose evaluate fitk (c : cfg) (m : nat) (s : st xv),
    max_fes c = Some m ->
    run propose evaluate fitk c m 0 s <> OutOfFuel /\
    (forall n, m <= n -> run propose evaluate fitk c n 0 s = run propose evaluate fitk c m 0 s).
Proof.
  intros xv p e f c m s H. assert (G : run p e f c m 0 s <> OutOfFuel) by (eapply run_terminates; [exact H|apply Nat.le_add_l]).
  split; [exact G|]. intros n Hn. apply run_fuel_mono; assumption.
Qed.
Print Assumptions C04_run_terminates.

Theorem C04_run_budget :
  forall (xv : Type) propose evaluate fitk (c : cfg) (m fuel k : nat) (s s' : st xv) r,
    max_fes c = Some m -> evals s < m ->
    run propose evaluate fitk c fuel k s = Returned s' r -> m <= evals s' ->
    exists k1 s1 X, propose k1 s1 = Ok X /\ evals s1 <= m - 1 /\ evals s' = evals s1 + List.length X.
Proof.
  intros xv p e f c m fuel k s s' r Hm Hlt H Hge.
  destruct (run_budget p e f c m Hm _ _ _ _ _ Hlt H Hge) as (k1&s1&X&A&B&C).
  exists k1, s1, X. repeat split; auto. apply Nat.lt_le_pred in B. rewrite Nat.sub_1_r. exact B.
Qed.
Print Assumptions C04_run_budget.

Definition prop3 : nat -> st nat -> res (list nat) := fun k s => Ok [k; k + 1; evals s].
Definition eval3 : nat -> list nat -> res (list fval) :=
  fun k X => Ok (map (fun x => FNum (inject_Z (Z.of_nat (x * x + 1)))) X).
Definition cfgrun := mkCfg true (Some 10) None EList.
Example C04_nonvacuous : exists s r, run prop3 eval3 (fun _ => fit_ok) cfgrun 10 0 init = Returned s r /\
  evals s = 12 /\ rf r = FNum (1#1).
Proof. eexists; eexists; vm_compute; repeat split. Qed.

(** The value run returns is the recommendation of the state it leaves behind. *)
Theorem C04_run_returns_recommendation :
  forall (xv : Type) propose evaluate fitk (c : cfg) (fuel k : nat) (s s' : st xv) r,
    run propose evaluate fitk c fuel k s = Returned s' r ->
    recommend c s' = Ok r /\ (stop_max s' <> None \/ stop_tgt s' <> None).
Proof. exact @run_returns. Qed.
Print Assumptions C04_run_returns_recommendation.

(** C05: for minimisation the target criterion is exact; the stop decision is permanent.
    For maximisation it is not (next theorem), hence [_partial]. *)
Theorem C05_target_stop_partial :
  forall (xv : Type) (c : cfg) (ks : list (call xv)) (s : st xv) (t : Q) b s',
    minimize c = true -> ftarget c = Some (FNum t) ->
    exec c init ks = Some s -> observed ks <> [] ->
    (forall m, max_fes c = Some m -> evals s < m) ->
    check_stop c s = Ok (b, s') ->
    (b = true <-> exists q, best_of true q (map snd (observed ks)) /\ (q < t)%Q).
Proof. exact @target_iff_min. Qed.
Print Assumptions C05_target_stop_partial.

Example C05_nonvacuous : exists s s', exec cfg0 init hist1 = Some s /\ evals s < 10 /\ check_stop cfg0 s = Ok (false, s').
Proof. eexists; eexists; vm_compute; repeat split. repeat constructor. Qed.

(** The budget criterion, in terms of the constructor argument max_FEs: without a target, a run
    that has not stopped yet stops exactly if a non-zero budget was given and is used up. *)
Theorem C05_budget_stop :
  forall (xv : Type) (c : cfg) (s : st xv) (arg : option nat) b s',
    max_fes c = cfg_max_FEs arg -> ftarget c = None -> stop_max s = None -> stop_tgt s = None ->
    check_stop c s = Ok (b, s') ->
    (b = true <-> exists m, arg = Some m /\ m <> 0 /\ m <= evals s).
Proof.
  intros xv c s arg b s' M T S1 S2 H. unfold check_stop in H. rewrite T, M, S1, S2 in H.
  destruct arg as [[|m]|]; cbn [cfg_max_FEs] in H.
  - injection H as <- _. split; [discriminate|]. intros [m [[= <-] [N _]]]. congruence.
  - destruct (Nat.leb_spec (S m) (evals s)) as [G|G]; injection H as <- _.
    + split; auto. intros _. exists (S m). split; [reflexivity|]. split; [discriminate|assumption].
    + split; [discriminate|]. intros [k [[= <-] [_ K]]]. exact (False_ind _ (Nat.lt_irrefl _ (Nat.lt_le_trans _ _ _ G K))).
  - injection H as <- _. split; [discriminate|]. intros [m [[=] _]].
Qed.
Print Assumptions C05_budget_stop.
Example C05_budget_nonvacuous : exists s', check_stop (mkCfg true (cfg_max_FEs (Some 0)) None EList) (@init nat) = Ok (false, s') /\
  exists s s'', exec (mkCfg true (cfg_max_FEs (Some 2)) None EList) (@init nat) hist1 = Some s /\
    check_stop (mkCfg true (cfg_max_FEs (Some 2)) None EList) s = Ok (true, s'').
Proof. eexists. split; [reflexivity|]. do 2 eexists. split; vm_compute; reflexivity. Qed.

Theorem C05_stop_is_permanent :
  forall (xv : Type) (c : cfg) (s s' : st xv) ks b2 s3,
    check_stop c s = Ok (true, s') ->
    check_stop c (exec_any c s' ks) = Ok (b2, s3) -> b2 = true.
Proof. intros xv c s s' ks b2 s3 H H2. exact (stop_sticky c s true s' ks _ b2 s3 H eq_refl eq_refl H2). Qed.
Print Assumptions C05_stop_is_permanent.

(** When maximising with target 5, a best value of 4 stops the run ... *)
Theorem C05_target_stop_max_refuted :
  exists (c : cfg) (ks : list (call nat)) s s' (t : Q),
    minimize c = false /\ ftarget c = Some (FNum t) /\ exec c init ks = Some s /\
    (forall m, max_fes c = Some m -> evals s < m) /\
    best_of false (4#1) (map snd (observed ks)) /\ better false t (4#1) /\
    check_stop c s = Ok (true, s').
Proof.
  exists cfgmax, [mk [1; 2] [FNum (4#1); FNum (3#1)]]. eexists. eexists. exists (5#1).
  split; [reflexivity|]. split; [reflexivity|]. split; [reflexivity|]. split.
  - intros m [= <-]. vm_compute. repeat constructor.
  - split; [|split; [reflexivity|vm_compute; reflexivity]].
    split; [left; reflexivity|]. intros p [<-|[<-|[]]]; intro H; discriminate H.
Qed.
Print Assumptions C05_target_stop_max_refuted.

(** ... and a best value of 6 does not. *)
Theorem C05_target_missed_max_refuted :
  exists (c : cfg) (ks : list (call nat)) s s' (t : Q),
    minimize c = false /\ ftarget c = Some (FNum t) /\ exec c init ks = Some s /\
    best_of false (6#1) (map snd (observed ks)) /\ better false (6#1) t /\
    check_stop c s = Ok (false, s').
Proof.
  exists cfgmax, [mk [1; 2] [FNum (6#1); FNum (3#1)]]. eexists. eexists. exists (5#1).
  split; [reflexivity|]. split; [reflexivity|]. split; [reflexivity|].
  split; [|split; [reflexivity|vm_compute; reflexivity]].
  split; [left; reflexivity|]. intros p [<-|[<-|[]]]; intro H; discriminate H.
Qed.
Print Assumptions C05_target_missed_max_refuted.

(** C06: a tell that raises may have changed data and eval_count: six equal values raise the
    flat-fitness error after the points were stored. *)
Theorem C06_tell_atomic_refuted :
  exists (c : cfg) (k : call nat) e s', tell c init k = (Some e, s') /\ e = EFlat /\
    evals s' <> evals (@init nat) /\ rows s' <> rows (@init nat).
Proof.
  exists cfg0, (mk [1;2;3;4;5;6] (repeat (FNum (1#1)) 6)). eexists. eexists. split; [reflexivity|].
  split; [reflexivity|]. split; vm_compute; discriminate.
Qed.
Print Assumptions C06_tell_atomic_refuted.

(** Also when too few values are told: the budget is charged and the points are lost. *)
Theorem C06_tell_short_values_refuted :
  exists (c : cfg) (k : call nat) s', tell c init k = (Some EIndex, s') /\
    evals s' = 1 /\ rows s' = [].
Proof. exists cfg0, (mk [1;2] [FNum (1#1)]). eexists. split; [reflexivity|]. split; reflexivity. Qed.
Print Assumptions C06_tell_short_values_refuted.

(** What does hold: history, iteration counter and stop flags are untouched and no observation is lost or changed. *)
Theorem C06_tell_atomic_partial :
  forall (xv : Type) (c : cfg) (s : st xv) k e s',
    tell c s k = (Some e, s') ->
    iters s' = iters s /\ hist s' = hist s /\ stop_max s' = stop_max s /\ stop_tgt s' = stop_tgt s /\
    exists new, rows s' = rows s ++ new.
Proof. exact @tell_raise_effect. Qed.
Print Assumptions C06_tell_atomic_partial.

(** C07: warm data costs nothing and its finite points stay the first rows of data. *)
Theorem C07_warm_data_free_and_first :
  forall (xv : Type) (c : cfg) X y types_ok fit (s : st xv),
    set_warm c init (Some (X, y)) types_ok fit = (None, s) ->
    evals s = 0 /\ iters s = 0 /\ hist s = [] /\
    map (fun r => (rx r, rf r)) (rows s) = map (fun p => (fst p, FNum (snd p))) (finite_obs (combine X y)) /\
    (forall ks, exists later, rows (exec_any c s ks) = rows s ++ later).
Proof.
  intros xv c X y t fit s H. destruct (warm_ok _ _ _ _ _ _ _ eq_refl H) as (A&B&C&D&_).
  repeat split; auto.
  - rewrite <- D, map_map. apply map_ext_in. intros r Hr. simpl. f_equal. apply finrow_rq.
    revert r Hr. apply Forall_forall.
    revert H. unfold set_warm. simpl. destruct (_ =? _); simpl; [|discriminate].
    destruct (to_geno _ _ _); [|discriminate]. destruct t; simpl; [|discriminate].
    destruct (emode c); [|discriminate]. intro H.
    pose proof (tell_any_finite c init (mkCall X y None true fit) ltac:(constructor)) as G.
    rewrite H in G. exact G.
  - intro ks. apply exec_any_prefix.
Qed.
Print Assumptions C07_warm_data_free_and_first.

Example C07_nonvacuous : exists s, set_warm cfg0 init (Some ([1;2;3], [FNum (3#1); FNan; FNum (2#1)])) true fit_ok = (None, s)
  /\ map (fun r => (rx r, rf r)) (rows s) = [(1, FNum (3#1)); (3, FNum (2#1))].
Proof. eexists; vm_compute; repeat split. Qed.

(** C82: in dict mode every non-empty warm data set makes the constructor raise. *)
Theorem C82_warm_data_dict_mode_refuted :
  forall (xv : Type) (c : cfg) (X : list xv) y fit,
    emode c = EDict -> X <> [] -> List.length X = List.length y ->
    fst (set_warm c init (Some (X, y)) true fit) = Some EUnbound.
Proof.
  intros xv c X y fit Hm Hne HL. unfold set_warm. rewrite Hm, HL, Nat.eqb_refl. simpl.
  destruct X as [|x X]; [congruence|]. unfold to_geno.
  rewrite map_length, seq_length, !Nat.eqb_refl. reflexivity.
Qed.
Print Assumptions C82_warm_data_dict_mode_refuted.

Theorem C82_warm_data_accepted_partial :
  forall (xv : Type) (c : cfg) (X : list xv) y,
    emode c = EList -> X <> [] -> List.length X = List.length y ->
    finite_obs (combine X y) <> [] -> List.length X <= 5 ->
    fst (set_warm c init (Some (X, y)) true (true, None)) = None.
Proof.
  intros xv c X y Hm Hne HL Hfin H5. unfold set_warm. rewrite Hm, HL, Nat.eqb_refl. simpl.
  assert (HG : exists R, to_geno EList X None = Ok R).
  { unfold to_geno. destruct X as [|x X]; [congruence|].
    rewrite map_length, seq_length, !Nat.eqb_refl. eauto. }
  destruct HG as [R HG]. rewrite HG. unfold tell. simpl. rewrite Hm, HG.
  destruct (to_geno_spec _ _ _ _ HG) as (_&HR&_).
  assert (HA : exists X1, assign R y = Some X1).
  { assert (G : List.length R = List.length y) by (rewrite HR; exact HL). clear -G. revert y G.
    induction R as [|r R IH]; intros [|v y] G; simpl in *; try discriminate; eauto.
    destruct (IH y) as [t ->]; [congruence|eauto]. }
  destruct HA as [X1 HA]. rewrite HA.
  assert (HP : map qpair (post_eval_check X1) = finite_obs (combine X y)).
  { rewrite <- finite_obs_post. f_equal.
    rewrite pairs_of_split. destruct (assign_spec _ _ _ HA) as (_&_&E1&_&_&E2).
    destruct (to_geno_spec _ _ _ _ HG) as (_&_&E3&_). rewrite E1, E2, E3, HR, combine_firstn. reflexivity. }
  assert (Hpl : List.length (post_eval_check X1) <= 5).
  { destruct (assign_spec _ _ _ HA) as (E1&_). eapply Nat.le_trans; [|exact H5].
    rewrite <- HR, <- E1. unfold post_eval_check. clear. induction X1 as [|r X1 IH]; simpl; [apply Nat.le_refl|].
    destruct (is_finite (rf r)); simpl; [apply le_n_S; exact IH|apply le_S; exact IH]. }
  pose proof (post_finrow X1) as HF.
  destruct (post_eval_check X1) as [|r0 X2] eqn:EP; [simpl in HP; congruence|].
  unfold update_model, flat.
  assert (EL : (5 <? List.length (r0 :: X2)) = false) by (apply Nat.ltb_ge; exact Hpl).
  rewrite EL. cbn [andb].
  destruct (xopt_first_best c (set_fitted (set_data init (r0 :: X2)) true) (r0 :: X2) eq_refl HF ltac:(discriminate))
    as (d1&r&d2&_&Ex&_). rewrite Ex, Nat.eqb_refl. reflexivity.
Qed.
Print Assumptions C82_warm_data_accepted_partial.

(** C08: in list mode (the default) a point told once is recorded with n_eval 2. *)
Theorem C08_n_eval_list_refuted :
  exists (ks : list (call nat)) s r, emode cfg0 = EList /\ exec cfg0 init ks = Some s /\
    ks = [mk [1] [FNum (3#1)]] /\ In r (rows s) /\ rn r = 2.
Proof. eexists. eexists. eexists. split; [reflexivity|]. split; [|split; [reflexivity|]]; [reflexivity|]. split; [left; reflexivity|reflexivity]. Qed.
Print Assumptions C08_n_eval_list_refuted.

Theorem C08_n_eval_exact_partial :
  forall (xv : Type) (c : cfg) (ks : list (call xv)),
    emode c = EDict -> forall r, In r (rows (exec_any c init ks)) -> rn r = 1.
Proof.
  intros xv c ks Hm r Hr. rewrite (n_eval_const c ks init ltac:(intros ? []) r Hr), Hm. reflexivity.
Qed.
Print Assumptions C08_n_eval_exact_partial.

Example C08_nonvacuous : exists r, In r (rows (exec_any cfgdict init hist1)) /\ rx r = 3 /\ rn r = 1.
Proof. eexists. vm_compute. split; [right; right; left; reflexivity|split; reflexivity]. Qed.

(** In list mode every row, however often the history tells it, is off by one. *)
Theorem C08_n_eval_list_off_by_one :
  forall (xv : Type) (c : cfg) (ks : list (call xv)),
    emode c = EList -> forall r, In r (rows (exec_any c init ks)) -> rn r = 2.
Proof.
  intros xv c ks Hm r Hr. rewrite (n_eval_const c ks init ltac:(intros ? []) r Hr), Hm. reflexivity.
Qed.
Print Assumptions C08_n_eval_list_off_by_one.

(** C09: run passes no labels, so the labels of different iterations collide. *)
Theorem C09_labels_unique_refuted :
  exists propose evaluate (s : st nat) r,
    run propose evaluate (fun _ => fit_ok) cfgrun 10 0 init = Returned s r /\ ~ NoDup (map rl (rows s)).
Proof.
  destruct (run prop3 eval3 (fun _ => fit_ok) cfgrun 10 0 init) as [s r| |] eqn:E; vm_compute in E; try discriminate E.
  exists prop3, eval3, s, r. split; [rewrite <- E; vm_compute; reflexivity|].
  injection E as <- <-. vm_compute.
  intro H. inversion H as [|? ? N _]; subst. apply N. right; right; left; reflexivity.
Qed.
Print Assumptions C09_labels_unique_refuted.

(** If the caller labels all told points differently, the rows of data are labelled differently. *)
Theorem C09_labels_unique_partial :
  forall (xv : Type) (c : cfg) (ks : list (call xv)) (labels : list string),
    (forall k, In k ks -> c_idx k <> None) ->
    labels = flat_map (fun k => match c_idx k with Some l => l | None => [] end) ks ->
    NoDup labels -> NoDup (map rl (rows (exec_any c init ks))).
Proof.
  intros xv c ks L H -> HN. apply labels_nodup. simpl.
  assert (E : labels_given ks = flat_map (fun k => match c_idx k with Some l => l | None => [] end) ks).
  { clear HN. induction ks as [|k ks IH]; simpl; [reflexivity|]. rewrite IH by (intros; apply H; right; assumption).
    specialize (H k (or_introl eq_refl)). destruct (c_idx k); [reflexivity|congruence]. }
  rewrite E. exact HN.
Qed.
Print Assumptions C09_labels_unique_partial.

Example C09_nonvacuous : exists s, exec cfgrun init
  [mkCall [1;2] [FNum (1#1); FNum (2#1)] (Some ["a";"b"]%string) false fit_ok;
   mkCall [3] [FNum (3#1)] (Some ["c"]%string) false fit_ok] = Some s /\ map rl (rows s) = ["a";"b";"c"]%string.
Proof. eexists; vm_compute; repeat split. Qed.

(** Labels given by default within one call are distinct (so a single batch is labelled uniquely). *)
Theorem C09_default_labels_distinct : forall n, NoDup (map str_nat (seq 0 n)).
Proof.
  intro n. apply FinFun.Injective_map_NoDup; [|apply seq_NoDup]. intros a b. apply str_nat_inj.
Qed.
Print Assumptions C09_default_labels_distinct.
