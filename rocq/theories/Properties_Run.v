(** C207-C212: whole runs of the optimizer on mixed spaces with constraints. *)
From Coq Require Import List Bool Arith ZArith QArith Qabs String Lia Lqa.
From Verif Require Import Model_Opt Spec_Opt Proofs_Opt Model_Var Model_Ask Spec_Ask Proofs_Ask Model_Pareto Spec_Pareto Proofs_Pareto Spec_MIES Model_MiesPar Spec_MiesPar Properties_MiesPar.
From Verif Require Import Properties_Box Model_Propose Spec_Propose Proofs_Propose Properties_Propose Model_Sampler Model_Run Spec_Run Proofs_Run Proofs_RunLoop.
Import ListNotations.
Open Scope nat_scope.

Lemma rev_case {A} (l : list A) : l = [] \/ exists l' a, l = l' ++ [a].
Proof. destruct l using rev_ind; eauto. Qed.

(** ** C207 *)
(** Every point on which the objective function is called is in the space, however the run ends. *)
Theorem C207_in_space :
  forall P W func fuel warm, good_space P -> good_world P W ->
    forall x r, In (x, r) (all_calls (snd (bo_run P W func fuel warm))) -> in_space (p_space P) x.
Proof.
  intros P W func fuel warm GS GW x r I. unfold bo_run in I. destruct (set_warm _ _ _ _ _) as [[e|] s] eqn:ES; [destruct I|]. cbn [snd] in I.
  apply in_concat in I. destruct I as (B & IB & Ix). apply In_nth_error in IB. destruct IB as (i & Ei). destruct (log_nth _ _ _ _ _ _ _ _ Ei) as (si & X & EP & -> & _).
  apply evaluations_in in Ix. destruct GS as (NE & PS & OT). destruct GW as (SO & GW').
  refine (proj1 (C201_ask _ _ _ _ _ _ _ _ _ _ _ _ _ _ _ _ _ X SO PS _ _ EP x Ix)).
  - intros j i0. apply (proj2 (proj2 (proj2 GW'))).
  - intros count n z Iz. apply (run_samp_spec P W (conj NE (conj PS OT)) (conj SO GW') (0 + i) count n), Iz.
Qed.
Print Assumptions C207_in_space.
(** Sampling under the constraints does not raise, returns at most as many points as it is asked for, and they are in the space and
    satisfy the constraints. *)
Theorem C207_samples :
  forall P W k pass n, good_space P -> good_world P W ->
    exists X, run_sample P W k pass n = Some X /\ List.length X <= n /\ forall x, In x X -> in_space (p_space P) x /\ satisfies (p_h P) (p_g P) x.
Proof.
  intros P W k pass n GS GW. destruct (run_sample_spec P W GS GW k pass n) as (X & E & L & S). exists X. split; [exact E|]. split; [exact L|].
  intros x I. destruct (S x I) as ((A & _) & B). auto.
Qed.
Print Assumptions C207_samples.

(** ** C208 *)
(** What holds: a point with a finite value, and one of the given data, is not evaluated again, nor is a point that is close to it. *)
Theorem C208_new_partial :
  forall P W func fuel warm i j A B x q y r,
    let log := snd (bo_run P W func fuel warm) in
    nth_error log i = Some A -> nth_error log j = Some B -> In (y, r) B ->
    (i < j /\ In (x, Ok (FNum q)) A) \/ In (x, q) (warm_values warm) ->
    ~ near_duplicate (p_space P) x y.
Proof.
  intros P W func fuel warm i j A B x q y r. cbn zeta. intros HA HB Iy HX ND. unfold bo_run in *. destruct (set_warm _ _ _ _ _) as [[e|] s] eqn:ES; [destruct i; discriminate|].
  cbn [snd] in *. destruct (log_nth _ _ _ _ _ _ _ _ HB) as (sj & X & EP & -> & RO & _). apply evaluations_in in Iy.
  destruct (start_spec _ _ _ _ ES) as (R0 & _). unfold run_propose, ask_mies in EP.
  assert (IX : In x (known sj)).
  { rewrite known_rows, RO, R0. apply in_map_iff. exists (x, q). split; [reflexivity|]. apply in_or_app. destruct HX as [(Lij & Ix)|Iw]; [right|left; exact Iw].
    assert (IA : In A (firstn j (run_log P W func fuel 0 s))).
    { rewrite <- (firstn_skipn j (run_log P W func fuel 0 s)) in HA. rewrite nth_error_app1 in HA; [eapply nth_error_In; eauto|]. rewrite firstn_length.
      assert (j < List.length (run_log P W func fuel 0 s)) by (apply nth_error_Some; congruence). lia. }
    assert (IC : In (x, Ok (FNum q)) (List.concat (firstn j (run_log P W func fuel 0 s)))) by (apply in_concat; eauto).
    revert IC. generalize (List.concat (firstn j (run_log P W func fuel 0 s))). induction l as [|[z v] l IH]; intro IC; [destruct IC|]; destruct IC as [E|IC]; cbn.
    - injection E as -> ->. left. reflexivity.
    - specialize (IH IC). destruct v as [[p| |[]]|e]; auto. right; exact IH. }
  apply near_iff in ND. rewrite (ask_not_near _ _ _ _ _ _ _ _ _ _ _ _ _ EP Iy IX) in ND. discriminate.
Qed.
Print Assumptions C208_new_partial.

(** ** C209 *)
(** What holds: if no real variable has a precision, every point that is evaluated satisfies the constraints. *)
Theorem C209_feasible_partial :
  forall P W func fuel warm, good_space P -> good_world P W -> unrounded (p_space P) ->
    forall x r, In (x, r) (all_calls (snd (bo_run P W func fuel warm))) -> satisfies (p_h P) (p_g P) x.
Proof.
  intros P W func fuel warm GS GW U x r I. unfold bo_run in I. destruct (set_warm _ _ _ _ _) as [[e|] s] eqn:ES; [destruct I|]. cbn [snd] in I.
  apply in_concat in I. destruct I as (B & IB & Ix). apply In_nth_error in IB. destruct IB as (i & Ei). destruct (log_nth _ _ _ _ _ _ _ _ Ei) as (si & X & EP & -> & _).
  apply evaluations_in in Ix. pose proof GS as (NE & PS & OT). pose proof GW as (SO & GW').
  assert (IN : forall j i0, run_inputs_ok (p_space P) (w_start W (0 + i) j i0) (w_rnd W (0 + i) j i0)) by (intros j i0; apply (proj2 (proj2 (proj2 GW')))).
  assert (IS : forall count n z, In z (run_samp P W (0 + i) count n) -> in_space (p_space P) z) by (intros count n z Iz; apply (run_samp_spec P W GS GW (0 + i) count n), Iz).
  destruct (C201_ask _ _ _ _ _ _ _ _ _ _ _ _ _ _ _ _ _ X SO PS IN IS EP x Ix) as (_ & [(j & _ & S)|(count & n & z & Iz & ->)]); [exact S|].
  destruct (run_samp_spec P W GS GW (0 + i) count n) as (_ & Q). destruct (Q z Iz) as (Q1 & Q2). now rewrite (unrounded_id P z U Q1).
Qed.
Print Assumptions C209_feasible_partial.

(** ** C210 *)
(** run returns the first best of the given data and of the finite observations it made, and the value observed there; it stops
    because the budget is used up or because the returned value is better than the target. *)
Theorem C210_result :
  forall P W func fuel warm s r log,
    bo_run P W func fuel warm = (Returned s r, log) ->
    exists q before after, rf r = FNum q /\ warm_values warm ++ finite_values (all_calls log) = before ++ (rx r, q) :: after /\
      (forall x p, In (x, p) before -> Spec_Opt.better (p_minimize P) q p) /\ (forall x p, In (x, p) after -> ~ Spec_Opt.better (p_minimize P) p q) /\
      (forall x v, In (x, v) (all_calls log) -> exists y, v = Ok y) /\
      evals s = List.length (all_calls log) /\
      ((exists m, p_max_FEs P = Some m /\ m <= List.length (all_calls log)) \/ (exists t, p_ftarget P = Some t /\ compare_ (p_minimize P) (FNum q) t = true)).
Proof.
  intros P W func fuel warm s r log H. unfold bo_run in H. destruct (set_warm _ _ _ _ _) as [[e|] s0] eqn:ES; [discriminate|].
  destruct (start_spec _ _ _ _ ES) as (R0 & E0 & M0 & T0 & F0). injection H as HR <-. pose proof (run_end P W func fuel 0 s0 M0 T0) as RE. pose proof (run_finite P W func fuel 0 s0 F0) as RF.
  rewrite HR in RE, RF. destruct RE as (XO & RO & EV & AO & ST). rewrite R0 in RO. rewrite E0 in EV. cbn in EV.
  destruct (data s) as [d|] eqn:ED; [|unfold xopt in XO; rewrite ED in XO; discriminate]. unfold Spec_Opt.rows in RO, RF. rewrite ED in RO, RF.
  assert (ND : d <> []) by (intros ->; unfold xopt in XO; rewrite ED in XO; cbn in XO; discriminate).
  destruct (xopt_first_best (run_cfg P) s d ED RF ND) as (d1 & r' & d2 & -> & XO' & B1 & B2). assert (r' = r) by congruence. subst r'.
  assert (Q : rf r = FNum (rq r)) by (apply finrow_rq; rewrite Forall_forall in RF; apply RF, in_elt).
  exists (rq r), (map qpair d1), (map qpair d2). split; [exact Q|]. split; [unfold all_calls; rewrite <- RO, map_app; reflexivity|].
  split; [intros x p I; apply in_map_iff in I; destruct I as (z & [= <- <-] & I); exact (B1 z I)|]. split; [intros x p I; apply in_map_iff in I; destruct I as (z & [= <- <-] & I); exact (B2 z I)|].
  split; [exact AO|]. split; [exact EV|]. unfold all_calls. rewrite <- EV, <- Q. exact ST.
Qed.
Print Assumptions C210_result.
(** run does not go on once the target is reached: whenever it calls the objective function again, no value known before, given or
    observed, is below the target. *)
Theorem C210_target :
  forall P W func fuel warm t i B, p_minimize P = true -> p_ftarget P = Some (FNum t) ->
    let log := snd (bo_run P W func fuel warm) in
    nth_error log i = Some B ->
    forall x q, In (x, q) (warm_values warm ++ finite_values (all_calls (firstn i log))) -> (t <= q)%Q.
Proof.
  intros P W func fuel warm t i B MN FT log H x q I. subst log. unfold bo_run in *. destruct (set_warm _ _ _ _ _) as [[e|] s] eqn:ES; [destruct i; discriminate|]. cbn [snd] in *.
  destruct (start_spec _ _ _ _ ES) as (R0 & _ & _ & _ & F0). refine (log_target P W func t MN FT fuel 0 s i B F0 H x q _). rewrite R0. exact I.
Qed.
Print Assumptions C210_target.

(** ** C211 *)
(** Whether run returns, raises or goes on, the objective function is not called max_FEs + max(n_point, DoE_size) times. *)
Theorem C211_budget :
  forall P W func fuel warm m, good_space P -> good_world P W -> 1 <= p_n_point P -> 1 <= p_DoE_size P ->
    p_max_FEs P = Some m -> 1 <= m ->
    List.length (all_calls (snd (bo_run P W func fuel warm))) < m + Nat.max (p_n_point P) (p_DoE_size P).
Proof.
  intros P W func fuel warm m GS GW N D HM Hm. unfold bo_run. destruct (set_warm _ _ _ _ _) as [[e|] s] eqn:ES; [cbn; lia|]. cbn [snd]. unfold all_calls.
  destruct (start_spec _ _ _ _ ES) as (_ & E0 & _). destruct (rev_case (run_log P W func fuel 0 s)) as [EL|(l & B & EL)]; rewrite EL; [cbn; lia|].
  destruct (log_nth P W func fuel 0 s (List.length l) B) as (si & X & EP & -> & _ & EV & LT).
  { rewrite EL, nth_error_app2, Nat.sub_diag by lia. reflexivity. }
  rewrite EL, firstn_app, Nat.sub_diag, firstn_all, firstn_O, app_nil_r, E0 in EV. specialize (LT m HM). rewrite concat_app, app_length. cbn [List.concat]. rewrite app_nil_r.
  pose proof (evaluations_length func X (0 + List.length l) 0). pose proof (propose_length P W _ _ _ GS GW N D EP). lia.
Qed.
Print Assumptions C211_budget.

(** ** C212 *)
(** If run raises, every finite observation of the completed iterations is still in the data, after the given data; the only
    others are of the last iteration. *)
Theorem C212_kept :
  forall P W func fuel warm e s log,
    bo_run P W func fuel warm = (Raised e s, log) ->
    (exists X Y, warm = Some (X, Y) /\ log = []) \/
    exists done last new, log = done ++ last /\ List.length last <= 1 /\
      map (fun r => (rx r, rf r)) (Spec_Opt.rows s) = map (fun p => (fst p, FNum (snd p))) (warm_values warm ++ finite_values (all_calls done) ++ new) /\
      incl new (finite_values (all_calls last)).
Proof.
  intros P W func fuel warm e s log H. unfold bo_run in H. destruct (set_warm _ _ _ _ _) as [[e0|] s0] eqn:ES.
  { left. injection H as _ _ <-. destruct warm as [[X Y]|]; [eauto|discriminate]. }
  right. destruct (start_spec _ _ _ _ ES) as (R0 & _ & M0 & T0 & F0). injection H as HR <-. pose proof (run_end P W func fuel 0 s0 M0 T0) as RE. pose proof (run_finite P W func fuel 0 s0 F0) as RF.
  rewrite HR in RE, RF. destruct RE as (dn & last & EL & LL & new & RO & IN). exists dn, last, new. split; [exact EL|]. split; [exact LL|]. split; [|exact IN].
  unfold all_calls. rewrite <- R0, <- RO, map_map. apply map_ext_in. intros z I. cbn. f_equal. apply finrow_rq. rewrite Forall_forall in RF. apply RF, I.
Qed.
Print Assumptions C212_kept.

(** ** Cases *)
Definition no_noise : Model_Sampler.noise := mkN 0 0 None.
(** One real variable; the function fails (NaN) at 1/2, where the acquisition function has its maximum. *)
Definition failing : problem := Problem [mkVar "x" (KReal 0 1 None)] None None true (Some 5) None false 1 2 5 1 3.
Definition failing_world : world :=
  World (fun _ => ""%string) argsort_stable (fun _ _ n => firstn n [[VR (1 # 2)]; [VR (1 # 4)]]) (fun _ _ _ _ _ _ => no_noise) (fun _ _ _ _ _ _ => false) (fun _ _ _ n => seq 0 n)
    (fun _ _ _ _ _ x => match x with [VR q] => if Qeq_bool q (1 # 2) then 1 else 0 | _ => 0 end%Q) (fun _ _ _ => [[VR (1 # 2)]; [VR 0]; [VR 1]; [VR (1 # 4)]]) (fun _ _ _ _ _ => small_noise)
    (fun _ => (true, None)) (true, None).
Definition failing_func (k i : nat) (x : point) : res fval := match x with [VR q] => if Qeq_bool q (1 # 2) then Ok FNan else Ok (FNum q) | _ => Err EUser end.
(** Three variables and the constraint n <= 5 (Properties_Propose); one given point. *)
Definition mixed_run (m : nat) : problem := Problem asked_space None (Some asked_g) true (Some m) None false 1 2 5 1 3.
Definition mixed_world : world :=
  World (fun _ => ""%string) argsort_stable (fun _ _ n => firstn n (rev asked_start ++ repeat [VR (1 # 8); VI 2; VS "b"%string] n)) (fun _ _ _ _ _ _ => no_noise) (fun _ _ _ _ _ _ => true) (fun _ _ _ n => seq 0 n)
    (fun _ => asked_fit) (fun _ _ _ => asked_start) (fun _ _ _ _ _ => small_noise) (fun _ => (true, None)) (true, None).
Definition mixed_func (k i : nat) (x : point) : res fval := match x with [VR q; VI n; _] => Ok (FNum (q + inject_Z n)) | _ => Err EUser end.
Definition mixed_warm : option (list point * list fval) := Some ([[VR 1; VI 9; VS "b"%string]], [FNum 3]).

Lemma asked_points x : In x asked_start -> sampled asked_space x.
Proof.
  intro I. split.
  - destruct I as [<-|[<-|[<-|[<-|[]]]]]; (constructor; [eexists; split; [reflexivity|split; discriminate]|constructor; [|constructor; [cbn; auto|constructor]]]); [exists 2%Z|exists 4%Z|exists 9%Z|exists 3%Z]; repeat split; discriminate.
  - intros [|[|[|i]]] v lb ub p N E; cbn in N; [| | |destruct i; discriminate]; injection N as <-; cbn in E; try discriminate.
    destruct I as [<-|[<-|[<-|[<-|[]]]]]; cbn; eauto.
Qed.
Lemma mixed_inputs : run_inputs_ok asked_space asked_start (fun _ _ => small_noise).
Proof. exact (proj1 (proj2 (proj2 C201_example))). Qed.
Lemma mixed_good m : good_space (mixed_run m) /\ good_world (mixed_run m) mixed_world.
Proof.
  split.
  - split; [discriminate|]. split; [exact (proj1 (proj2 C201_example))|]. intros _ v [<-|[<-|[<-|[]]]]; cbn; auto. left. intros v [<-|[<-|[]]]; eauto.
  - split; [apply argsort_stable_sorts|]. split; [|split; [|split]].
    + intros k pass n x I. cbn in I. assert (J : In x (rev asked_start ++ repeat [VR (1 # 8); VI 2; VS "b"%string] n)) by (rewrite <- (firstn_skipn n (rev asked_start ++ _)); apply in_or_app; left; exact I).
      apply in_app_or in J. destruct J as [J|J]; [apply asked_points, in_rev, J|]. apply repeat_spec in J. subst x. split.
      * constructor; [eexists; split; [reflexivity|split; discriminate]|]. constructor; [exists 2%Z; repeat split; discriminate|]. constructor; [cbn; auto|constructor].
      * intros [|[|[|i]]] v lb ub p N E; cbn in N; [| | |destruct i; discriminate]; injection N as <-; cbn in E; try discriminate; cbn; eauto.
    + intros k pass t s r i v lv _ H. discriminate.
    + intros. apply seq_length.
    + intros k j i. exact mixed_inputs.
Qed.
(** A given point, then a proposal of the evolution strategy and a random sample. *)
Definition mixed_log : list (list (point * res fval)) := [[([VR 0; VI 2; VS "a"%string], Ok (FNum 2))]; [([VR (1 # 4); VI 3; VS "b"%string], Ok (FNum (13 # 4)))]].
Example C207_case : good_space (mixed_run 2) /\ good_world (mixed_run 2) mixed_world /\ unrounded (p_space (mixed_run 2)) /\
  exists s r, bo_run (mixed_run 2) mixed_world mixed_func 10 mixed_warm = (Returned s r, mixed_log).
Proof.
  destruct (mixed_good 2) as (A & B). split; [exact A|]. split; [exact B|]. split; [intros v lb ub p [<-|[<-|[<-|[]]]] E; cbn in E; congruence|].
  do 2 eexists. vm_compute. reflexivity.
Qed.
(** The same with a target: run goes on above the target and stops below it. *)
Definition target_run (t : Q) : problem := Problem asked_space None (Some asked_g) true (Some 2) (Some (FNum t)) false 1 2 5 1 3.
Example C210_case : (exists s r, bo_run (target_run (3 # 2)) mixed_world mixed_func 10 mixed_warm = (Returned s r, mixed_log)) /\
  exists s r, bo_run (target_run (5 # 2)) mixed_world mixed_func 10 mixed_warm = (Returned s r, firstn 1 mixed_log).
Proof. split; do 2 eexists; vm_compute; reflexivity. Qed.
(** With a larger budget there are no further points to propose, and run raises; the observations are kept. *)
Example C212_case : exists e s, bo_run (mixed_run 3) mixed_world mixed_func 10 mixed_warm = (Raised e s, mixed_log) /\ List.length (Spec_Opt.rows s) = 3.
Proof. do 2 eexists. split; [vm_compute; reflexivity|]. reflexivity. Qed.

(** C208 is false: the function fails at a point, and the point is proposed in every iteration until the budget is used up. *)
Lemma failing_good : good_space failing /\ good_world failing failing_world.
Proof.
  split.
  - split; [discriminate|]. split; [split; [repeat constructor|]; intros v lb ub st [<-|[]] E; discriminate|]. intros _ v [<-|[]]; exact I.
  - assert (S : forall q, (0 <= q)%Q -> (q <= 1)%Q -> sampled (p_space failing) [VR q]).
    { intros q A B. split; [constructor; [eexists; split; [reflexivity|split; assumption]|constructor]|]. intros [|i] v lb ub p N E; cbn in N; [|destruct i; discriminate]. injection N as <-. cbn. eauto. }
    split; [apply argsort_stable_sorts|]. split; [|split; [|split]].
    + intros k pass n x I. cbn in I. assert (J : In x [[VR (1 # 2)]; [VR (1 # 4)]]) by (rewrite <- (firstn_skipn n [[VR (1 # 2)]; [VR (1 # 4)]]); apply in_or_app; left; exact I).
      destruct J as [<-|[<-|[]]]; apply S; discriminate.
    + intros k pass t s r i v lv _ H. discriminate.
    + intros. apply seq_length.
    + intros k j i. split; [reflexivity|]. split; [repeat (constructor; [apply S; discriminate|]); constructor|]. split; [intros; repeat split; intros; cbn; lra|].
      intros g a _. split; [cbn; lia|]. split; [cbn; lia|]. intros [|b] c v E; discriminate E.
Qed.
Theorem C208_new_refuted : exists P W func s r log,
  good_space P /\ good_world P W /\ bo_run P W func 10 None = (Returned s r, log) /\
  (forall i B, 1 <= i -> nth_error log i = Some B -> B = [([VR (1 # 2)], Ok FNan)]) /\ List.length log = 4 /\
  In ([VR (1 # 2)], Ok FNan) (nth 0 log []).
Proof.
  exists failing, failing_world, failing_func. do 3 eexists. destruct failing_good as (A & B). split; [exact A|]. split; [exact B|]. split; [vm_compute; reflexivity|].
  split; [|split; [reflexivity|left; reflexivity]]. intros [|[|[|[|i]]]] C L H; [lia| | | |destruct i; discriminate]; cbn in H; congruence.
Qed.
Print Assumptions C208_new_refuted.

(** C209 is false: the sample 3/5 satisfies x <= 7/10, but the rounding to whole numbers makes it 1 before it is evaluated. *)
Definition rounded : problem := Problem [mkVar "x" (KReal 0 1 (Some 0%Z))] None (Some (fun x => match x with [VR q] => [(q - (7 # 10))%Q] | _ => [] end)) true (Some 1) None false 1 1 5 1 3.
Definition rounded_world : world :=
  World (fun _ => ""%string) argsort_stable (fun _ _ n => repeat [VR (3 # 5)] n) (fun _ _ _ _ _ _ => no_noise) (fun _ _ _ _ _ _ => true) (fun _ _ _ n => seq 0 n)
    (fun _ _ _ _ _ _ => 0%Q) (fun _ _ _ => repeat [VR (3 # 5)] 4) (fun _ _ _ _ _ => small_noise) (fun _ => (true, None)) (true, None).
Theorem C209_feasible_refuted : exists P W func s r log x,
  good_space P /\ good_world P W /\ bo_run P W func 10 None = (Returned s r, log) /\ In (x, Ok (FNum 0)) (all_calls log) /\ ~ satisfies (p_h P) (p_g P) x.
Proof.
  exists rounded, rounded_world, (fun _ _ _ => Ok (FNum 0)). do 4 eexists. assert (S : sampled (p_space rounded) [VR (3 # 5)]).
  { split; [constructor; [eexists; split; [reflexivity|split; discriminate]|constructor]|]. intros [|i] v lb ub p N E; cbn in N; [|destruct i; discriminate]. injection N as <-. cbn. eauto. }
  split; [|split; [|split; [vm_compute; reflexivity|split; [left; reflexivity|]]]].
  - split; [discriminate|]. split; [split; [repeat constructor|]; intros v lb ub st [<-|[]] E; discriminate|]. intros _ v [<-|[]]; exact I.
  - split; [apply argsort_stable_sorts|]. split; [|split; [|split]].
    + intros k pass n x I. apply repeat_spec in I. subst x. exact S.
    + intros k pass t s r i v lv _ H. discriminate.
    + intros. apply seq_length.
    + intros k j i. split; [reflexivity|]. split; [apply Forall_forall; intros x I; apply repeat_spec in I; subst x; apply S|]. split; [intros; repeat split; intros; cbn; lra|].
      intros g a _. split; [cbn; lia|]. split; [cbn; lia|]. intros [|b] c v E; discriminate E.
  - intros (_ & H). specialize (H _ (1 - (7 # 10))%Q eq_refl). cbn in H. specialize (H (or_introl eq_refl)). apply Qle_bool_iff in H. discriminate.
Qed.
Print Assumptions C209_feasible_refuted.
