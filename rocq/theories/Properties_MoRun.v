(** C213-C219: whole runs of the multi-objective optimizer. *)
From Coq Require Import List Bool Arith ZArith QArith Qabs String Sorted Lia Lqa.
From Verif Require Import Model_Opt Model_Var Model_Ask Spec_Ask Proofs_Ask Model_Pareto Spec_Pareto Proofs_Pareto Spec_MIES Model_MiesPar Spec_MiesPar Properties_MiesPar.
From Verif Require Import Properties_Box Model_Propose Spec_Propose Proofs_Propose Properties_Propose Model_Sampler Model_Run Spec_Run Proofs_Run Properties_Run Model_MoRun Spec_MoRun Proofs_MoRun.
From Verif Require Model_MOBO Spec_MOBO Proofs_MOBO.
Import ListNotations.
Open Scope nat_scope.

(** ** C213 *)
(** Every point on which an objective function is called is in the space, however the run ends; if no real variable has a
    precision, it satisfies the constraints. *)
Theorem C213_in_space :
  forall P minimize cast W func target fuel, good_space P -> good_world P W -> 2 <= List.length minimize ->
    forall j x r, In (j, x, r) (all_calls (snd (mo_run P minimize cast W func target fuel))) ->
      in_space (p_space P) x /\ (unrounded (p_space P) -> satisfies (p_h P) (p_g P) x).
Proof.
  intros P minimize cast W func target fuel GS GW Hn j x r I. unfold mo_run in I. cbn [snd] in I.
  apply in_concat in I. destruct I as (B & IB & Ix). apply In_nth_error in IB. destruct IB as (i & Ei).
  destruct (mo_log_nth P minimize cast W func target fuel 0 _ i B ltac:(unfold n_obj; lia) Ei) as (si & X & obs & EP & -> & _).
  apply calls_obj in Ix. destruct Ix as (_ & Ix). pose proof GS as (NE & PS & OT). pose proof GW as (SO & GW').
  assert (IN : forall j i0, run_inputs_ok (p_space P) (w_start W (0 + i) j i0) (w_rnd W (0 + i) j i0)) by (intros j0 i0; apply (proj2 (proj2 (proj2 GW')))).
  assert (IS : forall count n z, In z (run_samp P W (0 + i) count n) -> in_space (p_space P) z) by (intros count n z Iz; apply (run_samp_spec P W GS GW (0 + i) count n), Iz).
  destruct (C201_ask _ _ _ _ _ _ _ _ _ _ _ _ _ _ _ _ _ X SO PS IN IS EP x Ix) as (A & B). split; [exact A|]. intro U.
  destruct B as [(j0 & _ & S)|(count & n & z & Iz & ->)]; [exact S|].
  destruct (run_samp_spec P W GS GW (0 + i) count n) as (_ & Q). destruct (Q z Iz) as (Q1 & Q2). now rewrite (unrounded_id P z U Q1).
Qed.
Print Assumptions C213_in_space.

(** ** C214 *)
(** A point on which the objective functions were called in an earlier iteration is not proposed again, nor is a point that is close to it. *)
Theorem C214_new :
  forall P minimize cast W func target fuel i j A B x y j1 j2 r1 r2, 2 <= List.length minimize ->
    let log := snd (mo_run P minimize cast W func target fuel) in
    nth_error log i = Some A -> nth_error log j = Some B -> i < j -> In (j1, x, r1) A -> In (j2, y, r2) B ->
    ~ near_duplicate (p_space P) x y.
Proof.
  intros P minimize cast W func target fuel i j A B x y j1 j2 r1 r2 Hn. cbn zeta. intros HA HB Lij Ix Iy ND. unfold mo_run in *. cbn [snd] in *.
  destruct (mo_log_nth P minimize cast W func target fuel 0 _ j B ltac:(unfold n_obj; lia) HB) as (sj & X & obs & EP & -> & OB & DA & _).
  apply calls_obj in Iy. destruct Iy as (_ & Iy). unfold mo_propose, ask_mies in EP.
  assert (IX : In x (mo_known sj)).
  { unfold mo_known. assert (K : map Model_MOBO.r_x (Model_MOBO.data sj) = map fst obs).
    { apply (f_equal (map fst)) in DA. rewrite map_app, !map_map in DA. cbn in DA. exact DA. }
    rewrite K. set (l := mo_log P minimize cast W func target fuel 0 Model_MOBO.mstart) in *.
    assert (IA : In A (firstn j l)).
    { rewrite <- (firstn_skipn j l) in HA. rewrite nth_error_app1 in HA; [eapply nth_error_In; eauto|]. rewrite firstn_length.
      assert (j < List.length l) by (apply nth_error_Some; congruence). lia. }
    assert (IC : In (j1, x, r1) (List.concat (firstn j l))) by (apply in_concat; eauto).
    destruct OB as (O1 & _ & O3). specialize (O3 j1 (O1 _ _ _ IC)).
    assert (IM : In (x, r1) (made j1 (List.concat (firstn j l)))).
    { unfold made. apply in_map_iff. exists (j1, x, r1). split; [reflexivity|]. apply filter_In. split; [exact IC|]. cbn. apply Nat.eqb_refl. }
    rewrite O3 in IM. apply in_map_iff in IM. destruct IM as (o & E & Io). apply in_map_iff. exists o. split; [congruence|exact Io]. }
  apply near_iff in ND. rewrite (ask_not_near _ _ _ _ _ _ _ _ _ _ _ _ _ EP Iy IX) in ND. discriminate.
Qed.
Print Assumptions C214_new.

(** ** C215 *)
Lemma first_max {A} (f : A -> Q) (l : list A) : l <> [] ->
  exists i p, nth_error l i = Some p /\ (forall q, In q l -> (f q <= f p)%Q) /\ forall j q, j < i -> nth_error l j = Some q -> (f q < f p)%Q.
Proof.
  induction l as [|a l IH]; [congruence|]. intros _. destruct l as [|b l].
  - exists 0, a. split; [reflexivity|]. split; [intros q [<-|[]]; lra|]. intros j q Hj; lia.
  - destruct IH as (i & p & E & M & SB); [discriminate|]. destruct (Qlt_le_dec (f a) (f p)) as [L|L].
    + exists (S i), p. split; [exact E|]. split; [intros q [<-|I]; [lra|auto]|]. intros [|j] q Hj Hq; cbn in Hq; [injection Hq as <-; exact L|]. apply (SB j); [lia|exact Hq].
    + exists 0, a. split; [reflexivity|]. split; [intros q [<-|I]; [lra|specialize (M q I); lra]|]. intros j q Hj; lia.
Qed.
Fixpoint score (mn : list bool) (p : list Q) : Q :=
  match mn with [] => 0 | b :: mn' => (if b then - hd 0 p else hd 0 p) + score mn' (tl p) end%Q.
Lemma nth_tl {A} (p : list A) j d : nth j (tl p) d = nth (S j) p d.
Proof. destruct p, j; reflexivity. Qed.
Lemma hd_nth {A} (p : list A) d : hd d p = nth 0 p d.
Proof. destruct p; reflexivity. Qed.
Lemma score_le mn : forall p q, (forall j b, nth_error mn j = Some b -> Spec_MOBO.at_least_as_good b (nth j p 0%Q) (nth j q 0%Q)) -> (score mn q <= score mn p)%Q.
Proof.
  induction mn as [|b mn IH]; intros p q H; cbn; [lra|]. pose proof (H 0 b eq_refl) as H0. rewrite !hd_nth. assert (T : (score mn (tl q) <= score mn (tl p))%Q).
  { apply IH. intros j c E. rewrite !nth_tl. apply (H (S j) c E). }
  unfold Spec_MOBO.at_least_as_good in H0. destruct b; lra.
Qed.
Lemma score_beats mn : forall p q, Spec_MOBO.beats mn p q -> (score mn q < score mn p)%Q.
Proof.
  induction mn as [|b mn IH]; intros p q (H & j & c & E & K); [destruct j; discriminate|]. cbn. rewrite !hd_nth. pose proof (H 0 b eq_refl) as H0.
  assert (HT : forall j c, nth_error mn j = Some c -> Spec_MOBO.at_least_as_good c (nth j (tl p) 0%Q) (nth j (tl q) 0%Q)) by (intros i d Ed; rewrite !nth_tl; apply (H (S i) d Ed)).
  destruct j as [|j]; cbn in E.
  - injection E as ->. pose proof (score_le mn (tl p) (tl q) HT). unfold Spec_MOBO.better in K. destruct c; lra.
  - assert (T : (score mn (tl q) < score mn (tl p))%Q) by (apply IH; split; [exact HT|]; exists j, c; rewrite !nth_tl; auto).
    unfold Spec_MOBO.at_least_as_good in H0. destruct b; lra.
Qed.
Lemma score_same mn : forall p q, same_values p q -> (score mn p == score mn q)%Q.
Proof.
  induction mn as [|b mn IH]; intros p q S; cbn; [lra|]. assert (T : (score mn (tl p) == score mn (tl q))%Q) by (apply IH; destruct S; cbn; [constructor|assumption]).
  assert (Hh : (hd 0 p == hd 0 q)%Q) by (destruct S; cbn; [lra|assumption]). destruct b; lra.
Qed.

(** run returns only when the budget is used up.  It returns the observations that no observation of the run beats, in the order in
    which they were made, with the values observed, and of equal ones the first; there is at least one.  The rounding to single
    precision is assumed to keep the order of the normalised values. *)
Theorem C215_result :
  forall P minimize cast W func target fuel s front log, 2 <= List.length minimize ->
    mo_run P minimize cast W func target fuel = (MReturned s front, log) ->
    (exists m, p_max_FEs P = Some m /\ m <= List.length (all_calls log)) /\
    exists obs, observations (List.length minimize) (all_calls log) obs /\
      (Spec_MOBO.keeps_order cast (List.concat (Model_MOBO.y_of minimize (map snd obs))) ->
       exists idx, StronglySorted lt idx /\ (obs <> [] -> idx <> []) /\
         Forall2 (fun i r => exists x q, nth_error obs i = Some (x, q) /\ Model_MOBO.r_x r = x /\ Model_MOBO.r_fit r = map Model_MOBO.Fin q) idx front /\
         forall i, In i idx <-> exists x q, nth_error obs i = Some (x, q) /\ (forall y p, In (y, p) obs -> ~ Spec_MOBO.beats minimize p q) /\
                                  forall j y p, j < i -> nth_error obs j = Some (y, p) -> ~ same_values p q).
Proof.
  intros P minimize cast W func target fuel s front log Hn H. unfold mo_run in H. injection H as HL <-.
  pose proof (mo_end P minimize cast W func target fuel 0 Model_MOBO.mstart ltac:(unfold n_obj; lia)) as ME. rewrite HL in ME.
  destruct ME as (XO & CS & obs & OB & DA & EV). cbn [Model_MOBO.data Model_MOBO.mstart map app] in DA. cbn [Model_MOBO.eval_count Model_MOBO.mstart Nat.add] in EV.
  split.
  - unfold mo_check_stop in CS. rewrite XO in CS. unfold all_calls. rewrite <- EV. destruct (p_max_FEs P) as [m|].
    + exists m. split; [reflexivity|]. destruct (Nat.leb_spec m (Model_MOBO.eval_count s)); [assumption|]. exfalso. destruct target as [t|]; [|discriminate]. destruct front as [|r front]; [discriminate|].
      unfold mo_compare in CS. destruct minimize as [|b1 [|b2 mn]]; cbn in Hn; [lia|lia|]. destruct b1; discriminate.
    + exfalso. destruct target as [t|]; [|discriminate]. destruct front as [|r front]; [discriminate|].
      unfold mo_compare in CS. destruct minimize as [|b1 [|b2 mn]]; cbn in Hn; [lia|lia|]. destruct b1; discriminate.
  - exists obs. split; [exact OB|]. intro KO. unfold mo_xopt in XO.
    assert (VO : values_of s = map snd obs).
    { unfold values_of. apply (f_equal (map (fun z => map fin_of (snd z)))) in DA. rewrite !map_map in DA. cbn in DA. rewrite DA. apply map_ext. intros [x q]. cbn. rewrite map_map. cbn. apply map_id. }
    assert (FR : front = flat_map (fun i => match nth_error (Model_MOBO.data s) i with Some r => [r] | None => [] end) (Model_MOBO.xopt_index cast minimize (map snd obs))).
    { rewrite <- VO. destruct (Model_MOBO.data s); congruence. }
    assert (RE : rectangular (List.length minimize) (map snd obs)).
    { intros q I. apply in_map_iff in I. destruct I as ((x & q') & <- & I). destruct OB as (_ & O2 & _). apply (O2 x q' I). }
    pose proof (Proofs_MOBO.xopt_spec cast minimize (map snd obs) (Proofs_MOBO.keeps_order_columns _ _ _ KO) RE) as XS.
    set (idx := Model_MOBO.xopt_index cast minimize (map snd obs)) in *.
    assert (IX : forall i, In i idx <-> exists x q, nth_error obs i = Some (x, q) /\ (forall y p, In (y, p) obs -> ~ Spec_MOBO.beats minimize p q) /\
                                  forall j y p, j < i -> nth_error obs j = Some (y, p) -> ~ same_values p q).
    { intro i. rewrite XS. split.
      - intros (q & E & A & B). rewrite nth_error_map in E. destruct (nth_error obs i) as [[x q']|] eqn:EO; [|discriminate]. injection E as <-. exists x, q'. split; [reflexivity|]. split.
        + intros y p I. apply A. apply in_map_iff. exists (y, p). auto.
        + intros j y p L E. apply (B j p L). rewrite nth_error_map, E. reflexivity.
      - intros (x & q & E & A & B). exists q. split; [rewrite nth_error_map, E; reflexivity|]. split.
        + intros p I. apply in_map_iff in I. destruct I as ((y & p') & <- & I). apply (A y p' I).
        + intros j p L Ep. rewrite nth_error_map in Ep. destruct (nth_error obs j) as [[y p']|] eqn:EO; [|discriminate]. injection Ep as <-. apply (B j y p' L EO). }
    exists idx. split; [apply Proofs_MOBO.positions_sorted|]. split; [|split; [|exact IX]].
    + intros NE E0. destruct (first_max (fun o => score minimize (snd o)) obs NE) as (i & [x q] & E & A & B).
      assert (II : In i idx).
      { apply IX. exists x, q. split; [exact E|]. split.
        - intros y p I K. apply score_beats in K. specialize (A _ I). cbn in A. lra.
        - intros j y p L Ep K. apply (score_same minimize) in K. specialize (B j _ L Ep). cbn in B. lra. }
      rewrite E0 in II. destruct II.
    + rewrite FR. assert (IN : forall i, In i idx -> exists x q, nth_error obs i = Some (x, q)) by (intros i I; apply IX in I; destruct I as (x & q & E & _); eauto).
      clear IX XS FR KO. clearbody idx. induction idx as [|i idx IH]; cbn; [constructor|].
      destruct (IN i (or_introl eq_refl)) as (x & q & E). assert (ER : exists r, nth_error (Model_MOBO.data s) i = Some r /\ Model_MOBO.r_x r = x /\ Model_MOBO.r_fit r = map Model_MOBO.Fin q).
      { apply (f_equal (fun l => nth_error l i)) in DA. rewrite !nth_error_map, E in DA. destruct (nth_error (Model_MOBO.data s) i) as [r|]; [|discriminate]. cbn in DA. exists r. split; [reflexivity|]. split; congruence. }
      destruct ER as (r & -> & R1 & R2). cbn. constructor; [exists x, q; auto|]. apply IH. intros k I. apply IN. right; exact I.
Qed.
Print Assumptions C215_result.

(** ** C216 *)
(** Every call of an objective function is counted.  Whether run returns, raises or goes on, there are fewer than
    max_FEs + n_obj * max(n_point, DoE_size) calls. *)
Theorem C216_budget :
  forall P minimize cast W func target fuel m, good_space P -> good_world P W -> 1 <= p_n_point P -> 1 <= p_DoE_size P -> 2 <= List.length minimize ->
    p_max_FEs P = Some m -> 1 <= m ->
    List.length (all_calls (snd (mo_run P minimize cast W func target fuel))) < m + List.length minimize * Nat.max (p_n_point P) (p_DoE_size P).
Proof.
  intros P minimize cast W func target fuel m GS GW N D Hn HM Hm. unfold mo_run. cbn [snd]. unfold all_calls.
  destruct (rev_case (mo_log P minimize cast W func target fuel 0 Model_MOBO.mstart)) as [EL|(l & B & EL)]; rewrite EL; [cbn; lia|].
  destruct (mo_log_nth P minimize cast W func target fuel 0 Model_MOBO.mstart (List.length l) B ltac:(unfold n_obj; lia)) as (si & X & obs & EP & -> & _ & _ & EV & LT).
  { rewrite EL, nth_error_app2, Nat.sub_diag by lia. reflexivity. }
  rewrite EL, firstn_app, Nat.sub_diag, firstn_all, firstn_O, app_nil_r in EV. cbn [Model_MOBO.eval_count Model_MOBO.mstart Nat.add] in EV. specialize (LT m HM). rewrite concat_app, app_length. cbn [List.concat]. rewrite app_nil_r.
  pose proof (calls_length func (n_obj minimize) (0 + List.length l) 0 X) as LC. pose proof (mo_propose_length P W _ _ _ GS GW N D EP) as LP.
  assert (n_obj minimize * List.length X <= List.length minimize * Nat.max (p_n_point P) (p_DoE_size P)) by (apply Nat.mul_le_mono_l; exact LP). lia.
Qed.
Print Assumptions C216_budget.

(** ** C217 *)
(** What holds: if run raises, every observation of the completed iterations is still in the data; there are others only if the
    surrogate could not be fitted. *)
Theorem C217_kept_partial :
  forall P minimize cast W func target fuel e s log, 2 <= List.length minimize ->
    mo_run P minimize cast W func target fuel = (MRaised e s, log) ->
    exists done last obs new, log = done ++ last /\ List.length last <= 1 /\ observations (List.length minimize) (all_calls done) obs /\
      map (fun r => (Model_MOBO.r_x r, Model_MOBO.r_fit r)) (Model_MOBO.data s) = map (fun o => (fst o, map Model_MOBO.Fin (snd o))) obs ++ new /\
      ((forall k, w_model W k = (true, None)) -> new = []).
Proof.
  intros P minimize cast W func target fuel e s log Hn H. unfold mo_run in H. injection H as HL <-.
  pose proof (mo_end P minimize cast W func target fuel 0 Model_MOBO.mstart ltac:(unfold n_obj; lia)) as ME. rewrite HL in ME.
  destruct ME as (dn & last & obs & new & A & B & C & D & F). exists dn, last, obs, new. split; [exact A|]. split; [exact B|]. split; [exact C|]. split; [exact D|].
  intro OK. destruct new as [|z new]; [reflexivity|]. destruct F as (k & K); [discriminate|]. unfold fits in K. rewrite OK in K. discriminate.
Qed.
Print Assumptions C217_kept_partial.

(** ** Cases *)
(** The space of Properties_Propose with the constraint n <= 5; two objectives, the second to be maximised. *)
Definition mo_func (k j i : nat) (x : point) : res mval :=
  match x with [VR q; VI n; _] => Ok (Model_MOBO.Fin (if j =? 0 then q + inject_Z n else inject_Z (n * (n - 3) * (n - 3)))%Q) | _ => Err EUser end.
Definition mo_points : list point := [[VR (1 # 4); VI 3; VS "b"%string]; [VR (1 # 2); VI 4; VS "b"%string]; [VR 0; VI 2; VS "a"%string]].
Definition mo_obs : list (point * list Q) := combine mo_points [[13 # 4; 0]; [9 # 2; 4]; [2; 2]]%Q.
Definition mo_obs_log : list (list mcall) :=
  [map (fun o => (0, fst o, Ok (Model_MOBO.Fin (nth 0 (snd o) 0%Q)))) (firstn 2 mo_obs) ++ map (fun o => (1, fst o, Ok (Model_MOBO.Fin (nth 1 (snd o) 0%Q)))) (firstn 2 mo_obs);
   [(0, [VR 0; VI 2; VS "a"%string], Ok (Model_MOBO.Fin 2)); (1, [VR 0; VI 2; VS "a"%string], Ok (Model_MOBO.Fin 2))]].
(** A design of two points and one proposal; the first of the three is beaten by the last. *)
Example C215_case : good_space (mixed_run 6) /\ good_world (mixed_run 6) mixed_world /\ unrounded (p_space (mixed_run 6)) /\
  Spec_MOBO.keeps_order Model_MOBO.float32 (List.concat (Model_MOBO.y_of [true; false] (map snd mo_obs))) /\ observations 2 (all_calls mo_obs_log) mo_obs /\
  exists s, mo_run (mixed_run 6) [true; false] Model_MOBO.float32 mixed_world mo_func None 10 =
    (MReturned s (map (fun o => Model_MOBO.Row (fst o) (map Model_MOBO.Fin (snd o))) (skipn 1 mo_obs)), mo_obs_log).
Proof.
  destruct (mixed_good 6) as (A & B). split; [exact A|]. split; [exact B|]. split; [intros v lb ub p [<-|[<-|[<-|[]]]] E; cbn in E; congruence|]. split; [|split].
  - intros a b Ha Hb. remember (List.concat _) as L eqn:E. vm_compute in E. subst L. simpl in Ha, Hb.
    repeat (destruct Ha as [<-|Ha]; [|]); try destruct Ha; repeat (destruct Hb as [<-|Hb]; [|]); try destruct Hb; vm_compute; split; intros; try discriminate; congruence.
  - split; [|split].
    + intros j x r I. cbn in I. repeat (destruct I as [E|I]; [injection E as <- _ _; lia|]). destruct I.
    + intros x q I. cbn in I. repeat (destruct I as [E|I]; [injection E as _ <-; reflexivity|]). destruct I.
    + intros [|[|j]] Hj; [reflexivity|reflexivity|lia].
  - eexists. vm_compute. reflexivity.
Qed.

(** C217 is false: an evaluation that fails (NaN or infinite) always ends the run with an exception, and the finite values of its iteration are lost. *)
Theorem C217_failed_refuted :
  (forall P minimize cast W func target fuel j x v, 2 <= List.length minimize ->
     In (j, x, Ok v) (all_calls (snd (mo_run P minimize cast W func target fuel))) -> Model_MOBO.is_fin v = false ->
     exists e s, fst (mo_run P minimize cast W func target fuel) = MRaised e s) /\
  exists P minimize W func s log x q, good_space P /\ good_world P W /\ 2 <= List.length minimize /\
    mo_run P minimize Model_MOBO.float32 W func None 10 = (MRaised EIndex s, log) /\
    In (0, x, Ok (Model_MOBO.Fin q)) (all_calls log) /\ In (1, x, Ok (Model_MOBO.Fin q)) (all_calls log) /\ Model_MOBO.data s = [].
Proof.
  split.
  - intros P minimize cast W func target fuel j x v Hn I NF. pose proof (mo_end P minimize cast W func target fuel 0 Model_MOBO.mstart ltac:(unfold n_obj; lia)) as ME.
    unfold mo_run in *. cbn [fst snd] in *.
    assert (K : forall obs, observations (n_obj minimize) (List.concat (mo_log P minimize cast W func target fuel 0 Model_MOBO.mstart)) obs -> False).
    { intros obs (O1 & _ & O3). specialize (O3 j (O1 _ _ _ I)).
      assert (IM : In (x, Ok v) (made j (List.concat (mo_log P minimize cast W func target fuel 0 Model_MOBO.mstart)))).
      { unfold made. apply in_map_iff. exists (j, x, Ok v). split; [reflexivity|]. apply filter_In. split; [exact I|]. cbn. apply Nat.eqb_refl. }
      rewrite O3 in IM. apply in_map_iff in IM. destruct IM as (o & E & _). assert (v = Model_MOBO.Fin (nth j (snd o) 0%Q)) by congruence. subst v. discriminate. }
    destruct (mo_loop P minimize cast W func target fuel 0 Model_MOBO.mstart) as [s front|e s|]; [|eauto|].
    + destruct ME as (_ & _ & obs & OB & _). destruct (K obs OB).
    + destruct ME as (obs & OB). destruct (K obs OB).
  - exists (mixed_run 6), [true; false], mixed_world, (fun k j i x => if (i =? 1) && (j =? 1) then Ok Model_MOBO.NaN else Ok (Model_MOBO.Fin 1)). do 4 eexists.
    destruct (mixed_good 6) as (A & B). split; [exact A|]. split; [exact B|]. split; [cbn; lia|]. split; [vm_compute; reflexivity|]. split; [left; reflexivity|]. split; [right; right; left; reflexivity|reflexivity].
Qed.
Print Assumptions C217_failed_refuted.

(** ** C218 *)
(** C218 is false: with a target value the run never returns; it makes one iteration and raises (unless that iteration raises). *)
Theorem C218_target_refuted :
  (forall P minimize cast W func t fuel, 2 <= List.length minimize ->
     (forall s front, fst (mo_run P minimize cast W func (Some t) fuel) <> MReturned s front) /\
     List.length (snd (mo_run P minimize cast W func (Some t) fuel)) <= 1 /\
     (2 <= fuel -> p_max_FEs P <> Some 0 -> exists e s, fst (mo_run P minimize cast W func (Some t) fuel) = MRaised e s)) /\
  exists P minimize W func s log x v w, good_space P /\ good_world P W /\ 2 <= List.length minimize /\
    mo_run P minimize Model_MOBO.float32 W func (Some 1000%Q) 10 = (MRaised EValue s, log) /\ Model_MOBO.data s <> [] /\
    In (0, x, Ok (Model_MOBO.Fin v)) (all_calls log) /\ In (1, x, Ok (Model_MOBO.Fin w)) (all_calls log) /\ (v < 1000)%Q /\ (w < 1000)%Q.
Proof.
  split.
  - intros P minimize cast W func t fuel Hn. unfold mo_run. cbn [fst snd].
    assert (NC : forall s r, mo_compare minimize r t <> Ok s) by (intros s r; unfold mo_compare; destruct minimize as [|b1 [|b2 mn]]; cbn in Hn; [lia|lia|]; destruct b1; discriminate).
    assert (CE : forall s, Model_MOBO.data s <> [] -> exists e, mo_check_stop P minimize cast (Some t) s = Err e).
    { intros s D. unfold mo_check_stop. destruct (mo_xopt minimize cast s) as [[|r front]|] eqn:XO; [eauto| |].
      - destruct (mo_compare minimize (Model_MOBO.r_fit r) t) as [b|e] eqn:C; [destruct (NC _ _ C)|eauto].
      - unfold mo_xopt in XO. destruct (Model_MOBO.data s); [congruence|discriminate]. }
    assert (C0 : mo_check_stop P minimize cast (Some t) Model_MOBO.mstart = Ok (match p_max_FEs P with Some m => m <=? 0 | None => false end)) by reflexivity.
    assert (S0 : forall k s2, mo_step P minimize W func k Model_MOBO.mstart = (None, s2) -> Model_MOBO.data s2 <> []).
    { intros k s2 ES. assert (EP : exists X, mo_propose P W k Model_MOBO.mstart = Ok X) by (unfold mo_step in ES; destruct (mo_propose P W k Model_MOBO.mstart); [eauto|discriminate]).
      destruct EP as (X & EP). destruct (mo_step_ok P minimize W func k Model_MOBO.mstart s2 X ltac:(unfold n_obj; lia) EP ES) as (obs & _ & MO & DA & _).
      intro D. rewrite D in DA. cbn in DA. symmetry in DA. apply map_eq_nil in DA. subst obs. cbn in MO. subst X. unfold mo_propose, ask_mies, ask in EP.
      repeat match type of EP with context [match ?x with _ => _ end] => destruct x; try discriminate end. }
    destruct fuel as [|fuel]; cbn [mo_loop mo_log]; rewrite C0.
    + destruct (match p_max_FEs P with Some m => m <=? 0 | None => false end); (split; [intros s front; cbn; discriminate|]; split; [cbn; lia|lia]).
    + destruct (match p_max_FEs P with Some m => m <=? 0 | None => false end) eqn:EB.
      { split; [intros s front; cbn; discriminate|]. split; [cbn; lia|]. intros _ NZ. destruct (p_max_FEs P) as [m|]; [|discriminate]. apply Nat.leb_le in EB. assert (m = 0) by lia. congruence. }
      pose proof (S0 0) as S1. destruct (mo_step P minimize W func 0 Model_MOBO.mstart) as [[e|] s2] eqn:ES.
      * split; [discriminate|]. split; [destruct (mo_propose P W 0 Model_MOBO.mstart); cbn; lia|eauto].
      * destruct (CE s2 (S1 s2 eq_refl)) as (e & E2).
        assert (LP : mo_loop P minimize cast W func (Some t) fuel 1 s2 = MRaised e s2) by (destruct fuel; cbn [mo_loop]; now rewrite E2).
        assert (LG : mo_log P minimize cast W func (Some t) fuel 1 s2 = []) by (destruct fuel; cbn [mo_log]; now rewrite E2).
        rewrite LP, LG. split; [discriminate|]. split; [destruct (mo_propose P W 0 Model_MOBO.mstart); cbn; lia|eauto].
  - exists (mixed_run 6), [true; true], mixed_world, mo_func. do 5 eexists. destruct (mixed_good 6) as (A & B). split; [exact A|]. split; [exact B|]. split; [cbn; lia|].
    split; [vm_compute; reflexivity|]. split; [discriminate|]. split; [left; reflexivity|]. split; [right; right; left; reflexivity|]. split; reflexivity.
Qed.
Print Assumptions C218_target_refuted.

(** ** C219 *)
(** C219 is false: on a real space without constraints, with a model that has a gradient, the optimizer for one objective with a gradient is
    chosen whatever the number of objectives, and the first proposal raises. *)
Theorem C219_default_refuted :
  forall n_obj, mobo_chosen None true true n_obj false = "BFGS"%string /\
    first_acquisition (mobo_chosen None true true n_obj false) true = inr (Err EValue).
Proof. intro n_obj. destruct n_obj; split; reflexivity. Qed.
Print Assumptions C219_default_refuted.
(** What holds: in every other case without an explicit choice, and if one of the other two optimizers is asked for on a space it is made for,
    the acquisition function can be called. *)
Theorem C219_default_partial :
  forall given real gradient n_obj constrained,
    (given = None /\ (real = false \/ gradient = false \/ (constrained = true /\ real = true))) \/ given = Some "MIES"%string \/ (given = Some "OnePlusOne_Cholesky_CMA"%string /\ real = true) ->
    first_acquisition (mobo_chosen given real gradient n_obj constrained) real = inr (Ok tt).
Proof.
  intros given real gradient n_obj constrained H. unfold mobo_chosen. destruct n_obj; (destruct H as [(-> & [->|[->|(-> & ->)]])|[->|(-> & ->)]]; try destruct real; try destruct gradient; try destruct constrained; try discriminate; reflexivity).
Qed.
Print Assumptions C219_default_partial.
Example C219_case : first_acquisition (mobo_chosen None false true 3 true) false = inr (Ok tt) /\ mobo_chosen None false true 3 true = "MIES"%string.
Proof. split; reflexivity. Qed.
