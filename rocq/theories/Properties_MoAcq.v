(** Properties C289 and C290: the acquisition function of the multi-objective optimizer. *)
From Coq Require Import Reals List Bool Arith ZArith QArith Qreals Qabs Qminmax Lia Lqa.
From Verif Require Import Lib_List Model_Pareto Spec_Pareto Proofs_Pareto Model_Boxes Spec_Boxes Proofs_Boxes Proofs_BoxFront Properties_Boxes
  Model_MOBO Spec_MOBO Proofs_MOBO Properties_MOBO Proofs_Float32 Model_MoAcq Spec_Improve Spec_Expect Proofs_Expect Model_EHVI Properties_EHVI Proofs_ExpectPos Proofs_Region Proofs_MoAcq Spec_HV Proofs_HVgrid Properties_Region.
Import ListNotations.
Open Scope nat_scope.

Lemma float32_bounded q : (-(1) <= q <= 1)%Q -> (float32 q <= 2)%Q.
Proof.
  intros [L U]. assert (E := float32_error q). assert (A : (Qabs q <= 1)%Q) by (apply Qabs_case; intros; lra). apply Qabs_Qle_condition in E as [_ E]. nra.
Qed.

(** C289.  Whatever has been observed, the acquisition function that MOBO builds, with the conversion to single precision of the data that
    the code makes, is positive at every prediction, for both values of the cut (1e10 and 1e8). *)
Theorem C289_positive :
  forall argsort argmax minimize F pred big, sorts argsort -> finds_max argmax -> 2 <= length minimize -> F <> [] -> rectangular (length minimize) F ->
    length pred = length minimize -> (2 <= big)%R ->
    exists cs cells, mobo_cells float32 argsort argmax minimize F = Some cs /\ real_cells cs = Some cells /\ (0 < forward big cells pred)%R.
Proof.
  intros argsort argmax mn F pred big HS HM Hm NF _ Lp B. destruct (mobo_defined float32 argsort argmax float32_bounded HS HM mn F NF big B) as (cs & E & PA & NB & PR).
  destruct (real_cells_ok big (length mn) cs pred PR Lp) as (cells & Ec & OK). exists cs, cells. split; [exact E|]. split; [exact Ec|].
  assert (UP : exists t : Q, (Q2R t <= big)%R /\ (forall v, In v (mobo_reference float32 mn F) -> (v < t)%Q) /\ forall y v, In y (mobo_outcomes float32 mn F) -> In v y -> (v < t)%Q).
  { assert (C : forall q, (-(1) <= q <= 1)%Q -> (float32 q <= 15 # 10)%Q).
    { intros q [L U]. assert (Er := float32_error q). assert (A : (Qabs q <= 1)%Q) by (apply Qabs_case; intros; lra). apply Qabs_Qle_condition in Er as [_ Er]. nra. }
    exists 2%Q. split; [rewrite two_real; exact B|]. split.
    - intros v Hv. apply in_map_iff in Hv as (w & <- & Hw). apply Qle_lt_trans with (15 # 10)%Q; [|reflexivity]. apply C. unfold ref_point in Hw. apply in_map_iff in Hw as (j & <- & Hj).
      assert (N : column j (y_of mn F) <> []) by (intros X; apply map_eq_nil, map_eq_nil in X; contradiction). destruct (col_min_in _ N) as (x & Hx & Ex). unfold column in Hx. apply in_map_iff in Hx as (y & <- & Hy).
      assert (L : (-(1) <= nth j y 0 <= 1)%Q). { destruct (Nat.lt_ge_cases j (length y)) as [H|H]; [apply (scaled_le_1 mn F y); [exact Hy|now apply nth_In]|rewrite nth_overflow by exact H; lra]. } lra.
    - intros y v Hy Hv. apply in_map_iff in Hy as (u & <- & Hu). apply in_map_iff in Hv as (w & <- & Hw). apply Qle_lt_trans with (15 # 10)%Q; [|reflexivity]. apply C. now apply (scaled_le_1 mn F u). }
  destruct UP as (t & T1 & T2 & T3).
  assert (SA : strictly_above (mobo_reference float32 mn F) (repeat t (length mn))).
  { unfold strictly_above. rewrite <- (reference_length float32 mn F). clear - T2. induction (mobo_reference float32 mn F) as [|v r IH]; cbn; constructor; [apply T2; now left|]. apply IH. intros w Hw. apply T2. now right. }
  assert (ND : ~ dominated_by (mobo_outcomes float32 mn F) (repeat t (length mn))).
  { intros (y & Hy & C). destruct (length mn) as [|n]; [lia|]. unfold covers in C. cbn in C. inversion C as [|? v ? y' C1 C2]; subst. assert (K := T3 _ v Hy (or_introl eq_refl)). lra. }
  destruct (PA _ SA) as [_ A]. destruct (A ND) as (l & c & r & Ecs & I & _).
  apply (forward_pos big cs cells pred (repeat t (length mn)) c Ec OK); [rewrite Ecs; apply in_app_iff; right; now left|exact I|]. intros q Hq. apply repeat_spec in Hq. now subst q.
Qed.
Print Assumptions C289_positive.

(** And it does not depend on the units of the objectives: for the same predictions (the surrogates are fitted to the scaled values) the
    value is the same if every objective is multiplied by a positive factor and shifted. *)
Theorem C289_units :
  forall argsort argmax minimize F a b pred big, sorts argsort -> finds_max argmax -> F <> [] -> rectangular (length minimize) F ->
    (forall j, j < length minimize -> (0 < a j)%Q) -> length pred = length minimize -> (2 <= big)%R ->
    let G := map (fun r => map (fun j => (a j * nth j r 0 + b j)%Q) (seq 0 (length minimize))) F in
    exists cs cs' cells cells', mobo_cells float32 argsort argmax minimize F = Some cs /\ real_cells cs = Some cells /\
      mobo_cells float32 argsort argmax minimize G = Some cs' /\ real_cells cs' = Some cells' /\ forward big cells' pred = forward big cells pred.
Proof.
  intros argsort argmax mn F a b pred big HS HM NF _ A Lp B G. assert (NG : G <> []) by (unfold G; destruct F; [contradiction|discriminate]).
  destruct (mobo_defined float32 argsort argmax float32_bounded HS HM mn F NF big B) as (cs & E & PA & NB & PR). destruct (mobo_defined float32 argsort argmax float32_bounded HS HM mn G NG big B) as (cs' & E' & PA' & NB' & PR').
  destruct (real_cells_ok big (length mn) cs pred PR Lp) as (cells & Ec & OK). destruct (real_cells_ok big (length mn) cs' pred PR' Lp) as (cells' & Ec' & OK').
  exists cs, cs', cells, cells'. split; [exact E|]. split; [exact Ec|]. split; [exact E'|]. split; [exact Ec'|].
  assert (EY : Forall2 (Forall2 Qeq) (y_of mn G) (y_of mn F)) by exact (affine_outcomes a b mn F A).
  assert (EO := casts_comp float32 float32_comp _ _ EY). fold (mobo_outcomes float32 mn G) in EO. fold (mobo_outcomes float32 mn F) in EO.
  assert (ER := cast_comp float32 float32_comp _ _ (reference_comp mn G F EY)). fold (mobo_reference float32 mn G) in ER. fold (mobo_reference float32 mn F) in ER.
  assert (PA2 := partitions_comp cs' _ _ _ _ ER EO PA'). assert (NB2 := nothing_comp cs' _ _ ER NB'). assert (RL := reference_length float32 mn F). rewrite <- RL in PR, PR'. rewrite <- RL in Lp.
  apply Rle_antisym.
  - apply (region_le big pred (mobo_reference float32 mn F) cs' cs (mobo_outcomes float32 mn F) (mobo_outcomes float32 mn F)); auto.
  - apply (region_le big pred (mobo_reference float32 mn F) cs cs' (mobo_outcomes float32 mn F) (mobo_outcomes float32 mn F)); auto.
Qed.
Print Assumptions C289_units.

(** Its value is the expectation, over independent normal outcomes with the predicted means and deviations, of a function of the outcome
    that is the increase of the region dominated by the scaled observations at every outcome up to the cut. *)
Theorem C289_expectation :
  forall argsort argmax minimize F pred big Gs, sorts argsort -> finds_max argmax -> F <> [] -> rectangular (length minimize) F ->
    length pred = length minimize -> (2 <= big)%R ->
    let ref := map float32 (ref_point minimize F) in let Y := map (map float32) (y_of minimize F) in
    exists cs cells, mobo_cells float32 argsort argmax minimize F = Some cs /\ real_cells cs = Some cells /\
      expectation (map (fun p => (fst p, sqrt (Rmax (snd p) (/ 1000000000)))) pred) (covered_total big cells) (forward big cells pred) /\
      (forall y : vec, length y = length minimize -> below_cut big y -> grid_for Gs ref (y :: Y) ->
         covered_total big cells (map Q2R y) = Q2R (measure Gs ref (y :: Y) - measure Gs ref Y)).
Proof.
  intros argsort argmax mn F pred big Gs HS HM NF _ Lp B ref Y. assert (RL := reference_length float32 mn F). change (length ref = length mn) in RL.
  destruct (C285_binary argsort argmax 0%Q ref [Y] big pred Gs HS HM (Qle_refl 0)) as (d & cs & cells & E & Eb & Ec & EX & IM & _).
  - intros D [<-|[]]. apply outcomes_rect.
  - discriminate.
  - congruence.
  - intros q Hq. apply Rle_trans with 2%R; [|exact B]. rewrite <- two_real. apply Qle_Rle. now apply (reference_le float32 float32_bounded mn F NF).
  - cbn [concat]. rewrite app_nil_r. intros y Hy q Hq. apply Rle_trans with 2%R; [|exact B]. rewrite <- two_real. apply Qle_Rle. now apply (outcome_le float32 float32_bounded mn F y).
  - cbn [concat] in IM. rewrite app_nil_r in IM. exists cs, cells. split; [unfold mobo_cells; change (mobo_reference float32 mn F) with ref; change (mobo_outcomes float32 mn F) with Y; now rewrite E|]. split; [exact Ec|]. split; [exact EX|].
    intros y Ly. apply IM. congruence.
Qed.
Print Assumptions C289_expectation.

(** Three observations of two minimised objectives: the scaled values, the reference point, the two cells above it that the middle point
    leaves, and the ignored extreme points. *)
Example C289_case :
  let F := [[10; 200]; [20; 100]; [30; 0]]%Q in
  rectangular 2 F /\ sorts argsort_stable /\ finds_max first_max /\
  map (map Qred) (y_of [true; true] F) = [[0; -1]; [-1 # 2; -1 # 2]; [-1; 0]]%Q /\ map Qred (ref_point [true; true] F) = [-4 # 5; -4 # 5]%Q /\
  option_map (@length _) (mobo_cells float32 argsort_stable first_max [true; true] F) = Some 2.
Proof.
  cbv zeta. split; [intros p Hp; simpl in Hp; intuition (subst; reflexivity)|]. split; [apply argsort_stable_sorts|]. split; [apply first_max_finds|].
  split; [vm_compute; reflexivity|]. split; [vm_compute; reflexivity|]. vm_compute. reflexivity.
Qed.

(** C290.  Turning the objectives around - the negated values, to be maximised instead of minimised - should change nothing but the sign.
    It changes what counts as an improvement: the reference point is the worst scaled value times 0.8.  The scaled values lie between -1
    and 0 for a minimised objective, so that the reference point is better than the worst fifth of the range; they lie between 0 and 1
    for a maximised one, so that it is the worst value itself.  Below, an outcome adds nothing in the first case and 1/25 in the second;
    it is the same outcome, as the scaled values of all observations are shifted by 1. *)
Definition negated (F : list vec) : list vec := map (map Qopp) F.
Theorem C290_direction_refuted :
  exists F z, rectangular 2 F /\ length z = 2 /\
    Forall2 (Forall2 Qeq) (y_of [false; false] (negated F)) (map (map (fun v => v + 1)%Q) (y_of [true; true] F)) /\
    exists cs cs' s s', mobo_cells (fun q => q) argsort_stable first_max [true; true] F = Some cs /\
      mobo_cells (fun q => q) argsort_stable first_max [false; false] (negated F) = Some cs' /\
      total_gain cs z = Some s /\ total_gain cs' (map (fun v => v + 1)%Q z) = Some s' /\ (s == 0)%Q /\ (s' == 1 # 25)%Q.
Proof.
  exists [[0; 2]; [1; 1]; [2; 0]]%Q, [-1 # 10; -9 # 10]%Q. split; [intros p Hp; simpl in Hp; intuition (subst; reflexivity)|]. split; [reflexivity|].
  split; [vm_compute; repeat constructor|].
  destruct (mobo_cells (fun q => q) argsort_stable first_max [true; true] [[0; 2]; [1; 1]; [2; 0]]%Q) as [cs|] eqn:E; [|vm_compute in E; discriminate].
  destruct (mobo_cells (fun q => q) argsort_stable first_max [false; false] (negated [[0; 2]; [1; 1]; [2; 0]]%Q)) as [cs'|] eqn:E'; [|vm_compute in E'; discriminate].
  vm_compute in E. injection E as <-. vm_compute in E'. injection E' as <-. eexists. eexists. eexists. eexists.
  split; [reflexivity|]. split; [reflexivity|]. split; [vm_compute; reflexivity|]. split; [vm_compute; reflexivity|]. split; reflexivity.
Qed.
Print Assumptions C290_direction_refuted.

(** What holds: the recommendation is the same, whatever the number of objectives and observations (in exact arithmetic). *)
Lemma negated_beats minimize q p : beats (map negb minimize) (map Qopp q) (map Qopp p) <-> beats minimize q p.
Proof.
  assert (N : forall j v, nth j (map Qopp v) 0%Q = (- nth j v 0)%Q) by (intros j v; exact (map_nth Qopp v 0%Q j)).
  unfold beats. split; intros [A (j & mn & Hj & C)]; (split; [intros k b Hk; specialize (A k (negb b))|exists j, (negb mn)]).
  - rewrite nth_error_map, Hk in A. specialize (A eq_refl). rewrite !N in A. unfold at_least_as_good in *. destruct b; cbn in A; lra.
  - rewrite nth_error_map in Hj. destruct (nth_error minimize j) as [b|] eqn:E; [|discriminate]. injection Hj as <-. rewrite negb_involutive. split; [reflexivity|]. rewrite !N in C. unfold better in *. destruct b; cbn in C; lra.
  - rewrite nth_error_map in Hk. destruct (nth_error minimize k) as [c|] eqn:E; [|discriminate]. injection Hk as <-. rewrite negb_involutive in A. specialize (A eq_refl). rewrite !N. unfold at_least_as_good in *. destruct c; cbn; lra.
  - rewrite nth_error_map, Hj. split; [reflexivity|]. rewrite !N. unfold better in *. destruct mn; cbn; lra.
Qed.
Lemma negated_same q p : same_values (map Qopp q) (map Qopp p) <-> same_values q p.
Proof.
  unfold same_values. split; revert p; induction q as [|a q IH]; intros [|b p] H; cbn in *; inversion H; subst; constructor; auto; lra.
Qed.
Theorem C290_recommendation_partial :
  forall minimize F, rectangular (length minimize) F ->
    forall i, In i (xopt_index (fun v => v) (map negb minimize) (map (map Qopp) F)) <-> In i (xopt_index (fun v => v) minimize F).
Proof.
  intros mn F R i. rewrite (C24_rescaling_partial mn F R), (C24_rescaling_partial (map negb mn) (map (map Qopp) F)).
  - split; intros (p & Hp & A & B).
    + rewrite nth_error_map in Hp. destruct (nth_error F i) as [p0|] eqn:E; [|discriminate]. injection Hp as <-. exists p0. split; [reflexivity|]. split.
      * intros q Hq K. apply (A (map Qopp q)); [now apply in_map|]. now apply negated_beats.
      * intros j q Hj Eq K. apply (B j (map Qopp q) Hj); [now rewrite nth_error_map, Eq|]. now apply negated_same.
    + exists (map Qopp p). split; [now rewrite nth_error_map, Hp|]. split.
      * intros q Hq K. apply in_map_iff in Hq as (q0 & <- & Hq). apply (A q0 Hq). now apply negated_beats.
      * intros j q Hj Eq K. rewrite nth_error_map in Eq. destruct (nth_error F j) as [q0|] eqn:E; [|discriminate]. injection Eq as <-. apply (B j q0 Hj E). now apply negated_same.
  - intros p Hp. apply in_map_iff in Hp as (q & <- & Hq). rewrite !map_length. now apply R.
Qed.
Print Assumptions C290_recommendation_partial.

Example C290_case :
  let F := [[0; 2]; [1; 1]; [2; 0]; [2; 2]]%Q in
  rectangular 2 F /\ xopt_index (fun v => v) [true; true] F = [0; 1; 2] /\ xopt_index (fun v => v) [false; false] (map (map Qopp) F) = [0; 1; 2].
Proof. cbv zeta. split; [intros p Hp; simpl in Hp; intuition (subst; reflexivity)|]. split; vm_compute; reflexivity. Qed.
