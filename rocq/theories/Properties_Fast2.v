(** Property C286: the fast partitioning with two objectives, after any number of updates. *)
From Coq Require Import Reals List Bool Arith ZArith QArith Qreals Lia Lqa.
From Verif Require Import Lib_List Model_Pareto Spec_Pareto Proofs_Pareto Model_Boxes Spec_Boxes Spec_HV Proofs_HVgrid Model_CellVolume Proofs_CellIndex Spec_Improve Proofs_Improve
  Model_EHVI Spec_Expect Proofs_Expect Proofs_ExpectCells Model_Fast2 Proofs_Fast2.
Import ListNotations.
Open Scope nat_scope.

(** C286.  After construction with a first batch and any further updates, the cells partition the region that none of the outcomes given
    so far dominates, and the hypervolume reported is the measure of the dominated region, also when an update leaves the front as it
    was and nothing is recomputed. *)
Theorem C286_updates :
  forall argsort r0 r1 Y Ys Gs, sorts argsort -> (forall B, In B (Y :: Ys) -> rectangular 2 B) -> grid_for Gs [r0; r1] (concat (Y :: Ys)) ->
    exists o v, fast2_updates argsort [r0; r1] None (Y :: Ys) = Some o /\ fast2_hypervolume [r0; r1] o = Some v /\
      partitions (g_cells o) [r0; r1] (concat (Y :: Ys)) /\ nothing_below (g_cells o) [r0; r1] /\ (v == measure Gs [r0; r1] (concat (Y :: Ys)))%Q.
Proof.
  intros argsort r0 r1 Y Ys Gs HS H HG. destruct (history2 argsort HS r0 r1 Y Ys H) as (o & E & G & EY). destruct (good2_partitions argsort HS r0 r1 o G) as [PA NB].
  destruct (good2_volume argsort HS r0 r1 o Gs G) as (v & Ev & Hv); [rewrite EY; exact HG|]. rewrite EY in *. exists o, v. auto.
Qed.
Print Assumptions C286_updates.

(** The parts of the cells below an outcome have as total volume the difference between the hypervolumes reported after and before an
    update with the outcome. *)
Theorem C286_improvement :
  forall argsort r0 r1 Y Ys (y : vec), sorts argsort -> (forall B, In B (Y :: Ys) -> rectangular 2 B) -> length y = 2 ->
    exists o o' v v' s, fast2_updates argsort [r0; r1] None (Y :: Ys) = Some o /\ fast2_hypervolume [r0; r1] o = Some v /\
      fast2_updates argsort [r0; r1] None ((Y :: Ys) ++ [[y]]) = Some o' /\ fast2_hypervolume [r0; r1] o' = Some v' /\
      total_gain (g_cells o) y = Some s /\ (s == v' - v)%Q.
Proof.
  intros argsort r0 r1 Y Ys y HS H Ly. destruct (grid_exists [r0; r1] (y :: concat (Y :: Ys))) as (Gs & HG).
  assert (RC : rectangular 2 (concat (Y :: Ys))) by (intros p Hp; apply in_concat in Hp as (B & HB & Hp); exact (H B HB p Hp)).
  assert (EC : concat ((Y :: Ys) ++ [[y]]) = concat (Y :: Ys) ++ [y]) by (rewrite concat_app; reflexivity).
  assert (SAME : forall p, In p (concat ((Y :: Ys) ++ [[y]])) <-> In p (y :: concat (Y :: Ys))).
  { intros p. rewrite EC, in_app_iff. cbn [In]. tauto. }
  assert (HG' : grid_for Gs [r0; r1] (concat ((Y :: Ys) ++ [[y]]))) by (eapply grid_sub; [|exact HG]; intros p; apply SAME).
  assert (G0 : grid_for Gs [r0; r1] (concat (Y :: Ys))) by (eapply grid_sub; [|exact HG]; intros p Hp; now right).
  destruct (history2 argsort HS r0 r1 Y Ys H) as (o & E & G & EY). destruct (good2_volume argsort HS r0 r1 o Gs G) as (v & Ev & Hv); [rewrite EY; exact G0|].
  destruct (good2_improve argsort HS r0 r1 o Gs y G Ly) as (s & Es & Hs); [rewrite EY; exact HG|].
  destruct (C286_updates argsort r0 r1 Y (Ys ++ [[y]]) Gs HS) as (o' & v' & E' & Ev' & _ & _ & Hv'); [|exact HG'|].
  { intros B [<-|HB]; [apply H; now left|]. apply in_app_or in HB as [HB|[<-|[]]]; [apply H; now right|]. intros p [<-|[]]. exact Ly. }
  exists o, o', v, v', s. split; [exact E|]. split; [exact Ev|]. split; [exact E'|]. split; [exact Ev'|]. split; [exact Es|].
  rewrite Hs, Hv, Hv', EY. apply Qplus_comp; [|reflexivity].
  apply measure_same; auto; [exact (with_new [r0; r1] y _ RC Ly)|intros p Hp; apply SAME in Hp; destruct Hp as [<-|Hp]; [exact Ly|exact (RC p Hp)]|].
  intros z _. unfold dominated_by. split; intros (p & Hp & C); exists p; (split; [apply SAME, Hp|exact C]).
Qed.
Print Assumptions C286_improvement.

(** EHVI over the cells of the object is the expectation of that improvement. *)
Theorem C286_expected_improvement :
  forall argsort r0 r1 Y Ys big pred, sorts argsort -> (forall B, In B (Y :: Ys) -> rectangular 2 B) -> length pred = 2 ->
    below_cut big [r0; r1] -> (forall y, In y (concat (Y :: Ys)) -> below_cut big y) ->
    exists o v cells, fast2_updates argsort [r0; r1] None (Y :: Ys) = Some o /\ fast2_hypervolume [r0; r1] o = Some v /\ real_cells (g_cells o) = Some cells /\
      expectation (map (fun p => (fst p, sqrt (Rmax (snd p) (/ 1000000000)))) pred) (covered_total big cells) (forward big cells pred) /\
      (forall y : vec, length y = 2 -> below_cut big y ->
         exists o' v', fast2_updates argsort [r0; r1] None ((Y :: Ys) ++ [[y]]) = Some o' /\ fast2_hypervolume [r0; r1] o' = Some v' /\ covered_total big cells (map Q2R y) = Q2R (v' - v)) /\
      (forall ys ys', Forall2 Rle ys ys' -> (0 <= covered_total big cells ys <= covered_total big cells ys')%R).
Proof.
  intros argsort r0 r1 Y Ys big pred HS H Lp HC HY. destruct (grid_exists [r0; r1] (concat (Y :: Ys))) as (Gs & HG).
  destruct (history2 argsort HS r0 r1 Y Ys H) as (o & E & G & EY). destruct (good2_volume argsort HS r0 r1 o Gs G) as (v & Ev & _); [rewrite EY; exact HG|].
  destruct (real_cells_ok big 2 (g_cells o) pred) as (cells & Ec & OK); [apply (good2_proper argsort HS r0 r1 o big G HC); rewrite EY; exact HY|exact Lp|].
  exists o, v, cells. split; [exact E|]. split; [exact Ev|]. split; [exact Ec|]. split; [exact (forward_expectation big cells pred OK)|]. split.
  - intros y Ly Cy. destruct (C286_improvement argsort r0 r1 Y Ys y HS H Ly) as (oo & o' & w & v' & s & F1 & F2 & F3 & F4 & F5 & F6).
    assert (oo = o) by congruence. subst oo. assert (w = v) by congruence. subst w. exists o', v'. split; [exact F3|]. split; [exact F4|].
    rewrite (rational_total big (g_cells o) y cells s Ec F5 Cy). apply Qeq_eqR, F6.
  - intros ys ys' K. now apply total_mono.
Qed.
Print Assumptions C286_expected_improvement.

(** No outcome above the reference at first; then one, then a dominated one that changes nothing, then two new points of the front. *)
Example C286_case :
  let Ys := [[[-1; 2]]; [[1; 3]]; [[1; 2]; [1; 3]]; [[3; 1]; [2; 2]]]%Q in
  (forall B, In B Ys -> rectangular 2 B) /\
  map (fun n => option_map (fun o => (length (g_cells o), option_map Qred (fast2_hypervolume [0; 0]%Q o))) (fast2_updates argsort_stable [0; 0]%Q None (firstn n Ys))) [1; 2; 3; 4] =
    [Some (1, Some 0%Q); Some (2, Some 3%Q); Some (2, Some 3%Q); Some (4, Some 6%Q)].
Proof. cbv zeta. split; [intros B HB p Hp; simpl in HB; intuition (subst; simpl in Hp; intuition (subst; reflexivity))|vm_compute; reflexivity]. Qed.
