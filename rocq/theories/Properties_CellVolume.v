(** Properties C172, C173: the hypervolume that the box decompositions report. *)
From Coq Require Import List Bool Arith ZArith QArith Lia Lqa.
From Verif Require Import Lib_List Model_Pareto Spec_Pareto Proofs_Pareto Model_Boxes Spec_Boxes Proofs_Boxes Proofs_BoxFront Proofs_BoxRuns Model_Lacour Proofs_LacourRuns Spec_HV Proofs_HVgrid
  Model_CellVolume Proofs_CellVolume Proofs_CellClip Proofs_CellIndex Proofs_CellFast Properties_Boxes.
Import ListNotations.
Open Scope nat_scope.

(** C172.  For every reference point with three or more objectives, after construction with a first batch of outcomes and any further
    updates, the fast partitioning reports the measure of the region above the reference that the outcomes given so far dominate,
    whatever grid the measure is computed on.  Ties, duplicates and outcomes that are not above the reference included. *)
Theorem C172_fast_hypervolume :
  forall ref Y Ys Gs, 3 <= length ref -> (forall B, In B (Y :: Ys) -> rectangular (length ref) B) -> grid_for Gs ref (concat (Y :: Ys)) ->
    exists o v, fast_updates ref None (Y :: Ys) = Some o /\ fast_hypervolume ref o = Some v /\ (v == measure Gs ref (concat (Y :: Ys)))%Q.
Proof.
  intros ref Y Ys Gs Hm R HG. assert (Hm2 : 2 <= length ref) by lia.
  destruct (inv_reset ref Hm2 Y None) as (o1 & E1 & I1 & Y1); [apply R; now left|discriminate|].
  destruct (inv_updates ref Hm2 Ys o1 I1) as (o2 & E2 & I2 & Y2); [intros B HB; apply R; now right|].
  assert (EY : f_Y o2 = concat (Y :: Ys)) by (rewrite Y2, Y1; reflexivity).
  destruct (inv_volume ref o2 Gs Hm2 I2) as (v & Ev & Hv); [rewrite EY; exact HG|].
  exists o2, v. split; [cbn [fast_updates fast_update]; rewrite E1; exact E2|]. split; [exact Ev|]. rewrite <- EY. exact Hv.
Qed.
Print Assumptions C172_fast_hypervolume.

(** ... and for two objectives. *)
Theorem C172_fast_two_objectives :
  forall argsort r0 r1 Y Gs, sorts argsort -> rectangular 2 Y -> grid_for Gs [r0; r1] Y ->
    exists v, fast_hypervolume_2d argsort [r0; r1] Y = Some v /\ (v == measure Gs [r0; r1] Y)%Q.
Proof. intros. apply two_volume; assumption. Qed.
Print Assumptions C172_fast_two_objectives.

(** A grid exists for all outcomes, so the statements are about every call. *)
Theorem C172_grids_exist : forall ref Y, exists Gs, grid_for Gs ref Y.
Proof. exact grid_exists. Qed.
Print Assumptions C172_grids_exist.

Example C172_case :
  let Y := [[1#1; 5#1; 2#1]]%Q in let Ys := [[[4#1; 1#1; 2#1]; [-1#1; 1#1; 1#1]]; []; [[2#1; 3#1; 3#1]; [1#1; 5#1; 2#1]]]%Q in
  let G := [-1; 0; 1; 2; 3; 4; 5]%Q in
  (forall B, In B (Y :: Ys) -> rectangular 3 B) /\ grid_for [G; G; G] [0; 0; 0]%Q (concat (Y :: Ys)) /\
  option_map (fun o => option_map Qred (fast_hypervolume [0; 0; 0]%Q o)) (fast_updates [0; 0; 0]%Q None (Y :: Ys)) = Some (Some (26#1)%Q) /\
  Qred (measure [G; G; G] [0; 0; 0]%Q (concat (Y :: Ys))) = (26#1)%Q.
Proof.
  cbv zeta. split; [intros B H p Hp; simpl in H; intuition (subst; simpl in Hp; intuition (subst; reflexivity))|]. split; [|split; vm_compute; reflexivity].
  split; [reflexivity|]. intros k G E.
  assert (HG : G = [-1; 0; 1; 2; 3; 4; 5]%Q) by (destruct k as [|[|[|[|]]]]; simpl in E; congruence). assert (Hk := nth_error_lt _ _ _ E). simpl in Hk. clear E. subst G.
  split; [repeat (split; [reflexivity|]); exact I|].
  assert (V : forall v, In v [-1; 0; 1; 2; 3; 4; 5]%Q -> on_line v [-1; 0; 1; 2; 3; 4; 5]%Q) by (intros v Hv; exists v; split; [exact Hv|reflexivity]).
  split; [destruct k as [|[|[|]]]; [| | |lia]; apply V; simpl; tauto|].
  intros y Hy. simpl in Hy. destruct k as [|[|[|]]]; [| | |lia]; intuition (subst; simpl; apply V; simpl; tauto).
Qed.

(** C173.  For every number of objectives, every reference point and the default threshold (alpha = 0, or less), after construction and
    any further updates the binary partitioning reports the same measure. *)
Theorem C173_binary_hypervolume :
  forall argsort argmax alpha ref Ys Gs, sorts argsort -> finds_max argmax -> (alpha <= 0)%Q ->
    (forall Y, In Y Ys -> rectangular (length ref) Y) -> Ys <> [] -> grid_for Gs ref (concat Ys) ->
    exists d cells, updates argsort argmax alpha ref Ys = Some d /\ d_cells d = Some cells /\
      (index_hypervolume ref (d_front d) cells == measure Gs ref (concat Ys))%Q.
Proof.
  intros argsort argmax alpha ref Ys Gs HS HM HA HR HN HG. destruct (updates_good argsort argmax HS alpha ref Ys HR HN) as (d & E & (R1 & Y0 & R0 & IN & F & C & D) & EY).
  destruct (cells_of_spec argsort argmax HS HM alpha ref Y0 HA R0) as (cells & EC & _ & _).
  exists d, cells. split; [exact E|]. split; [rewrite C, F; exact EC|]. rewrite EY in *.
  assert (G0 := grid_sub _ _ _ _ IN HG). rewrite F, (cells_of_volume argsort argmax alpha ref Y0 Gs cells HS HM HA R0 G0 EC). apply measure_same; auto.
Qed.
Print Assumptions C173_binary_hypervolume.

(** The two classes agree. *)
Theorem C173_classes_agree :
  forall argsort argmax alpha ref Y Ys, sorts argsort -> finds_max argmax -> (alpha <= 0)%Q -> 3 <= length ref ->
    (forall B, In B (Y :: Ys) -> rectangular (length ref) B) ->
    exists o v d cells, fast_updates ref None (Y :: Ys) = Some o /\ fast_hypervolume ref o = Some v /\
      updates argsort argmax alpha ref (Y :: Ys) = Some d /\ d_cells d = Some cells /\ (v == index_hypervolume ref (d_front d) cells)%Q.
Proof.
  intros argsort argmax alpha ref Y Ys HS HM HA Hm R. destruct (grid_exists ref (concat (Y :: Ys))) as (Gs & HG).
  destruct (C172_fast_hypervolume ref Y Ys Gs Hm R HG) as (o & v & E1 & E2 & Ev).
  destruct (C173_binary_hypervolume argsort argmax alpha ref (Y :: Ys) Gs HS HM HA R) as (d & cells & E3 & E4 & Ed); [discriminate|exact HG|].
  exists o, v, d, cells. repeat (split; [assumption|]). rewrite Ev, Ed. reflexivity.
Qed.
Print Assumptions C173_classes_agree.

Example C173_case :
  let Ys := [[[1#1; 5#1; 2#1]]; [[4#1; 1#1; 2#1]; [-1#1; 1#1; 1#1]]; []; [[2#1; 3#1; 3#1]; [1#1; 5#1; 2#1]]]%Q in
  option_map (fun d => option_map (fun c => Qred (index_hypervolume [0; 0; 0]%Q (d_front d) c)) (d_cells d)) (updates argsort_stable first_max 0 [0; 0; 0]%Q Ys) = Some (Some (26#1)%Q).
Proof. vm_compute. reflexivity. Qed.
