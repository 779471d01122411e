(** Property C284: the cells of a box decomposition measure the improvement of the hypervolume. *)
From Coq Require Import List Bool Arith ZArith QArith Lia Lqa.
From Verif Require Import Lib_List Model_Pareto Spec_Pareto Proofs_Pareto Model_Boxes Spec_Boxes Proofs_Boxes Proofs_BoxFront Proofs_BoxRuns Model_Lacour Proofs_LacourRuns Spec_HV Proofs_HVgrid
  Model_CellVolume Proofs_CellVolume Proofs_CellClip Proofs_CellIndex Proofs_CellFast Spec_Improve Proofs_Improve Properties_Boxes Properties_CellVolume.
Import ListNotations.
Open Scope nat_scope.

(** C284.  For every reference point with three or more objectives, after construction and any further updates, and for every outcome y
    with one value per objective: the parts of the cells of the fast partitioning that lie below y have as their total volume what y
    adds to the measure of the dominated region, whatever grid the measures are computed on. *)
Theorem C284_fast_improvement :
  forall ref Y Ys (y : vec) Gs, 3 <= length ref -> (forall B, In B (Y :: Ys) -> rectangular (length ref) B) -> length y = length ref ->
    grid_for Gs ref (y :: concat (Y :: Ys)) ->
    exists o s, fast_updates ref None (Y :: Ys) = Some o /\ total_gain (f_cells o) y = Some s /\
      (s == measure Gs ref (y :: concat (Y :: Ys)) - measure Gs ref (concat (Y :: Ys)))%Q.
Proof.
  intros ref Y Ys y Gs Hm R Ly HG. assert (Hm2 : 2 <= length ref) by lia.
  destruct (inv_reset ref Hm2 Y None) as (o1 & E1 & I1 & Y1); [apply R; now left|discriminate|].
  destruct (inv_updates ref Hm2 Ys o1 I1) as (o2 & E2 & I2 & Y2); [intros B HB; apply R; now right|].
  assert (EY : f_Y o2 = concat (Y :: Ys)) by (rewrite Y2, Y1; reflexivity).
  destruct (inv_improve ref o2 Gs y Hm2 I2 Ly) as (s & Es & Hs); [rewrite EY; exact HG|].
  exists o2, s. split; [cbn [fast_updates fast_update]; rewrite E1; exact E2|]. split; [exact Es|]. rewrite <- EY. exact Hs.
Qed.
Print Assumptions C284_fast_improvement.

(** ... which is the difference between the hypervolumes that the object reports after and before an update with y. *)
Theorem C284_fast_update :
  forall ref Y Ys (y : vec), 3 <= length ref -> (forall B, In B (Y :: Ys) -> rectangular (length ref) B) -> length y = length ref ->
    exists o o' v v' s, fast_updates ref None (Y :: Ys) = Some o /\ fast_hypervolume ref o = Some v /\
      fast_updates ref None ((Y :: Ys) ++ [[y]]) = Some o' /\ fast_hypervolume ref o' = Some v' /\
      total_gain (f_cells o) y = Some s /\ (s == v' - v)%Q.
Proof.
  intros ref Y Ys y Hm R Ly. destruct (grid_exists ref (y :: concat (Y :: Ys))) as (Gs & HG).
  assert (RC : rectangular (length ref) (concat (Y :: Ys))) by (intros p Hp; apply in_concat in Hp as (B & HB & Hp); exact (R B HB p Hp)).
  assert (EC : concat (Y :: Ys ++ [[y]]) = concat (Y :: Ys) ++ [y]) by (cbn [concat]; rewrite concat_app; cbn [concat app]; now rewrite app_assoc).
  assert (SAME : forall p, In p (concat (Y :: Ys ++ [[y]])) <-> In p (y :: concat (Y :: Ys))).
  { intros p. rewrite EC, in_app_iff. cbn [In]. tauto. }
  assert (HG' : grid_for Gs ref (concat (Y :: Ys ++ [[y]]))) by (eapply grid_sub; [|exact HG]; intros p; apply SAME).
  assert (G0 : grid_for Gs ref (concat (Y :: Ys))) by (eapply grid_sub; [|exact HG]; intros p Hp; now right).
  destruct (C284_fast_improvement ref Y Ys y Gs Hm R Ly HG) as (o & s & E1 & E2 & Es).
  destruct (C172_fast_hypervolume ref Y Ys Gs Hm R G0) as (o0 & v & E3 & E4 & Ev). assert (o0 = o) by congruence. subst o0.
  destruct (C172_fast_hypervolume ref Y (Ys ++ [[y]]) Gs Hm) as (o' & v' & E5 & E6 & Ev'); [|exact HG'|].
  { intros B [<-|HB]; [apply R; now left|]. apply in_app_or in HB as [HB|[<-|[]]]; [apply R; now right|]. intros p [<-|[]]. exact Ly. }
  exists o, o', v, v', s. repeat (split; [assumption|]). rewrite Es, Ev, Ev'. apply Qplus_comp; [|reflexivity].
  apply measure_same; auto; [now apply with_new|intros p Hp; apply SAME in Hp; destruct Hp as [<-|Hp]; auto|].
  intros z _. unfold dominated_by. split; intros (p & Hp & C); exists p; (split; [apply SAME, Hp|exact C]).
Qed.
Print Assumptions C284_fast_update.

(** Two objectives. *)
Theorem C284_fast_two_objectives :
  forall argsort r0 r1 Y Gs (y : vec), sorts argsort -> rectangular 2 Y -> length y = 2 -> grid_for Gs [r0; r1] (y :: Y) ->
    exists cs s, fast_partitioning_2d argsort [r0; r1] Y = Some cs /\ total_gain cs y = Some s /\
      (s == measure Gs [r0; r1] (y :: Y) - measure Gs [r0; r1] Y)%Q.
Proof. exact two_improve. Qed.
Print Assumptions C284_fast_two_objectives.

(** The binary partitioning with the default threshold, for every number of objectives, after construction and any further updates. *)
Theorem C284_binary_improvement :
  forall argsort argmax alpha ref Ys (y : vec) Gs, sorts argsort -> finds_max argmax -> (alpha <= 0)%Q ->
    (forall Y, In Y Ys -> rectangular (length ref) Y) -> Ys <> [] -> length y = length ref -> grid_for Gs ref (y :: concat Ys) ->
    exists d cs s, updates argsort argmax alpha ref Ys = Some d /\ bounds_of ref d = Some cs /\ total_gain cs y = Some s /\
      (s == measure Gs ref (y :: concat Ys) - measure Gs ref (concat Ys))%Q.
Proof.
  intros argsort argmax alpha ref Ys y Gs HS HM HA HR HN Ly HG. destruct (updates_good argsort argmax HS alpha ref Ys HR HN) as (d & E & (R1 & Y0 & R0 & IN & F & C & D) & EY).
  destruct (cells_of_spec argsort argmax HS HM alpha ref Y0 HA R0) as (cells & EC & PA & NB). rewrite EY in *.
  assert (G0 : grid_for Gs ref Y0) by (eapply grid_sub; [|exact HG]; intros p Hp; right; apply IN, Hp).
  assert (PA' : partitions (map (cell_bounds (neg_front argsort true ref Y0) ref) cells) ref (concat Ys)).
  { intros z SA. destruct (PA z SA) as [A B]. split; intros K; [apply A, (D z SA), K|apply B]. intros K'. apply K, (D z SA), K'. }
  destruct (improve ref (concat Ys) Gs y (with_new ref y _ R1 Ly) HG _ PA' NB) as (s & E1 & E2).
  - exact (index_bounds argsort argmax alpha ref Y0 Gs cells HS HM R0 G0 EC).
  - exists d, (map (cell_bounds (neg_front argsort true ref Y0) ref) cells), s. split; [exact E|]. split; [|auto]. unfold bounds_of. rewrite C, F, EC. reflexivity.
Qed.
Print Assumptions C284_binary_improvement.

(** Eight cells of one class and thirteen of the other: both find that the outcome adds 11 to the hypervolume of 26.  The grid contains
    all values. *)
Example C284_case :
  let Y := [[1#1; 5#1; 2#1]]%Q in let Ys := [[[4#1; 1#1; 2#1]; [-1#1; 1#1; 1#1]]; []; [[2#1; 3#1; 3#1]; [1#1; 5#1; 2#1]]]%Q in
  let y := [3; 4; 5#2]%Q in let ref := [0; 0; 0]%Q in let G := [-1; 0; 1; 2; 5#2; 3; 4; 5]%Q in
  grid_for [G; G; G] ref (y :: concat (Y :: Ys)) /\
  option_map (fun o => (length (f_cells o), option_map Qred (total_gain (f_cells o) y))) (fast_updates ref None (Y :: Ys)) = Some (8, Some 11%Q) /\
  option_map (fun d => option_map (fun cs => (length cs, option_map Qred (total_gain cs y))) (bounds_of ref d)) (updates argsort_stable first_max 0 ref (Y :: Ys)) = Some (Some (13, Some 11%Q)) /\
  Qred (measure [G; G; G] ref (y :: concat (Y :: Ys))) = 37%Q /\ Qred (measure [G; G; G] ref (concat (Y :: Ys))) = 26%Q.
Proof.
  cbv zeta. split; [|repeat split; vm_compute; reflexivity].
  split; [reflexivity|]. intros k G E.
  assert (HG : G = [-1; 0; 1; 2; 5#2; 3; 4; 5]%Q) by (destruct k as [|[|[|[|]]]]; simpl in E; congruence). assert (Hk := nth_error_lt _ _ _ E). simpl in Hk. clear E. subst G.
  split; [repeat (split; [reflexivity|]); exact I|].
  assert (V : forall v, In v [-1; 0; 1; 2; 5#2; 3; 4; 5]%Q -> on_line v [-1; 0; 1; 2; 5#2; 3; 4; 5]%Q) by (intros v Hv; exists v; split; [exact Hv|reflexivity]).
  split; [destruct k as [|[|[|]]]; [| | |lia]; apply V; simpl; tauto|].
  intros y Hy. simpl in Hy. destruct k as [|[|[|]]]; [| | |lia]; intuition (subst; simpl; apply V; simpl; tauto).
Qed.
(** An outcome that is dominated adds nothing, and two objectives. *)
Example C284_case_two :
  option_map (fun cs => (option_map Qred (total_gain cs [2; 2]%Q), option_map Qred (total_gain cs [1; 1]%Q), option_map Qred (total_gain cs [-1; 9]%Q)))
    (fast_partitioning_2d argsort_stable [0; 0]%Q [[1; 3]; [3; 1]]%Q) = Some (Some 1%Q, Some 0%Q, Some 0%Q).
Proof. vm_compute. reflexivity. Qed.
