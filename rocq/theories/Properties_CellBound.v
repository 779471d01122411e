(** Property C268: the hypervolume that the binary partitioning reports when it leaves small boxes out. *)
From Coq Require Import List Bool Arith ZArith QArith Lia Lqa.
From Verif Require Import Lib_List Model_Pareto Spec_Pareto Proofs_Pareto Model_Boxes Spec_Boxes Proofs_Boxes Proofs_BoxFront Proofs_BoxRuns Spec_HV Proofs_HVgrid
  Model_CellVolume Proofs_CellVolume Proofs_CellIndex Proofs_CellBound Properties_Boxes Properties_CellVolume.
Import ListNotations.
Open Scope nat_scope.

(** C268.  For every number of objectives, every reference point and every threshold (alpha, positive ones included), after construction
    and any further updates, the binary partitioning reports at least the measure of the region above the reference that the outcomes
    given so far dominate. *)
Theorem C268_at_least :
  forall argsort argmax alpha ref Ys Gs, sorts argsort -> finds_max argmax ->
    (forall Y, In Y Ys -> rectangular (length ref) Y) -> Ys <> [] -> grid_for Gs ref (concat Ys) ->
    exists d cells, updates argsort argmax alpha ref Ys = Some d /\ d_cells d = Some cells /\
      (measure Gs ref (concat Ys) <= index_hypervolume ref (d_front d) cells)%Q.
Proof.
  intros argsort argmax alpha ref Ys Gs HS HM HR HN HG. destruct (updates_good argsort argmax HS alpha ref Ys HR HN) as (d & E & (R1 & Y0 & R0 & IN & F & C & D) & EY).
  rewrite EY in *. assert (G0 := grid_sub _ _ _ _ IN HG).
  destruct (cells_of_bounds argsort argmax alpha ref Y0 Gs HS HM R0 G0) as (cells & EC & LO & _).
  exists d, cells. split; [exact E|]. split; [rewrite C, F; exact EC|]. rewrite F. eapply Qle_trans; [|exact LO]. apply Qle_lteq. right. symmetry. apply measure_same; auto.
Qed.
Print Assumptions C268_at_least.

(** ... and at most the volume between the reference and any point [u] that is at least as good in every objective as all the outcomes
    above the reference. *)
Theorem C268_at_most :
  forall argsort argmax alpha ref Ys, sorts argsort -> finds_max argmax ->
    (forall Y, In Y Ys -> rectangular (length ref) Y) -> Ys <> [] ->
    exists d cells, updates argsort argmax alpha ref Ys = Some d /\ d_cells d = Some cells /\
      forall u Gu, length u = length ref -> grid_for Gu ref [u] -> (forall y, In y (concat Ys) -> strictly_above ref y -> covers u y) ->
        (index_hypervolume ref (d_front d) cells <= measure Gu ref [u])%Q.
Proof.
  intros argsort argmax alpha ref Ys HS HM HR HN. destruct (grid_exists ref (concat Ys)) as (Gs & HG).
  destruct (updates_good argsort argmax HS alpha ref Ys HR HN) as (d & E & (R1 & Y0 & R0 & IN & F & C & D) & EY).
  rewrite EY in *. assert (G0 := grid_sub _ _ _ _ IN HG).
  destruct (cells_of_bounds argsort argmax alpha ref Y0 Gs HS HM R0 G0) as (cells & EC & _ & UP).
  exists d, cells. split; [exact E|]. split; [rewrite C, F; exact EC|]. rewrite F. intros u Gu Lu HGu CO. apply UP; auto.
Qed.
Print Assumptions C268_at_most.

(** Both bounds are strict in this case: the outcomes dominate a region of volume 26, a threshold of one fifth makes the class report 42
    and the point (4, 5, 3) spans a box of volume 60. *)
Example C268_case :
  let Ys := [[[1#1; 5#1; 2#1]]; [[4#1; 1#1; 2#1]; [-1#1; 1#1; 1#1]]; []; [[2#1; 3#1; 3#1]; [1#1; 5#1; 2#1]]]%Q in
  let G := [-1; 0; 1; 2; 3; 4; 5]%Q in
  map (fun alpha => option_map (fun d => option_map (fun c => Qred (index_hypervolume [0; 0; 0]%Q (d_front d) c)) (d_cells d)) (updates argsort_stable first_max alpha [0; 0; 0]%Q Ys)) [0; 1#5; 1]%Q = [Some (Some (26#1)); Some (Some (42#1)); Some (Some (60#1))]%Q /\
  Qred (measure [G; G; G] [0; 0; 0]%Q (concat Ys)) = (26#1)%Q /\ Qred (measure [G; G; G] [0; 0; 0]%Q [[4; 5; 3]%Q]) = (60#1)%Q.
Proof. vm_compute. repeat split; reflexivity. Qed.
