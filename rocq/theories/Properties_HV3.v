(** Properties C145, C146: the hypervolume indicator for up to three objectives. *)
From Coq Require Import List Bool Arith ZArith QArith Permutation Lia Lqa Setoid.
From Verif Require Import Lib_List Model_Pareto Spec_Pareto Model_HV Spec_HV Proofs_HVgrid Proofs_HVinit.
Import ListNotations.
Open Scope nat_scope.

(** C145: for one, two or three objectives and any points (dominated, duplicate, tied, or not
    better than the reference point; any number of them, in any order), the call returns, and the
    value is the measure of the union of the boxes between the reference point and the points. *)
Theorem C145_exact : forall ref Y Gs, 1 <= length ref <= 3 -> rectangular (length ref) Y -> grid_for Gs ref Y ->
  exists v, hypervolume ref Y = Some v /\ (v == measure Gs ref Y)%Q.
Proof. exact hypervolume_ok. Qed.
Print Assumptions C145_exact.

(** Every input has such a grid, so the theorem speaks about all inputs. *)
Theorem C145_grids_exist : forall ref Y, exists Gs, grid_for Gs ref Y.
Proof. exact grid_exists. Qed.
Print Assumptions C145_grids_exist.

(** C146: the value depends on the points alone: it does not decrease when every point is replaced
    by one at least as good and points are added, in whatever order they are given. *)
Theorem C146_monotone : forall ref Y Y' v v', 1 <= length ref <= 3 ->
  rectangular (length ref) Y -> rectangular (length ref) Y' ->
  (forall y, In y Y -> exists y', In y' Y' /\ weakly_better y y') ->
  hypervolume ref Y = Some v -> hypervolume ref Y' = Some v' -> (v <= v')%Q.
Proof.
  intros ref Y Y' v v' Hm R R' H E E'. destruct (grid_exists ref (Y ++ Y')) as [Gs [G1 G2]].
  assert (HG : grid_for Gs ref Y) by (split; [exact G1|]; intros k G EG; destruct (G2 k G EG) as [A [B C]]; split; [exact A|split; [exact B|intros y Hy; apply C, in_or_app; now left]]).
  assert (HG' : grid_for Gs ref Y') by (split; [exact G1|]; intros k G EG; destruct (G2 k G EG) as [A [B C]]; split; [exact A|split; [exact B|intros y Hy; apply C, in_or_app; now right]]).
  destruct (hypervolume_ok ref Y Gs Hm R HG) as [w [F W]]. destruct (hypervolume_ok ref Y' Gs Hm R' HG') as [w' [F' W']].
  assert (w = v) by congruence. assert (w' = v') by congruence. subst. rewrite W, W'.
  apply measure_mono; [intros G IG; apply In_nth_error in IG; destruct IG as [k Ek]; exact (proj1 (G2 k G Ek))|].
  intros y c Hy _ B. destruct (H y Hy) as [y' [I' D]]. exists y'. split; [exact I'|]. exact (between_mono ref y y' c D B).
Qed.
Print Assumptions C146_monotone.

Lemma weakly_refl y : weakly_better y y.
Proof. induction y; constructor; [apply Qle_refl|assumption]. Qed.
Theorem C146_order : forall ref Y Y' v v', 1 <= length ref <= 3 -> rectangular (length ref) Y -> Permutation Y Y' ->
  hypervolume ref Y = Some v -> hypervolume ref Y' = Some v' -> (v == v')%Q.
Proof.
  intros ref Y Y' v v' Hm R P E E'.
  assert (R' : rectangular (length ref) Y') by (intros p Hp; apply R; exact (Permutation_in p (Permutation_sym P) Hp)).
  apply Qle_antisym; [apply (C146_monotone ref Y Y')|apply (C146_monotone ref Y' Y)]; auto; intros y Hy; exists y;
    (split; [|apply weakly_refl]); [exact (Permutation_in y P Hy)|exact (Permutation_in y (Permutation_sym P) Hy)].
Qed.
Print Assumptions C146_order.
Theorem C146_dominated_points : forall ref Y y y' v v', 1 <= length ref <= 3 -> rectangular (length ref) (y :: Y) ->
  In y' Y -> weakly_better y y' -> hypervolume ref (y :: Y) = Some v -> hypervolume ref Y = Some v' -> (v == v')%Q.
Proof.
  intros ref Y y y' v v' Hm R I D E E'.
  assert (R' : rectangular (length ref) Y) by (intros p Hp; apply R; now right).
  apply Qle_antisym; [apply (C146_monotone ref (y :: Y) Y)|apply (C146_monotone ref Y (y :: Y))]; auto.
  - intros z [<-|Hz]; [exists y'; auto|exists z; split; [exact Hz|apply weakly_refl]].
  - intros z Hz. exists z. split; [now right|apply weakly_refl].
Qed.
Print Assumptions C146_dominated_points.

(** Three objectives, ties, a duplicate, a dominated point and one below the reference point. *)
Example C145_example :
  let ref := [0; 0; 1]%Q in let Y := [[2; 1; 3]; [1; 2; 3]; [1; 1; 4]; [2; 1; 3]; [1; 1; 2]; [5; 5; 0]]%Q in
  let Gs := [[0; 1; 2; 5]; [0; 1; 2; 5]; [0; 1; 2; 3; 4]]%Q in
  rectangular (length ref) Y /\ grid_for Gs ref Y /\ hypervolume ref Y = Some 7%Q /\ (measure Gs ref Y == 7)%Q.
Proof.
  split; [intros p H; simpl in H; intuition (subst; reflexivity)|]. split; [|split; vm_compute; reflexivity].
  split; [reflexivity|]. intros k G H. assert (L : k < 3) by (pose proof (nth_error_lt _ _ _ H) as L; exact L).
  destruct k as [|[|[|k]]]; [..|lia]; simpl in H; injection H as <-;
    (split; [repeat split; reflexivity|split; [|intros y Hy; simpl in Hy; destruct Hy as [<-|[<-|[<-|[<-|[<-|[<-|[]]]]]]]]]);
    match goal with |- on_line ?v ?G => let v' := eval vm_compute in v in exists v' end; (split; [simpl; tauto|reflexivity]).
Qed.
