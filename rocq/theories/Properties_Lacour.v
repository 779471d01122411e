(** Properties C168, C169: the fast (local upper bound) decomposition of the non-dominated region, three and more objectives. *)
From Coq Require Import List Bool Arith ZArith QArith Lia Lqa.
From Verif Require Import Lib_List Model_Pareto Spec_Pareto Model_Boxes Spec_Boxes Model_Lacour Proofs_LacourRuns.
Import ListNotations.
Open Scope nat_scope.

(** C168.  For every reference point with three or more objectives and every set of outcomes (ties, duplicates, dominated outcomes
    and outcomes below the reference included), building the fast partitioning raises nothing, and its cells partition the points
    above the reference that no outcome dominates, and contain no other points. *)
Theorem C168_fast_partitioning :
  forall ref Y, 3 <= length ref -> rectangular (length ref) Y ->
    exists cells, fast_partitioning ref Y = Some cells /\ partitions cells ref Y /\ nothing_below cells ref.
Proof.
  intros ref Y Hm R. destruct (updates_spec ref ltac:(lia) Y [] R) as (o & E0 & _ & A & B); [intros ? []|].
  cbn [fast_updates concat] in *. rewrite app_nil_r in A. exists (f_cells o). unfold fast_partitioning.
  destruct (fast_update ref None Y) as [o'|]; [|discriminate]. injection E0 as <-. auto.
Qed.
Print Assumptions C168_fast_partitioning.

Example C168_case :
  let Y := [[1#1; 5#1; 2#1]; [4#1; 1#1; 2#1]; [2#1; 3#1; 3#1]; [1#1; 5#1; 2#1]; [1#1; 2#1; 1#1]; [9#1; 9#1; 0#1]]%Q in
  rectangular 3 Y /\ option_map (@length _) (fast_partitioning [0; 0; 0]%Q Y) = Some 8 /\
  strictly_above [0; 0; 0]%Q [3#1; 2#1; 1#1]%Q /\ dominated_by Y [2#1; 3#1; 2#1]%Q /\ strictly_above [0; 0; 0]%Q [2#1; 3#1; 2#1]%Q.
Proof.
  split; [intros p H; simpl in H; intuition (subst; reflexivity)|]. split; [vm_compute; reflexivity|].
  split; [repeat (apply Forall2_cons; [reflexivity|]); constructor|]. split; [|repeat (apply Forall2_cons; [reflexivity|]); constructor].
  exists [2#1; 3#1; 3#1]%Q. split; [simpl; auto|]. unfold covers. repeat (apply Forall2_cons; [discriminate|]). constructor.
Qed.

(** C169.  The same after the construction with a first batch and any number of further updates, each with any batch of outcomes
    (empty batches, repeated outcomes and batches below the reference included): the cells partition the region that none of the
    outcomes given so far dominates, although an update only inserts the new points into the bounds it has. *)
Theorem C169_incremental_updates :
  forall ref Y Ys, 3 <= length ref -> (forall B, In B (Y :: Ys) -> rectangular (length ref) B) ->
    exists o, fast_updates ref None (Y :: Ys) = Some o /\
      partitions (f_cells o) ref (concat (Y :: Ys)) /\ nothing_below (f_cells o) ref.
Proof.
  intros ref Y Ys Hm R. destruct (updates_spec ref ltac:(lia) Y Ys) as (o & E0 & _ & A & B).
  - apply R. now left.
  - intros B HB. apply R. now right.
  - exists o. auto.
Qed.
Print Assumptions C169_incremental_updates.

(** ... so an object that was updated and one built from all outcomes at once have cells that contain the same points. *)
Theorem C169_same_region_as_at_once :
  forall ref Y Ys z, 3 <= length ref -> (forall B, In B (Y :: Ys) -> rectangular (length ref) B) -> length z = length ref ->
    exists o cells, fast_updates ref None (Y :: Ys) = Some o /\ fast_partitioning ref (concat (Y :: Ys)) = Some cells /\
      (in_none z (f_cells o) <-> in_none z cells) /\ (in_exactly_one z (f_cells o) <-> in_exactly_one z cells).
Proof.
  intros ref Y Ys z Hm R Lz. destruct (C169_incremental_updates ref Y Ys Hm R) as (o & E1 & P1 & N1).
  destruct (C168_fast_partitioning ref (concat (Y :: Ys)) Hm) as (cells & E2 & P2 & N2).
  { intros y Hy. apply in_concat in Hy as (B & HB & Hy). apply (R B HB y Hy). }
  exists o, cells. split; [exact E1|]. split; [exact E2|].
  assert (X : forall c, in_none z c -> in_exactly_one z c -> False).
  { intros c Hn (l & b & r & -> & I & _). apply (Hn b); [apply in_app_iff; simpl; auto|exact I]. }
  assert (SD : strictly_above ref z \/ ~ strictly_above ref z).
  { revert Lz. clear. unfold strictly_above. revert z. induction ref as [|r ref IH]; intros [|a z] Lz; simpl in Lz; try lia; [left; constructor|].
    destruct (Qlt_le_dec r a) as [A|A]; [|right; intros K; inversion K; subst; lra]. destruct (IH z) as [B|B]; [lia|left; constructor; auto|right; intros K; inversion K; subst; auto]. }
  destruct SD as [SA|NS].
  - assert (DD : dominated_by (concat (Y :: Ys)) z \/ ~ dominated_by (concat (Y :: Ys)) z).
    { assert (CD : forall y, covers y z \/ ~ covers y z).
      { clear. unfold covers. induction z as [|a z IH]; intros [|b y]; try (right; intros K; inversion K; fail); [left; constructor|].
        destruct (Qlt_le_dec b a) as [A|A]; [right; intros K; inversion K; subst; lra|]. destruct (IH y) as [B|B]; [left; constructor; auto|right; intros K; inversion K; subst; auto]. }
      generalize (concat (Y :: Ys)). intros l. induction l as [|y l [(w & I & K)|IH]]; [right; intros (w & [] & _)|left; exists w; split; [now right|exact K]|].
      destruct (CD y) as [K|K]; [left; exists y; split; [now left|exact K]|]. right. intros (w & [<-|I] & K'); [auto|]. apply IH. exists w. auto. }
    destruct (P1 z SA) as [A1 A2]. destruct (P2 z SA) as [B1 B2]. destruct DD as [D|D].
    + specialize (A1 D). specialize (B1 D). split; split; intros K; auto; exfalso; eauto.
    + specialize (A2 D). specialize (B2 D). split; split; intros K; auto; exfalso; eauto.
  - specialize (N1 z Lz NS). specialize (N2 z Lz NS). split; split; intros K; auto; exfalso; eauto.
Qed.
Print Assumptions C169_same_region_as_at_once.

Example C169_case :
  let Y := [[1#1; 5#1; 2#1]]%Q in let Ys := [[[4#1; 1#1; 2#1]; [-1#1; 1#1; 1#1]]; []; [[2#1; 3#1; 3#1]; [1#1; 5#1; 2#1]]]%Q in
  (forall B, In B (Y :: Ys) -> rectangular 3 B) /\ option_map (fun o => length (f_cells o)) (fast_updates [0; 0; 0]%Q None (Y :: Ys)) = Some 8.
Proof.
  split; [intros B H p Hp; simpl in H; intuition (subst; simpl in Hp; intuition (subst; reflexivity))|vm_compute; reflexivity].
Qed.
