(** Property C287: the expected hypervolume improvement is positive as long as an improvement is possible. *)
From Coq Require Import Reals List Bool Arith ZArith QArith Qreals Lia Lra.
From Verif Require Import Lib_List Model_Pareto Spec_Pareto Proofs_Pareto Model_Boxes Spec_Boxes Proofs_Boxes Proofs_BoxFront Model_Lacour Proofs_LacourRuns
  Spec_Expect Proofs_Expect Proofs_ExpectCells Model_EHVI Properties_EHVI Proofs_ExpectPos Model_Fast2 Proofs_Fast2.
Import ListNotations.
Open Scope nat_scope.

(** C287.  Three or more objectives: if some outcome below the cut would improve on those given so far, the value is positive at every
    prediction, however bad. *)
Theorem C287_positive :
  forall ref Y Ys big pred z, 3 <= length ref -> (forall B, In B (Y :: Ys) -> rectangular (length ref) B) -> length pred = length ref ->
    below_cut big ref -> (forall y, In y (concat (Y :: Ys)) -> below_cut big y) ->
    below_cut big z -> strictly_above ref z -> ~ dominated_by (concat (Y :: Ys)) z ->
    exists o cells, fast_updates ref None (Y :: Ys) = Some o /\ real_cells (f_cells o) = Some cells /\ (0 < forward big cells pred)%R.
Proof.
  intros ref Y Ys big pred z Hm R Lp HC HY HZ SA ND. assert (Hm2 : 2 <= length ref) by lia.
  destruct (inv_reset ref Hm2 Y None) as (o1 & E1 & I1 & Y1); [apply R; now left|discriminate|].
  destruct (inv_updates ref Hm2 Ys o1 I1) as (o & E2 & I2 & Y2); [intros B HB; apply R; now right|].
  assert (EY : f_Y o = concat (Y :: Ys)) by (rewrite Y2, Y1; reflexivity).
  assert (PR := inv_proper ref o big Hm2 I2 HC ltac:(rewrite EY; exact HY)). destruct (real_cells_ok big (length ref) (f_cells o) pred PR Lp) as (cells & Ec & OK).
  exists o, cells. split; [cbn [fast_updates fast_update]; rewrite E1; exact E2|]. split; [exact Ec|].
  destruct (inv_partitions ref Hm2 o I2) as [PA _]. destruct (PA z SA) as [_ A]. rewrite EY in A. destruct (A ND) as (l & c & r & E & I & _).
  apply (forward_pos big (f_cells o) cells pred z c Ec OK); auto. rewrite E. apply in_app_iff. right. now left.
Qed.
Print Assumptions C287_positive.

(** Two objectives. *)
Theorem C287_positive_two_objectives :
  forall argsort r0 r1 Y Ys big pred z, sorts argsort -> (forall B, In B (Y :: Ys) -> rectangular 2 B) -> length pred = 2 ->
    below_cut big [r0; r1] -> (forall y, In y (concat (Y :: Ys)) -> below_cut big y) ->
    below_cut big z -> strictly_above [r0; r1] z -> ~ dominated_by (concat (Y :: Ys)) z ->
    exists o cells, fast2_updates argsort [r0; r1] None (Y :: Ys) = Some o /\ real_cells (g_cells o) = Some cells /\ (0 < forward big cells pred)%R.
Proof.
  intros argsort r0 r1 Y Ys big pred z HS R Lp HC HY HZ SA ND. destruct (history2 argsort HS r0 r1 Y Ys R) as (o & E & G & EY).
  destruct (real_cells_ok big 2 (g_cells o) pred) as (cells & Ec & OK); [apply (good2_proper argsort HS r0 r1 o big G HC); rewrite EY; exact HY|exact Lp|].
  exists o, cells. split; [exact E|]. split; [exact Ec|].
  destruct (good2_partitions argsort HS r0 r1 o G) as [PA _]. destruct (PA z SA) as [_ A]. rewrite EY in A. destruct (A ND) as (l & c & r & E' & I & _).
  apply (forward_pos big (g_cells o) cells pred z c Ec OK); auto. rewrite E'. apply in_app_iff. right. now left.
Qed.
Print Assumptions C287_positive_two_objectives.

(** The hypotheses hold for three outcomes and the improving outcome (2, 2, 2), with a cut at 100. *)
Example C287_case :
  let Y := [[1; 5; 2]; [4; 1; 2]; [-1; 1; 1]]%Q in
  rectangular 3 Y /\ below_cut 100 [0; 0; 0]%Q /\ (forall y, In y Y -> below_cut 100 y) /\ below_cut 100 [2; 2; 2]%Q /\ strictly_above [0; 0; 0]%Q [2; 2; 2]%Q /\ ~ dominated_by Y [2; 2; 2]%Q.
Proof.
  cbv zeta. assert (Z : forall n, (n <= 100)%Z -> (Q2R (inject_Z n) <= 100)%R) by (intros n Hn; unfold Q2R, inject_Z; cbn; rewrite Rinv_1, Rmult_1_r; now apply IZR_le).
  assert (B : forall n, (n <= 100)%Z -> (Q2R (n # 1) <= 100)%R) by exact Z.
  split; [intros y Hy; simpl in Hy; intuition (subst; reflexivity)|]. split; [intros q Hq; simpl in Hq; intuition (subst; apply B; lia)|].
  split; [intros y Hy q Hq; simpl in Hy; intuition (subst; simpl in Hq; intuition (subst; apply B; lia))|]. split; [intros q Hq; simpl in Hq; intuition (subst; apply B; lia)|].
  split; [repeat constructor|]. intros (y & Hy & C). simpl in Hy. destruct Hy as [<-|[<-|[<-|[]]]]; unfold covers in C; inversion C as [|? ? ? ? C1 C2]; subst; inversion C2 as [|? ? ? ? C3 C4]; subst.
  - apply Qle_bool_iff in C1. discriminate.
  - apply Qle_bool_iff in C3. discriminate.
  - apply Qle_bool_iff in C1. discriminate.
Qed.
