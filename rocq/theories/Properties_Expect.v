(** Property C285: the expected hypervolume improvement is the expectation of the improvement of the hypervolume. *)
From Coq Require Import Reals List Bool Arith ZArith QArith Qreals Lia Lra.
From Verif Require Import Lib_List Model_Pareto Spec_Pareto Proofs_Pareto Model_Boxes Spec_Boxes Proofs_Boxes Proofs_BoxFront Proofs_Box2D Proofs_BoxRuns Model_Lacour Proofs_LacourRuns Spec_HV Proofs_HVgrid
  Model_CellVolume Proofs_CellVolume Proofs_CellClip Proofs_CellIndex Proofs_CellFast Spec_Improve Proofs_Improve Properties_CellVolume Properties_Improve
  Spec_Expect Proofs_Expect Proofs_ExpectCells Model_EHVI Properties_EHVI.
Import ListNotations.
Open Scope nat_scope.

(** C285.  Three or more objectives: for every history of outcomes whose values, like those of the reference point, do not exceed the
    cut [big], and for every prediction, the acquisition function returns the expectation, over independent normal outcomes with the
    predicted means and deviations (variances below 1e-9 are raised to it), of a function of the outcome that is
    - at every outcome up to the cut, the increase of the hypervolume reported by the object when it is updated with the outcome;
    - never negative, and larger for larger outcomes. *)
Theorem C285_expected_improvement :
  forall ref Y Ys big pred, 3 <= length ref -> (forall B, In B (Y :: Ys) -> rectangular (length ref) B) -> length pred = length ref ->
    below_cut big ref -> (forall y, In y (concat (Y :: Ys)) -> below_cut big y) ->
    exists o v cells, fast_updates ref None (Y :: Ys) = Some o /\ fast_hypervolume ref o = Some v /\ real_cells (f_cells o) = Some cells /\
      expectation (map (fun p => (fst p, sqrt (Rmax (snd p) (/ 1000000000)))) pred) (covered_total big cells) (forward big cells pred) /\
      (forall y : vec, length y = length ref -> below_cut big y ->
         exists o' v', fast_updates ref None ((Y :: Ys) ++ [[y]]) = Some o' /\ fast_hypervolume ref o' = Some v' /\ covered_total big cells (map Q2R y) = Q2R (v' - v)) /\
      (forall ys ys', Forall2 Rle ys ys' -> (0 <= covered_total big cells ys <= covered_total big cells ys')%R).
Proof.
  intros ref Y Ys big pred Hm R Lp HC HY. assert (Hm2 : 2 <= length ref) by lia. destruct (grid_exists ref (concat (Y :: Ys))) as (Gs & HG).
  destruct (C172_fast_hypervolume ref Y Ys Gs Hm R HG) as (o & v & E & Ev & _).
  destruct (inv_reset ref Hm2 Y None) as (o1 & E1 & I1 & Y1); [apply R; now left|discriminate|].
  destruct (inv_updates ref Hm2 Ys o1 I1) as (o2 & E2 & I2 & Y2); [intros B HB; apply R; now right|].
  assert (EY : f_Y o2 = concat (Y :: Ys)) by (rewrite Y2, Y1; reflexivity).
  assert (o2 = o) by (cbn [fast_updates fast_update] in E; rewrite E1 in E; congruence). subst o2.
  assert (PR := inv_proper ref o big Hm2 I2 HC ltac:(rewrite EY; exact HY)).
  destruct (real_cells_ok big (length ref) (f_cells o) pred PR Lp) as (cells & Ec & OK).
  exists o, v, cells. split; [exact E|]. split; [exact Ev|]. split; [exact Ec|]. split; [exact (forward_expectation big cells pred OK)|]. split.
  - intros y Ly Cy. destruct (C284_fast_update ref Y Ys y Hm R Ly) as (oo & o' & w & v' & s & F1 & F2 & F3 & F4 & F5 & F6).
    assert (oo = o) by congruence. subst oo. assert (w = v) by congruence. subst w. exists o', v'. split; [exact F3|]. split; [exact F4|].
    rewrite (rational_total big (f_cells o) y cells s Ec F5 Cy). apply Qeq_eqR, F6.
  - intros ys ys' H. now apply total_mono.
Qed.
Print Assumptions C285_expected_improvement.

(** Two objectives. *)
Theorem C285_two_objectives :
  forall argsort r0 r1 Y big pred, sorts argsort -> rectangular 2 Y -> length pred = 2 ->
    below_cut big [r0; r1] -> (forall y, In y Y -> below_cut big y) ->
    exists cs v cells, fast_partitioning_2d argsort [r0; r1] Y = Some cs /\ fast_hypervolume_2d argsort [r0; r1] Y = Some v /\ real_cells cs = Some cells /\
      expectation (map (fun p => (fst p, sqrt (Rmax (snd p) (/ 1000000000)))) pred) (covered_total big cells) (forward big cells pred) /\
      (forall y : vec, length y = 2 -> below_cut big y ->
         exists v', fast_hypervolume_2d argsort [r0; r1] (y :: Y) = Some v' /\ covered_total big cells (map Q2R y) = Q2R (v' - v)) /\
      (forall ys ys', Forall2 Rle ys ys' -> (0 <= covered_total big cells ys <= covered_total big cells ys')%R).
Proof.
  intros argsort r0 r1 Y big pred HS HR Lp HC HY. destruct (grid_exists [r0; r1] Y) as (Gs & HG). destruct (fast_2d argsort HS r0 r1 Y HR) as (cs & E & _).
  destruct (C172_fast_two_objectives argsort r0 r1 Y Gs HS HR HG) as (v & Ev & _).
  destruct (real_cells_ok big 2 cs pred (two_proper argsort r0 r1 Y cs big HS HR E HC HY) Lp) as (cells & Ec & OK).
  exists cs, v, cells. split; [exact E|]. split; [exact Ev|]. split; [exact Ec|]. split; [exact (forward_expectation big cells pred OK)|]. split.
  - intros y Ly Cy. destruct (grid_exists [r0; r1] (y :: Y)) as (Gy & HGy). destruct (C284_fast_two_objectives argsort r0 r1 Y Gy y HS HR Ly HGy) as (cs' & s & F1 & F2 & F3).
    assert (cs' = cs) by congruence. subst cs'. assert (G0 : grid_for Gy [r0; r1] Y) by (eapply grid_sub; [|exact HGy]; intros p Hp; now right).
    destruct (C172_fast_two_objectives argsort r0 r1 Y Gy HS HR G0) as (w & Ew & Hw). assert (w = v) by congruence. subst w.
    destruct (C172_fast_two_objectives argsort r0 r1 (y :: Y) Gy HS (with_new [r0; r1] y Y HR Ly) HGy) as (v' & Ev' & Hv').
    exists v'. split; [exact Ev'|]. rewrite (rational_total big cs y cells s Ec F2 Cy). apply Qeq_eqR. rewrite F3, Hw, Hv'. reflexivity.
  - intros ys ys' H. now apply total_mono.
Qed.
Print Assumptions C285_two_objectives.

(** A function has at most one expectation. *)
Theorem C285_expectations_are_unique : forall outcomes f v w, expectation outcomes f v -> expectation outcomes f w -> v = w.
Proof. exact expectation_unique. Qed.
Print Assumptions C285_expectations_are_unique.

(** Two outcomes: the three cells, what an outcome adds, and the hypotheses. *)
Example C285_case :
  rectangular 2 [[1; 3]; [3; 1]]%Q /\ below_cut 100 [0; 0]%Q /\ (forall y, In y [[1; 3]; [3; 1]]%Q -> below_cut 100 y) /\
  exists cells, real_cells [([Val 0; Val 3], [Val 1; PInf]); ([Val 1; Val 1], [Val 3; PInf]); ([Val 3; Val 0], [PInf; PInf])]%Q = Some cells /\
    option_map (map (fun c => (map (fun e => match e with Val q => Val (Qred q) | e => e end) (fst c), map (fun e => match e with Val q => Val (Qred q) | e => e end) (snd c)))) (fast_partitioning_2d argsort_stable [0; 0]%Q [[1; 3]; [3; 1]]%Q) =
      Some [([Val 0; Val 3], [Val 1; PInf]); ([Val 1; Val 1], [Val 3; PInf]); ([Val 3; Val 0], [PInf; PInf])]%Q /\
    covered_total 100 cells [2; 2]%R = 1%R.
Proof.
  assert (Z : forall n, Q2R (inject_Z n) = IZR n) by (intros n; unfold Q2R, inject_Z; cbn; field).
  assert (Z0 : Q2R 0 = 0%R) by exact (Z 0%Z). assert (Z1 : Q2R 1 = 1%R) by exact (Z 1%Z). assert (Z3 : Q2R 3 = 3%R) by exact (Z 3%Z).
  split; [intros y [<-|[<-|[]]]; reflexivity|]. split; [intros q [<-|[<-|[]]]; lra|]. split; [intros y [<-|[<-|[]]] q [<-|[<-|[]]]; lra|].
  eexists. split; [reflexivity|]. split; [vm_compute; reflexivity|]. cbn. rewrite Z0, Z1, Z3.
  rewrite (Rmin_left 1 100), (Rmin_left 3 100), (Rmin_left 2 100), (Rmin_right 2 1), (Rmin_left 2 3) by lra.
  rewrite (Rmax_right 0 (1 - 0)), (Rmax_left 0 (2 - 3)), (Rmax_right 0 (2 - 1)), (Rmax_right 0 (2 - 0)) by lra. lra.
Qed.
