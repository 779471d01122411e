(** Lemmas: the cells of the fast decompositions have real bounds in the right order. *)
From Coq Require Import Reals List Bool Arith ZArith QArith Qreals Lia Lqa.
From Verif Require Import Lib_List Model_Pareto Spec_Pareto Model_Boxes Spec_Boxes Proofs_Boxes Proofs_BoxFront Proofs_Box2D Proofs_BoxRuns Model_Lacour Proofs_LacourRuns Spec_HV Proofs_HVmeasure Proofs_HVgrid
  Model_CellVolume Proofs_CellVolume Proofs_CellClip Proofs_CellIndex Proofs_CellFast Spec_Improve Proofs_Improve Spec_Expect Proofs_Expect.
Import ListNotations.
Open Scope nat_scope.

Lemma cut_nth big v j : below_cut big v -> j < length v -> (Q2R (nth j v 0%Q) <= big)%R.
Proof. intros H Hj. apply H, nth_In, Hj. Qed.
Lemma proper_nth big lo hi : length lo = length hi ->
  (forall j, j < length lo -> exists q, nth j lo NInf = Val q /\ (Q2R q <= big)%R /\ (nth j hi NInf = PInf \/ exists r, nth j hi NInf = Val r /\ (q <= r)%Q)) -> proper_sides big lo hi.
Proof. intros L H. unfold proper_sides. apply (F2_nth _ NInf NInf); auto. Qed.

Lemma inv_proper ref o big : 2 <= length ref -> Inv ref o -> below_cut big ref -> (forall y, In y (f_Y o) -> below_cut big y) ->
  forall c, In c (f_cells o) -> length (fst c) = length ref /\ proper_sides big (fst c) (snd c).
Proof.
  intros Hm (R & F & C & [[E0 ->]|(NP & N & L & _ & Z1 & FN & _ & Z2)]) HC HY.
  - intros c [<-|[]]. cbn [fst snd]. split; [apply map_length|]. apply proper_nth; [now rewrite map_length, repeat_length|]. rewrite map_length. intros j Hj. exists (nth j ref 0%Q). split; [now apply val_nth|].
    split; [now apply cut_nth|]. left. now apply nth_repeat'.
  - destruct (two_passes ref Hm N (from_under ref Hm _ _ FN)) as (L' & cells & A1 & A2 & _ & OV & _). assert (L' = L) by congruence. subst L'. assert (cells = f_cells o) by congruence. subst cells.
    assert (CUT : forall j v, j < length ref -> from_values ref N j (Val v) -> (Q2R v <= big)%R).
    { intros j v Hj [K|(w & K & [E|(p & Hp & E)])]; [discriminate| |]; injection K as <-.
      - rewrite (Qeq_eqR v (nth j ref 0%Q)) by lra. now apply cut_nth.
      - destruct (FN p Hp) as (y & Hy & _ & ->). assert (Ly := R y Hy). rewrite (opp_at' y (length ref)) in E by auto. rewrite (Qeq_eqR v (nth j y 0%Q)) by lra. apply cut_nth; [now apply HY|lia]. }
    intros c Hc. destruct (OV c Hc) as (L1 & L2 & O). split; [exact L1|]. apply proper_nth; [congruence|]. rewrite L1. intros j Hj. destruct (O j Hj) as [O1 O2].
    assert (LE : eleb (nth j (snd c) NInf) (nth j (fst c) NInf) = false).
    { unfold second_cells in Z2. destruct (update_bounds _ _ _ _ _ _) as [L2'|]; [|discriminate]. injection Z2 as Z2. rewrite <- Z2 in Hc. unfold partition_bounds in Hc. apply filter_In in Hc as [_ Hc].
      apply negb_true_iff in Hc. destruct (eleb _ _) eqn:E; [|reflexivity]. rewrite <- Hc. symmetry. apply existsb_exists. exists j. split; [apply in_seq; lia|]. exact E. }
    destruct (nth j (fst c) NInf) as [|q|] eqn:EL.
    + destruct O1 as [K|(v & K & _)]; discriminate.
    + exists q. split; [reflexivity|]. split; [exact (CUT j q Hj O1)|]. destruct (nth j (snd c) NInf) as [|r|] eqn:EU; [destruct O2 as [K|(v & K & _)]; discriminate| |now left]. right. exists r. split; [reflexivity|].
      cbn in LE. apply Qle_bool_false in LE. lra.
    + destruct (nth j (snd c) NInf); discriminate.
Qed.

Fixpoint chain (l : Q) (ps : list (Q * Q)) : Prop := match ps with [] => True | p :: ps => (l <= fst p)%Q /\ chain (fst p) ps end.
Lemma chain_snoc x ps : forall l, chain l ps -> (l <= fst x)%Q -> (forall p, In p ps -> (fst p <= fst x)%Q) -> chain l (ps ++ [x]).
Proof.
  induction ps as [|p ps IH]; intros l C H H'; cbn [app chain] in *; [auto|]. destruct C as [C1 C2]. split; [exact C1|]. apply IH; auto; [apply H'; now left|]. intros q Hq. apply H'. now right.
Qed.
Lemma stairs_chain ps : forall l r1 c, chain l ps -> In c (stairs l ps r1) -> exists a b u, c = ([Val a; Val b], [u; PInf]) /\ (u = PInf \/ exists r, u = Val r /\ (a <= r)%Q).
Proof.
  induction ps as [|p ps IH]; intros l r1 c C; cbn [stairs].
  - intros [<-|[]]. exists l, r1, PInf. auto.
  - destruct C as [C1 C2]. intros [<-|H]; [|exact (IH _ _ _ C2 H)]. exists l, (snd p), (Val (fst p)). split; [reflexivity|]. right. eauto.
Qed.
Lemma front_chain r0 (P : list vec) : (forall i j p q, i < j -> nth_error P i = Some p -> nth_error P j = Some q -> (nth 0 p 0 <= nth 0 q 0)%Q) -> (forall p, In p P -> (r0 <= - nth 0 p 0)%Q) ->
  chain r0 (rev (map (fun p => ((- nth 0 p 0)%Q, (- nth 1 p 0)%Q)) P)).
Proof.
  induction P as [|p P IH]; intros H B; cbn [map rev]; [exact I|]. apply chain_snoc.
  - apply IH; [|intros q Hq; apply B; now right]. intros i j q r L E1 E2. exact (H (S i) (S j) q r ltac:(lia) E1 E2).
  - apply B. now left.
  - intros x Hx. apply in_rev in Hx. apply in_map_iff in Hx as (q & <- & Hq). cbn [fst]. apply In_nth_error in Hq as (k & Ek). assert (K := H 0 (S k) p q ltac:(lia) eq_refl Ek). lra.
Qed.
Lemma two_proper argsort r0 r1 Y cs big : sorts argsort -> rectangular 2 Y -> fast_partitioning_2d argsort [r0; r1] Y = Some cs -> below_cut big [r0; r1] -> (forall y, In y Y -> below_cut big y) ->
  forall c, In c cs -> length (fst c) = 2 /\ proper_sides big (fst c) (snd c).
Proof.
  intros HS HR E HC HY. destruct (sorted_front argsort HS [r0; r1] Y HR) as [FO RE]. assert (HR' : rectangular (length [r0; r1]) Y) by exact HR.
  assert (C0 : (Q2R r0 <= big)%R) by (apply HC; now left). assert (C1 : (Q2R r1 <= big)%R) by (apply HC; right; now left).
  unfold fast_partitioning_2d in E. destruct (neg_front argsort true [r0; r1] Y) as [|p0 P0] eqn:EP.
  - injection E as <-. intros c [<-|[]]. split; [reflexivity|]. cbn [map fst snd]. unfold proper_sides. repeat apply Forall2_cons; try apply Forall2_nil; eexists; split; try reflexivity; auto.
  - rewrite nd_cells_stairs in E by (simpl; intros K; apply app_eq_nil in K; destruct K; discriminate). cbn [fst snd nth] in E. injection E as E. rewrite <- EP in *.
    assert (PT : forall q, In q (rev (map (fun p => ((- nth 0 p 0)%Q, (- nth 1 p 0)%Q)) (neg_front argsort true [r0; r1] Y))) -> (Q2R (fst q) <= big /\ Q2R (snd q) <= big)%R).
    { intros q Hq. apply in_rev in Hq. apply in_map_iff in Hq as (p & <- & Hp). cbn [fst snd]. destruct (FO p Hp) as (y & Hy & _ & ->). assert (Ly := HR y Hy). rewrite !(opp_at' y 2) by (auto; lia).
      rewrite (Qeq_eqR (- - nth 0 y 0)%Q (nth 0 y 0%Q)), (Qeq_eqR (- - nth 1 y 0)%Q (nth 1 y 0%Q)) by lra. split; apply cut_nth; auto; lia. }
    assert (CH : chain r0 (rev (map (fun p => ((- nth 0 p 0)%Q, (- nth 1 p 0)%Q)) (neg_front argsort true [r0; r1] Y)))).
    { apply front_chain.
      - intros i j p q L E1 E2. exact (front_sorted_0 argsort HS r0 r1 Y HR i j p q ltac:(lia) E1 E2).
      - intros p Hp. assert (K := front_under [r0; r1] Y _ HR' FO p 0 Hp ltac:(simpl; lia)). cbn [nth] in K. lra. }
    intros c Hc. rewrite <- E in Hc. change (rev (map (fun p => ((- nth 0 p 0)%Q, (- nth 1 p 0)%Q)) P0) ++ [((- nth 0 p0 0)%Q, (- nth 1 p0 0)%Q)]) with (rev (map (fun p => ((- nth 0 p 0)%Q, (- nth 1 p 0)%Q)) (p0 :: P0))) in Hc.
    rewrite <- EP in Hc. destruct (stairs_chain _ _ _ _ CH Hc) as (a' & b' & u' & Ec & U'). destruct (stairs_values _ _ _ _ Hc) as (a & b & u & -> & A & B & U).
    injection Ec as <- <- <-. split; [reflexivity|]. cbn [fst snd]. unfold proper_sides. repeat apply Forall2_cons; try apply Forall2_nil; eexists; (split; [reflexivity|]); (split; [|auto]).
    + destruct A as [->|(q & Hq & ->)]; [exact C0|apply PT, Hq].
    + destruct B as [->|(q & Hq & ->)]; [exact C1|apply PT, Hq].
Qed.
