(** Lemmas about Model_Fast2.v. *)
From Coq Require Import Reals List Bool Arith ZArith QArith Qreals Lia Lqa.
From Verif Require Import Lib_List Model_Pareto Spec_Pareto Model_Boxes Spec_Boxes Proofs_Boxes Proofs_BoxFront Proofs_Box2D Proofs_BoxRuns Model_Lacour Proofs_LacourRuns Spec_HV Proofs_HVmeasure Proofs_HVgrid
  Model_CellVolume Proofs_CellVolume Proofs_CellClip Proofs_CellIndex Proofs_CellFast Spec_Improve Proofs_Improve Spec_Expect Proofs_Expect Proofs_ExpectCells Model_Fast2.
Import ListNotations.
Open Scope nat_scope.

Section Two.
  Variable argsort : list Q -> list nat.
  Hypothesis HS : sorts argsort.
  Variables r0 r1 : Q.
  Notation ref := [r0; r1].

  (** The cells were computed from some of the outcomes, which dominate the same points as all of them. *)
  Definition good2 (o : fast2) : Prop := rectangular 2 (g_Y o) /\
    exists Y0, rectangular 2 Y0 /\ incl Y0 (g_Y o) /\ g_front o = neg_front argsort true ref Y0 /\ fast_partitioning_2d argsort ref Y0 = Some (g_cells o) /\
      forall z, strictly_above ref z -> (dominated_by Y0 z <-> dominated_by (g_Y o) z).

  Lemma partition_eq Y : option_map g_cells (fast2_partition ref Y (neg_front argsort true ref Y)) = fast_partitioning_2d argsort ref Y.
  Proof. unfold fast2_partition, fast_partitioning_2d. destruct (neg_front argsort true ref Y) as [|p P]; [reflexivity|]. destruct (nd_cells_2d _ _); reflexivity. Qed.
  Lemma fresh2 Y : rectangular 2 Y -> exists o, fast2_partition ref Y (neg_front argsort true ref Y) = Some o /\ good2 o /\ g_Y o = Y.
  Proof.
    intros R. destruct (fast_2d argsort HS r0 r1 Y R) as (cs & E & _). assert (K := partition_eq Y). rewrite E in K.
    destruct (fast2_partition ref Y (neg_front argsort true ref Y)) as [o|] eqn:F; [|discriminate]. injection K as K. exists o. split; [reflexivity|].
    assert (GY : g_Y o = Y /\ g_front o = neg_front argsort true ref Y).
    { unfold fast2_partition in F. destruct (neg_front argsort true ref Y) as [|p P]; [injection F as <-; auto|]. destruct (nd_cells_2d _ _); [|discriminate]. injection F as <-. auto. }
    destruct GY as [GY GF]. split; [|exact GY]. split; [now rewrite GY|]. exists Y. split; [exact R|]. split; [rewrite GY; apply incl_refl|]. split; [exact GF|]. split; [congruence|]. intros z _. rewrite GY. reflexivity.
  Qed.
  Lemma update2 o Y : (forall d, o = Some d -> good2 d) -> rectangular 2 Y ->
    exists o', fast2_update argsort ref o Y = Some o' /\ good2 o' /\ g_Y o' = match o with Some d => g_Y d | None => [] end ++ Y.
  Proof.
    intros HO R. destruct o as [d|]; unfold fast2_update, fast2_reset; [|exact (fresh2 Y R)]. destruct (HO d eq_refl) as (R1 & Y0 & R0 & IN & F & C & D).
    assert (RR : rectangular 2 (g_Y d ++ Y)) by (intros p Hp; apply in_app_or in Hp; destruct Hp; [apply R1|apply R]; assumption).
    destruct (same_front _ _) eqn:E; [|exact (fresh2 _ RR)]. eexists. split; [reflexivity|]. split; [|reflexivity]. split; [exact RR|]. exists Y0. split; [exact R0|].
    split; [cbn [g_Y]; intros y Hy; apply in_or_app; left; apply IN, Hy|]. split; [exact F|]. split; [exact C|]. intros z Hz. cbn [g_Y]. rewrite F in E. exact (same_front_dominated argsort HS ref Y0 (g_Y d ++ Y) z R0 RR Hz E).
  Qed.
  Lemma updates2 Ys : forall d, good2 d -> (forall Y, In Y Ys -> rectangular 2 Y) -> exists o, fast2_updates argsort ref (Some d) Ys = Some o /\ good2 o /\ g_Y o = g_Y d ++ concat Ys.
  Proof.
    induction Ys as [|Y Ys IH]; intros d G H; [exists d; rewrite app_nil_r; auto|]. destruct (update2 (Some d) Y) as (o1 & E1 & G1 & Y1); [intros d' K; congruence|apply H; now left|].
    destruct (IH o1 G1) as (o & E & G2 & Y2); [intros B HB; apply H; now right|]. exists o. cbn [fast2_updates]. rewrite E1. split; [exact E|]. split; [exact G2|]. rewrite Y2, Y1. cbn [concat]. now rewrite app_assoc.
  Qed.
  Lemma history2 Y Ys : (forall B, In B (Y :: Ys) -> rectangular 2 B) -> exists o, fast2_updates argsort ref None (Y :: Ys) = Some o /\ good2 o /\ g_Y o = concat (Y :: Ys).
  Proof.
    intros H. destruct (update2 None Y) as (o1 & E1 & G1 & Y1); [discriminate|apply H; now left|]. destruct (updates2 Ys o1 G1) as (o & E & G2 & Y2); [intros B HB; apply H; now right|].
    exists o. cbn [fast2_updates]. rewrite E1. split; [exact E|]. split; [exact G2|]. rewrite Y2, Y1. reflexivity.
  Qed.

  Lemma good2_partitions o : good2 o -> partitions (g_cells o) ref (g_Y o) /\ nothing_below (g_cells o) ref.
  Proof.
    intros (R & Y0 & R0 & _ & _ & C & D). destruct (fast_2d argsort HS r0 r1 Y0 R0) as (cs & E & PA & NB). assert (cs = g_cells o) by congruence. subst cs. split; [|exact NB].
    intros z SA. destruct (PA z SA) as [A B]. split; intros K; [apply A, (D z SA), K|apply B]. intros K'. apply K, (D z SA), K'.
  Qed.
  Lemma good2_volume o Gs : good2 o -> grid_for Gs ref (g_Y o) -> exists v, fast2_hypervolume ref o = Some v /\ (v == measure Gs ref (g_Y o))%Q.
  Proof.
    intros (R & Y0 & R0 & IN & F & C & D) HG. assert (G0 := grid_sub _ _ _ _ IN HG). destruct (two_volume argsort r0 r1 Y0 Gs HS R0 G0) as (v & Ev & Hv). exists v. split.
    - unfold fast_hypervolume_2d in Ev. rewrite C in Ev. unfold fast2_hypervolume. rewrite F. exact Ev.
    - rewrite Hv. apply measure_same; auto.
  Qed.
  Lemma good2_improve o Gs (y : vec) : good2 o -> length y = 2 -> grid_for Gs ref (y :: g_Y o) ->
    exists s, total_gain (g_cells o) y = Some s /\ (s == measure Gs ref (y :: g_Y o) - measure Gs ref (g_Y o))%Q.
  Proof.
    intros G Ly HG. destruct (good2_partitions o G) as [PA NB]. destruct G as (R & Y0 & R0 & IN & F & C & D).
    apply (improve ref (g_Y o) Gs y (with_new ref y _ R Ly) HG (g_cells o) PA NB). apply (two_bounds argsort r0 r1 Y0 Gs (g_cells o) HS R0); [|exact C]. eapply grid_sub; [|exact HG]. intros v Hv. right. apply IN, Hv.
  Qed.
  Lemma good2_proper o big : good2 o -> below_cut big ref -> (forall y, In y (g_Y o) -> below_cut big y) -> forall c, In c (g_cells o) -> length (fst c) = 2 /\ proper_sides big (fst c) (snd c).
  Proof.
    intros (R & Y0 & R0 & IN & F & C & D) HC HY. apply (two_proper argsort r0 r1 Y0 (g_cells o) big HS R0 C HC). intros y Hy. apply HY, IN, Hy.
  Qed.
End Two.
