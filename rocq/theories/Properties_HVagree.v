(** * The three computations of the hypervolume agree: C240 *)
From Coq Require Import List Bool Arith ZArith QArith Lia Lqa.
From Verif Require Import Lib_List Model_Pareto Spec_Pareto Proofs_Pareto Model_Boxes Spec_Boxes Proofs_Boxes Model_Lacour Model_HV Spec_HV Proofs_HVgrid Spec_HVmany
  Model_CellVolume Properties_Boxes Properties_CellVolume Properties_HV3 Properties_HVmany.
Import ListNotations.
Open Scope nat_scope.

(** For two or three objectives: Hypervolume(ref).compute(Y), and NondominatedPartitioning(ref, .).compute_hypervolume() after the
    outcomes Y have been given in any batches. *)
Theorem C240_binary_partial : forall argsort argmax alpha ref Ys, sorts argsort -> finds_max argmax -> (alpha <= 0)%Q -> 1 <= length ref <= 3 ->
  (forall Y, In Y Ys -> rectangular (length ref) Y) -> Ys <> [] ->
  exists v d cells, hypervolume ref (concat Ys) = Some v /\ updates argsort argmax alpha ref Ys = Some d /\ d_cells d = Some cells /\
    (v == index_hypervolume ref (d_front d) cells)%Q.
Proof.
  intros argsort argmax alpha ref Ys HS HM HA Hm R HN. destruct (grid_exists ref (concat Ys)) as (Gs & HG).
  assert (RC : rectangular (length ref) (concat Ys)) by (intros p Hp; apply in_concat in Hp as (B & HB & Hp); exact (R B HB p Hp)).
  destruct (C145_exact ref (concat Ys) Gs Hm RC HG) as (v & E & Ev).
  destruct (C173_binary_hypervolume argsort argmax alpha ref Ys Gs HS HM HA R HN HG) as (d & cells & E3 & E4 & Ed).
  exists v, d, cells. repeat (split; [assumption|]). rewrite Ev, Ed. reflexivity.
Qed.
Print Assumptions C240_binary_partial.

(** With any number of objectives for separated points inside the reference point; then both partitionings. *)
Theorem C240_separated_partial : forall argsort argmax alpha ref Y Ys, sorts argsort -> finds_max argmax -> (alpha <= 0)%Q -> 3 <= length ref ->
  (forall B, In B (Y :: Ys) -> rectangular (length ref) B) -> Spec_HVmany.inside ref (concat (Y :: Ys)) -> separated (Spec_HVmany.above ref (concat (Y :: Ys))) ->
  exists v o w d cells, hypervolume ref (concat (Y :: Ys)) = Some v /\ fast_updates ref None (Y :: Ys) = Some o /\ fast_hypervolume ref o = Some w /\
    updates argsort argmax alpha ref (Y :: Ys) = Some d /\ d_cells d = Some cells /\
    (v == w)%Q /\ (v == index_hypervolume ref (d_front d) cells)%Q.
Proof.
  intros argsort argmax alpha ref Y Ys HS HM HA Hm R HI SE. destruct (grid_exists ref (concat (Y :: Ys))) as (Gs & HG).
  assert (RC : rectangular (length ref) (concat (Y :: Ys))) by (intros p Hp; apply in_concat in Hp as (B & HB & Hp); exact (R B HB p Hp)).
  destruct (C220_exact ref (concat (Y :: Ys)) Gs ltac:(lia) RC HG HI SE) as (v & E & Ev).
  destruct (C172_fast_hypervolume ref Y Ys Gs Hm R HG) as (o & w & E1 & E2 & Ew).
  destruct (C173_binary_hypervolume argsort argmax alpha ref (Y :: Ys) Gs HS HM HA R) as (d & cells & E3 & E4 & Ed); [discriminate|exact HG|].
  exists v, o, w, d, cells. repeat (split; [assumption|]). split; [rewrite Ev, Ew; reflexivity|rewrite Ev, Ed; reflexivity].
Qed.
Print Assumptions C240_separated_partial.

(** For two objectives, all three. *)
Theorem C240_two_partial : forall argsort r0 r1 Y, sorts argsort -> rectangular 2 Y ->
  exists v w, hypervolume [r0; r1] Y = Some v /\ fast_hypervolume_2d argsort [r0; r1] Y = Some w /\ (v == w)%Q.
Proof.
  intros argsort r0 r1 Y HS R. destruct (grid_exists [r0; r1] Y) as (Gs & HG).
  destruct (C145_exact [r0; r1] Y Gs ltac:(simpl; lia) R HG) as (v & E & Ev). destruct (C172_fast_two_objectives argsort r0 r1 Y Gs HS R HG) as (w & F & Ew).
  exists v, w. split; [exact E|]. split; [exact F|]. rewrite Ev, Ew. reflexivity.
Qed.
Print Assumptions C240_two_partial.
(** For three, the fast one. *)
Theorem C240_three_partial : forall ref Y Ys, length ref = 3 -> (forall B, In B (Y :: Ys) -> rectangular 3 B) ->
  exists v o w, hypervolume ref (concat (Y :: Ys)) = Some v /\ fast_updates ref None (Y :: Ys) = Some o /\ fast_hypervolume ref o = Some w /\ (v == w)%Q.
Proof.
  intros ref Y Ys Hm R. rewrite <- Hm in R. destruct (grid_exists ref (concat (Y :: Ys))) as (Gs & HG).
  assert (RC : rectangular (length ref) (concat (Y :: Ys))) by (intros p Hp; apply in_concat in Hp as (B & HB & Hp); exact (R B HB p Hp)).
  destruct (C145_exact ref (concat (Y :: Ys)) Gs ltac:(lia) RC HG) as (v & E & Ev). destruct (C172_fast_hypervolume ref Y Ys Gs ltac:(lia) R HG) as (o & w & E1 & E2 & Ew).
  exists v, o, w. repeat (split; [assumption|]). rewrite Ev, Ew. reflexivity.
Qed.
Print Assumptions C240_three_partial.

(** Five objectives, three mutually non-dominated points: they differ. *)
Theorem C240_five_refuted : exists ref Y v o w, rectangular (length ref) Y /\ (forall p q, In p Y -> In q Y -> ~ dominates_max p q) /\
  hypervolume ref Y = Some v /\ fast_updates ref None [Y] = Some o /\ fast_hypervolume ref o = Some w /\ (v < w)%Q.
Proof.
  set (Y := [[2; 2; 2; 1; 2]; [2; 2; 2; 2; 1]; [1; 1; 3; 1#2; 3]]%Q).
  exists [0; 0; 0; 0; 0]%Q, Y. do 3 eexists. split; [intros p H; simpl in H; intuition (subst; reflexivity)|].
  split.
  { assert (B : forallb (fun p => forallb (fun q => negb (ge_dom p q)) Y) Y = true) by (vm_compute; reflexivity).
    intros p q Hp Hq D. rewrite forallb_forall in B. specialize (B p Hp). rewrite forallb_forall in B. specialize (B q Hq).
    apply negb_true_iff in B. assert (T : ge_dom p q = true); [|congruence]. apply Proofs_Pareto.ge_dom_iff; [|exact D].
    simpl in Hp, Hq. intuition (subst; reflexivity). }
  split; [vm_compute; reflexivity|]. split; [vm_compute; reflexivity|]. split; vm_compute; reflexivity.
Qed.
Print Assumptions C240_five_refuted.

Example C240_case : exists v w, hypervolume [0; 0]%Q [[1; 3]; [2; 2]; [1; 1]; [-1; 4]]%Q = Some v /\ fast_hypervolume_2d argsort_stable [0; 0]%Q [[1; 3]; [2; 2]; [1; 1]; [-1; 4]]%Q = Some w /\ (v == 5)%Q /\ (w == 5)%Q.
Proof. do 2 eexists. split; [vm_compute; reflexivity|]. split; [vm_compute; reflexivity|]. split; reflexivity. Qed.
