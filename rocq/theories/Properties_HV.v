(** Property C21: the hypervolume indicator. *)
From Coq Require Import List Bool Arith ZArith QArith Permutation Lia Lqa.
From Verif Require Import Lib_List Model_Pareto Spec_Pareto Proofs_Pareto Model_HV Spec_HV.
Import ListNotations.
Open Scope nat_scope.

(** C21, full statement (refuted): the computed hypervolume is the measure of the union of the
    boxes between the points and the reference point, and does not depend on the order of the
    points.
    (a) Five objectives, three mutually non-dominated points, two of which agree in the first
    three objectives: in one order the value is too small. *)
Theorem C21_pareto_set_refuted :
  exists ref Y Gs v, rectangular (length ref) Y /\ (forall p q, In p Y -> In q Y -> ~ dominates_max p q) /\
    grid_for Gs ref Y /\ hypervolume ref Y = Some v /\ (v < measure Gs ref Y)%Q /\
    exists Y' v', Permutation Y Y' /\ hypervolume ref Y' = Some v' /\ (v < v')%Q.
Proof.
  set (Y := [[2; 2; 2; 1; 2]; [2; 2; 2; 2; 1]; [1; 1; 3; 1#2; 3]]%Q).
  exists [0; 0; 0; 0; 0]%Q, Y, [[0; 1; 2]; [0; 1; 2]; [0; 2; 3]; [0; 1#2; 1; 2]; [0; 1; 2; 3]]%Q.
  eexists. split; [intros p H; simpl in H; intuition (subst; reflexivity)|].
  split; [|split; [|split; [vm_compute; reflexivity|split; [vm_compute; reflexivity|]]]].
  - assert (B : forallb (fun p => forallb (fun q => negb (ge_dom p q)) Y) Y = true) by (vm_compute; reflexivity).
    intros p q Hp Hq D. rewrite forallb_forall in B. specialize (B p Hp). rewrite forallb_forall in B. specialize (B q Hq).
    apply negb_true_iff in B. assert (T : ge_dom p q = true); [|congruence]. apply Proofs_Pareto.ge_dom_iff; [|exact D].
    simpl in Hp, Hq. intuition (subst; reflexivity).
  - split; [reflexivity|]. intros k G H.
    assert (L : k < 5) by (pose proof (nth_error_lt _ _ _ H) as L; exact L).
    destruct k as [|[|[|[|[|k]]]]]; [..|lia]; simpl in H; injection H as <-;
      (split; [repeat split; reflexivity|split; [|intros y Hy; simpl in Hy; destruct Hy as [<-|[<-|[<-|[]]]]]]);
      match goal with |- on_line ?v ?G => let v' := eval vm_compute in v in exists v' end; (split; [simpl; tauto|reflexivity]).
  - exists [[2; 2; 2; 2; 1]; [2; 2; 2; 1; 2]; [1; 1; 3; 1#2; 3]]%Q. eexists. split; [apply perm_swap|].
    split; vm_compute; reflexivity.
Qed.
Print Assumptions C21_pareto_set_refuted.

(** (b) Four objectives and a dominated point: the value is smaller than without that point. *)
Theorem C21_dominated_point_refuted :
  exists ref Y y v v', rectangular (length ref) (y :: Y) /\ hypervolume ref (y :: Y) = Some v /\
    hypervolume ref Y = Some v' /\ (v < v')%Q.
Proof.
  exists [0; 0; 0; 0]%Q, [[2; 2; 2; 2]; [1; 1; 3; 1#2]]%Q, [2; 2; 2; 1]%Q. eexists. eexists.
  split; [intros p H; simpl in H; intuition (subst; reflexivity)|]. split; [vm_compute; reflexivity|]. split; vm_compute; reflexivity.
Qed.
Print Assumptions C21_dominated_point_refuted.

(** (c) Six objectives, four mutually non-dominated points, all of whose values are different in every objective, some of them equal to
    the reference value: the value is too large. *)
Theorem C21_boundary_refuted :
  exists ref Y Gs v, rectangular (length ref) Y /\ (forall p q, In p Y -> In q Y -> ~ dominates_max p q) /\
    (forall k, k < length ref -> NoDup (map (fun y => Qred (nth k y 0%Q)) Y)) /\
    grid_for Gs ref Y /\ hypervolume ref Y = Some v /\ (measure Gs ref Y < v)%Q.
Proof.
  set (Y := [[3; 2; 4; 3; 3; 1]; [1; 4; 2; 2; 1; 4]; [0; 0; 1; 4; 4; 3]; [2; 1; 3; 0; 2; 2]]%Q).
  exists [0; 0; 0; 0; 0; 0]%Q, Y, [[0; 1; 2; 3]; [0; 1; 2; 4]; [0; 1; 2; 3; 4]; [0; 2; 3; 4]; [0; 1; 2; 3; 4]; [0; 1; 2; 3; 4]]%Q.
  eexists. split; [intros p H; simpl in H; intuition (subst; reflexivity)|].
  split; [|split; [|split; [|split; [vm_compute; reflexivity|vm_compute; reflexivity]]]].
  - assert (B : forallb (fun p => forallb (fun q => negb (ge_dom p q)) Y) Y = true) by (vm_compute; reflexivity).
    intros p q Hp Hq D. rewrite forallb_forall in B. specialize (B p Hp). rewrite forallb_forall in B. specialize (B q Hq).
    apply negb_true_iff in B. assert (T : ge_dom p q = true); [|congruence]. apply Proofs_Pareto.ge_dom_iff; [|exact D].
    simpl in Hp, Hq. intuition (subst; reflexivity).
  - intros k Hk. simpl in Hk. destruct k as [|[|[|[|[|[|k]]]]]]; [..|lia]; vm_compute;
      repeat (constructor; [simpl; intros F; repeat (destruct F as [F|F]; [discriminate F|]); exact F|]); constructor.
  - split; [reflexivity|]. intros k G H.
    assert (L : k < 6) by (pose proof (nth_error_lt _ _ _ H) as L; exact L).
    destruct k as [|[|[|[|[|[|k]]]]]]; [..|lia]; simpl in H; injection H as <-;
      (split; [repeat split; reflexivity|split; [|intros y Hy; simpl in Hy; destruct Hy as [<-|[<-|[<-|[<-|[]]]]]]]);
      match goal with |- on_line ?v ?G => let v' := eval vm_compute in v in exists v' end; (split; [simpl; tauto|reflexivity]).
Qed.
Print Assumptions C21_boundary_refuted.
