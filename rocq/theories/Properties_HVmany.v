(** Property C220: the hypervolume indicator for any number of objectives.  Also the positive part of C21. *)
From Coq Require Import List Bool Arith ZArith QArith Permutation Lia Lqa Setoid.
From Verif Require Import Lib_List Model_Pareto Spec_Pareto Proofs_Pareto Model_HV Spec_HV Spec_HVmany Proofs_HVgrid Proofs_HVmany.
Import ListNotations.
Open Scope nat_scope.

(** C220: with any number of objectives and any number of points, in any order: when the points that count are better than the reference
    point in every objective, and separated, the call returns and the value is the measure of the union of the boxes between the
    reference point and the points (of every grid; grids exist by C145_grids_exist). *)
Theorem C220_exact : forall ref Y Gs, 1 <= length ref -> rectangular (length ref) Y -> grid_for Gs ref Y ->
  inside ref Y -> separated (above ref Y) ->
  exists v, hypervolume ref Y = Some v /\ (v == measure Gs ref Y)%Q.
Proof. exact hypervolume_many. Qed.
Print Assumptions C220_exact.

(** In particular when different points that count have different values in each of the objectives from the third to the last but one;
    ties in the first two objectives and in the last one, and equal points, do no harm. *)
Theorem C220_distinct : forall ref Y Gs, 1 <= length ref -> rectangular (length ref) Y -> grid_for Gs ref Y -> inside ref Y ->
  (forall y z, above ref Y y -> above ref Y z -> forall j, 2 <= j -> j + 1 < length ref -> (nth j y 0 == nth j z 0)%Q -> Forall2 Qeq y z) ->
  exists v, hypervolume ref Y = Some v /\ (v == measure Gs ref Y)%Q.
Proof.
  intros ref Y Gs Hm R HG HI H. apply hypervolume_many; auto. intros y z Hy Hz j H2 Hj _ E. apply (H y z Hy Hz j H2); [|exact E].
  rewrite <- (R y (proj1 Hy)). exact Hj.
Qed.
Print Assumptions C220_distinct.

(** And for four objectives when no point dominates another one, whatever ties there are. *)
Theorem C220_four : forall ref Y Gs, length ref = 4 -> rectangular 4 Y -> grid_for Gs ref Y -> inside ref Y ->
  (forall p q, In p Y -> In q Y -> ~ dominates_max p q) ->
  exists v, hypervolume ref Y = Some v /\ (v == measure Gs ref Y)%Q.
Proof.
  intros ref Y Gs Hm R HG HI ND. apply hypervolume_many; auto; [lia|now rewrite Hm|]. intros y z [Iy _] [Iz _] j H2 Hj H _.
  pose proof (R y Iy) as Ly. pose proof (R z Iz) as Lz. assert (j = 2) by lia. subst j.
  assert (K : forall y z : list Q, length y = length z -> (forall k, k < length y -> (nth k z 0 <= nth k y 0)%Q) -> ~ dominates z y -> Forall2 Qeq y z).
  { clear. induction y as [|a y IH]; intros [|b z] L H N; try discriminate; [constructor|].
    assert (Hb : (b <= a)%Q) by (exact (H 0 ltac:(simpl; lia))).
    assert (Ht : forall k, k < length y -> (nth k z 0 <= nth k y 0)%Q) by (intros k Hk; exact (H (S k) ltac:(simpl; lia))).
    assert (W : forall (y z : list Q), length y = length z -> (forall k, k < length y -> (nth k z 0 <= nth k y 0)%Q) -> weakly_better z y).
    { clear. induction y as [|a y IH]; intros [|b z] L H; try discriminate; [constructor|]. constructor; [exact (H 0 ltac:(simpl; lia))|].
      apply IH; [simpl in L; lia|]. intros k Hk. exact (H (S k) ltac:(simpl; lia)). }
    constructor.
    - destruct (Qlt_le_dec b a) as [Lt|Le]; [|lra]. exfalso. apply N. split; [now apply W|]. exists 0, b, a. auto.
    - apply IH; [simpl in L; lia|exact Ht|]. intros [D1 [i [u [w [E1 [E2 Lt]]]]]]. apply N. split; [now apply W|]. exists (S i), u, w. auto. }
  apply K; [congruence| |exact (ND y z Iy Iz)]. intros k Hk. apply H. lia.
Qed.
Print Assumptions C220_four.

(** The value depends on the points alone: it does not decrease when every point is replaced by one at least as good and points are
    added, in whatever order they are given. *)
Theorem C220_monotone : forall ref Y Y' v v', 1 <= length ref -> rectangular (length ref) Y -> rectangular (length ref) Y' ->
  inside ref Y -> separated (above ref Y) -> inside ref Y' -> separated (above ref Y') ->
  (forall y, In y Y -> exists y', In y' Y' /\ Forall2 Qle y y') ->
  hypervolume ref Y = Some v -> hypervolume ref Y' = Some v' -> (v <= v')%Q.
Proof.
  intros ref Y Y' v v' Hm R R' I1 S1 I2 S2 H E E'. destruct (grid_exists ref (Y ++ Y')) as [Gs [G1 G2]].
  assert (HG : grid_for Gs ref Y) by (split; [exact G1|]; intros k G EG; destruct (G2 k G EG) as [A [B C]]; split; [exact A|split; [exact B|intros y Hy; apply C, in_or_app; now left]]).
  assert (HG' : grid_for Gs ref Y') by (split; [exact G1|]; intros k G EG; destruct (G2 k G EG) as [A [B C]]; split; [exact A|split; [exact B|intros y Hy; apply C, in_or_app; now right]]).
  destruct (hypervolume_many ref Y Gs Hm R HG I1 S1) as [w [F W]]. destruct (hypervolume_many ref Y' Gs Hm R' HG' I2 S2) as [w' [F' W']].
  assert (w = v) by congruence. assert (w' = v') by congruence. subst. rewrite W, W'.
  apply measure_mono; [intros G IG; apply In_nth_error in IG; destruct IG as [k Ek]; exact (proj1 (G2 k G Ek))|].
  intros y c Hy _ B. destruct (H y Hy) as [y' [I' D]]. exists y'. split; [exact I'|]. exact (between_mono ref y y' c D B).
Qed.
Print Assumptions C220_monotone.
Theorem C220_order : forall ref Y Y' v v', 1 <= length ref -> rectangular (length ref) Y -> inside ref Y -> separated (above ref Y) ->
  Permutation Y Y' -> hypervolume ref Y = Some v -> hypervolume ref Y' = Some v' -> (v == v')%Q.
Proof.
  intros ref Y Y' v v' Hm R I1 S1 P E E'.
  assert (F : forall y, In y Y' -> In y Y) by (intros y; apply (Permutation_in y (Permutation_sym P))).
  assert (F' : forall y, In y Y -> In y Y') by (intros y; apply (Permutation_in y P)).
  assert (I2 : inside ref Y') by (intros y Hy; apply I1; auto).
  assert (S2 : separated (above ref Y')) by (intros y z [Hy Wy] [Hz Wz]; apply S1; split; auto).
  assert (R' : rectangular (length ref) Y') by (intros p Hp; apply R; auto).
  assert (refl : forall y, Forall2 Qle y y) by (intros y; induction y; constructor; [apply Qle_refl|assumption]).
  apply Qle_antisym; [apply (C220_monotone ref Y Y')|apply (C220_monotone ref Y' Y)]; auto; intros y Hy; exists y; auto.
Qed.
Print Assumptions C220_order.

(** The positive part of C21; what is missing is the refuted part: points that are not separated, or that touch the reference point. *)
Theorem C21_exact_partial : forall ref Y, 1 <= length ref -> rectangular (length ref) Y -> inside ref Y -> separated (above ref Y) ->
  exists Gs v, grid_for Gs ref Y /\ hypervolume ref Y = Some v /\ (v == measure Gs ref Y)%Q.
Proof.
  intros ref Y Hm R HI HS. destruct (grid_exists ref Y) as [Gs HG]. destruct (hypervolume_many ref Y Gs Hm R HG HI HS) as [v [E V]].
  exists Gs, v. auto.
Qed.
Print Assumptions C21_exact_partial.

(** Six objectives and four points with different values: two different orders of the points. *)
Definition six : list (list Q) := [[4; 3; 5; 4; 4; 2]; [2; 5; 3; 3; 2; 5]; [1; 1; 2; 5; 5; 4]; [3; 2; 4; 1; 3; 3]]%Q.
Lemma six_ok : rectangular 6 six /\ inside [0; 0; 0; 0; 0; 0]%Q six /\ separated (above [0; 0; 0; 0; 0; 0]%Q six).
Proof.
  split; [|split].
  - intros p H. simpl in H. intuition (subst; reflexivity).
  - intros p H _. simpl in H. intuition (subst; repeat constructor).
  - intros p q [Hp _] [Hq _] j H2 Hj _ E. assert (j = 2 \/ j = 3 \/ j = 4) as J.
    { simpl in Hp. assert (length p = 6) by (intuition (subst; reflexivity)). lia. }
    simpl in Hp, Hq. destruct Hp as [<-|[<-|[<-|[<-|[]]]]], Hq as [<-|[<-|[<-|[<-|[]]]]];
      try (repeat constructor); exfalso; destruct J as [-> | [-> | ->]]; vm_compute in E; discriminate.
Qed.
Example C220_case : exists v v', hypervolume [0; 0; 0; 0; 0; 0]%Q six = Some v /\ hypervolume [0; 0; 0; 0; 0; 0]%Q (rev six) = Some v' /\
  (v == v')%Q /\ (v == 2762)%Q.
Proof. eexists. eexists. split; [vm_compute; reflexivity|]. split; [vm_compute; reflexivity|]. split; vm_compute; reflexivity. Qed.

(** Four objectives, with ties: no point dominates another one. *)
Definition four : list (list Q) := [[2; 2; 2; 1]; [2; 2; 1; 2]; [1; 3; 2; 1]; [2; 1; 2; 2]; [2; 2; 2; 1]]%Q.
Example C220_four_case : rectangular 4 four /\ inside [0; 0; 0; 0]%Q four /\ (forall p q, In p four -> In q four -> ~ dominates_max p q) /\
  exists v, hypervolume [0; 0; 0; 0]%Q four = Some v /\ (v == 16)%Q.
Proof.
  split; [intros p H; simpl in H; intuition (subst; reflexivity)|]. split; [intros p H _; simpl in H; intuition (subst; repeat constructor)|]. split.
  - assert (B : forallb (fun p => forallb (fun q => negb (ge_dom p q)) four) four = true) by (vm_compute; reflexivity).
    intros p q Hp Hq D. rewrite forallb_forall in B. specialize (B p Hp). rewrite forallb_forall in B. specialize (B q Hq).
    apply negb_true_iff in B. assert (T : ge_dom p q = true); [|congruence]. apply Proofs_Pareto.ge_dom_iff; [|exact D].
    simpl in Hp, Hq. intuition (subst; reflexivity).
  - eexists. split; [vm_compute; reflexivity|]. vm_compute. reflexivity.
Qed.
