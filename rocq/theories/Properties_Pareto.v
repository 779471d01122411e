(** Properties C17 - C20: Pareto utilities. *)
From Coq Require Import List Bool Arith ZArith QArith Sorted Permutation Lia Lqa.
From Verif Require Import Lib_List Model_Pareto Spec_Pareto Proofs_Pareto.
Import ListNotations.
Open Scope nat_scope.

(** C17: for every matrix of any shape the function terminates; an index is returned iff no
    point dominates its point and no earlier point has the same values; indices are
    increasing; the mask form marks exactly these indices. *)
Theorem C17_is_pareto_efficient :
  forall m X, rectangular m X ->
  exists idx msk,
    is_pareto_efficient_index X = Some idx /\ is_pareto_efficient_mask X = Some msk /\
    StronglySorted lt idx /\ length msk = length X /\
    (forall i, In i idx <->
      exists p, nth_error X i = Some p /\
        (forall j q, nth_error X j = Some q -> ~ dominates q p) /\
        (forall j q, j < i -> nth_error X j = Some q -> ~ same_values q p)) /\
    (forall i, i < length X ->
      (nth_error msk i = Some true <-> In i idx) /\ (nth_error msk i = Some false <-> ~ In i idx)).
Proof.
  intros m X HR. destruct (pareto_spec m X HR) as (idx&H1&H2&H3).
  destruct (pareto_mask X idx H1) as (msk&H4&H5&H6). exists idx, msk. auto 10.
Qed.
Print Assumptions C17_is_pareto_efficient.

Example C17_example :
  let X := [[3#1; 1#1]; [2#1; 2#1]; [1#1; 3#1]; [2#1; 2#1]; [3#1; 3#1]]%Q in
  rectangular 2 X /\
  is_pareto_efficient_index X = Some [0; 1; 2] /\
  is_pareto_efficient_mask X = Some [true; true; true; false; false] /\
  dominates [2#1; 2#1]%Q [3#1; 3#1]%Q /\ same_values [2#1; 2#1]%Q [2#1; 2#1]%Q.
Proof.
  cbv zeta. split; [|split; [vm_compute; reflexivity|split; [vm_compute; reflexivity|split]]].
  - intros p H. simpl in H. intuition (subst; reflexivity).
  - split; [repeat constructor; discriminate|]. exists 0, (2#1)%Q, (3#1)%Q. repeat split.
  - repeat constructor.
Qed.

(** C18: the fronts are disjoint and cover all points, none is empty, and front k consists of
    exactly the points outside fronts 0..k-1 that no point outside fronts 0..k-1 dominates. *)
Theorem C18_fast_non_dominated_sort :
  forall m pts, rectangular m pts ->
  exists fronts, fast_non_dominated_sort pts = Some fronts /\
    NoDup (concat fronts) /\ (forall i, In i (concat fronts) <-> i < length pts) /\
    (pts <> [] -> forall F, In F fronts -> F <> []) /\
    forall k F, nth_error fronts k = Some F ->
      forall i, In i F <->
        i < length pts /\ ~ In i (concat (firstn k fronts)) /\
        forall j, j < length pts -> ~ In j (concat (firstn k fronts)) ->
          ~ exists p q, nth_error pts j = Some p /\ nth_error pts i = Some q /\ dominates p q.
Proof. exact sort_spec. Qed.
Print Assumptions C18_fast_non_dominated_sort.

Example C18_example :
  let X := [[3#1; 3#1]; [1#1; 2#1]; [2#1; 1#1]; [1#1; 2#1]; [2#1; 2#1]]%Q in
  rectangular 2 X /\ fast_non_dominated_sort X = Some [[1; 2; 3]; [4]; [0]].
Proof.
  cbv zeta. split; [|vm_compute; reflexivity]. intros p H. simpl in H. intuition (subst; reflexivity).
Qed.

(** C20: row i is marked iff no row dominates it (maximisation); with deduplicate only the
    first of equal rows is marked. *)
Theorem C20_is_non_dominated :
  forall m Y, rectangular m Y ->
  length (is_non_dominated Y false) = length Y /\ length (is_non_dominated Y true) = length Y /\
  forall i y, nth_error Y i = Some y ->
    (nth_error (is_non_dominated Y false) i = Some true <-> forall z, In z Y -> ~ dominates_max z y) /\
    (nth_error (is_non_dominated Y true) i = Some true <->
       (forall z, In z Y -> ~ dominates_max z y) /\
       forall j z, j < i -> nth_error Y j = Some z -> ~ same_values z y).
Proof.
  intros m Y HR. destruct (is_nd_false m Y HR) as [A1 A2]. destruct (is_nd_true m Y HR) as [B1 B2].
  split; auto.
Qed.
Print Assumptions C20_is_non_dominated.

Example C20_example :
  let Y := [[1#1; 2#1]; [2#1; 1#1]; [1#1; 2#1]; [0#1; 1#1]]%Q in
  rectangular 2 Y /\ is_non_dominated Y false = [true; true; true; false] /\
  is_non_dominated Y true = [true; true; false; false].
Proof.
  cbv zeta. split; [|split; vm_compute; reflexivity]. intros p H. simpl in H. intuition (subst; reflexivity).
Qed.

(** C19: refuted in three ways.
    (a) with equal first coordinates a dominated point may be returned; *)
Theorem C19_nd2_dominated_refuted :
  exists y i j, let '(idx, _) := non_dominated_set_2d argsort_stable y true in
    In i idx /\ j < length y /\ dom2 (nth j y (0%Q, 0%Q)) (nth i y (0%Q, 0%Q)).
Proof.
  exists [((1#1), (1#1)); ((1#1), (2#1))]%Q, 1, 0. vm_compute. repeat split; auto; try discriminate.
Qed.
Print Assumptions C19_nd2_dominated_refuted.

(** (b) of several identical non-dominated points only one is returned; *)
Theorem C19_nd2_duplicates_refuted :
  exists y i, i < length y /\ (forall j, j < length y -> ~ dom2 (nth j y (0%Q, 0%Q)) (nth i y (0%Q, 0%Q))) /\
    ~ In i (fst (non_dominated_set_2d argsort_stable y true)).
Proof.
  exists [((1#1), (1#1)); ((1#1), (1#1))]%Q, 0. split; [simpl; lia|]. split.
  - intros j Hj (A&B&C). simpl in Hj. destruct j as [|[|j]]; [| |lia]; simpl in C; destruct C; lra.
  - vm_compute. intros [H|[]]. discriminate.
Qed.
Print Assumptions C19_nd2_duplicates_refuted.

(** (c) for every input the caller's array is negated when minimising, so that a second call
    answers the opposite question. *)
Theorem C19_nd2_input_refuted :
  (forall argsort y, snd (non_dominated_set_2d argsort y true) = map (fun p => (- fst p, - snd p)%Q) y) /\
  exists y, let '(idx, y') := non_dominated_set_2d argsort_stable y true in
            idx <> fst (non_dominated_set_2d argsort_stable y' true).
Proof.
  split; [reflexivity|]. exists [((1#1), (1#1)); ((2#1), (2#1))]%Q. vm_compute. discriminate.
Qed.
Print Assumptions C19_nd2_input_refuted.

(** The sort used above is a sort. *)
Example C19_argsort_example : sorts argsort_stable /\ argsort_stable [3#1; 1#1; 2#1; 1#1]%Q = [1; 3; 2; 0].
Proof. split; [exact argsort_stable_sorts|vm_compute; reflexivity]. Qed.

(** What holds, for every implementation of argsort.  [worse] : i is dominated by j in the
    direction asked for.
    Completeness: each non-dominated point is returned, or one with the same coordinates. *)
Definition dom_dir (minimize : bool) (p q : Q * Q) : Prop := if minimize then dom2 p q else dom2 q p.

Lemma nth_neg i (y : list (Q * Q)) :
  nth i (map (fun p => (- fst p, - snd p)%Q) y) (0%Q, 0%Q) = (- fst (nth i y (0%Q, 0%Q)), - snd (nth i y (0%Q, 0%Q)))%Q.
Proof. change (0%Q, 0%Q) with ((fun p : Q * Q => (- fst p, - snd p)%Q) (0%Q, 0%Q)) at 1. apply map_nth. Qed.

Theorem C19_nd2_complete_partial :
  forall argsort y minimize, sorts argsort ->
    let out := fst (non_dominated_set_2d argsort y minimize) in
    NoDup out /\
    forall i, i < length y ->
      (forall j, j < length y -> ~ dom_dir minimize (nth j y (0%Q, 0%Q)) (nth i y (0%Q, 0%Q))) ->
      exists j, In j out /\ (fst (nth j y (0%Q, 0%Q)) == fst (nth i y (0%Q, 0%Q)))%Q /\
                            (snd (nth j y (0%Q, 0%Q)) == snd (nth i y (0%Q, 0%Q)))%Q.
Proof.
  intros argsort y minimize HS. split; [destruct minimize; apply out_nodup; auto|].
  intros i Hi H. destruct minimize.
  - destruct (nd2_complete argsort HS (map (fun p => (- fst p, - snd p)%Q) y) i) as (j&Hj&E1&E2).
    + rewrite map_length. exact Hi.
    + intros j Hj D. rewrite map_length in Hj. unfold dmax in D. rewrite !nth_neg in D. cbn [fst snd] in D.
      apply (H j Hj). unfold dom_dir, dom2. destruct D as (A&B&C). split; [lra|]. split; [lra|]. destruct C; [left|right]; lra.
    + exists j. split; [exact Hj|]. rewrite !nth_neg in E1, E2. cbn [fst snd] in *. split; lra.
  - destruct (nd2_complete argsort HS y i Hi) as (j&Hj&E1&E2).
    + intros j Hj D. apply (H j Hj). unfold dom_dir, dom2. exact D.
    + exists j. auto.
Qed.
Print Assumptions C19_nd2_complete_partial.

(** Exactness when the first coordinates are pairwise different. *)
Theorem C19_nd2_exact_partial :
  forall argsort y minimize, sorts argsort ->
    (forall i j, i < length y -> j < length y -> i <> j ->
       ~ (fst (nth i y (0%Q, 0%Q)) == fst (nth j y (0%Q, 0%Q)))%Q) ->
    forall i, In i (fst (non_dominated_set_2d argsort y minimize)) <->
      i < length y /\ forall j, j < length y -> ~ dom_dir minimize (nth j y (0%Q, 0%Q)) (nth i y (0%Q, 0%Q)).
Proof.
  intros argsort y minimize HS HD i. destruct minimize.
  - assert (HL : length (map (fun p => (- fst p, - snd p)%Q) y) = length y) by apply map_length.
    pose proof (nd2_sound argsort HS (map (fun p => (- fst p, - snd p)%Q) y) i) as K. rewrite HL in K.
    change (fst (non_dominated_set_2d argsort y true)) with
      (map (fun i => nth i (rev (argsort (map fst (map (fun p => (- fst p, - snd p)%Q) y)))) 0)
        (nd2_scan (map (fun i => snd (nth i (map (fun p => (- fst p, - snd p)%Q) y) (0%Q, 0%Q)))
             (rev (argsort (map fst (map (fun p => (- fst p, - snd p)%Q) y))))))).
    rewrite K.
    + split; intros [A B]; split; auto; intros j Hj D; apply (B j Hj); unfold dmax, dom_dir, dom2 in *;
        rewrite ?nth_neg in *; cbn [fst snd] in *; destruct D as (D1&D2&D3); (split; [lra|]; split; [lra|]); destruct D3; [left|right|left|right]; lra.
    + intros a b Ha Hb N E. rewrite !nth_neg in E. cbn [fst] in E. apply (HD a b Ha Hb N). lra.
  - exact (nd2_sound argsort HS y i HD).
Qed.
Print Assumptions C19_nd2_exact_partial.

(** When maximising, the array is left alone. *)
Theorem C19_nd2_input_partial :
  forall argsort y, snd (non_dominated_set_2d argsort y false) = y.
Proof. reflexivity. Qed.
Print Assumptions C19_nd2_input_partial.
