(** Properties C22, C23, C96: box decompositions of the non-dominated region. *)
From Coq Require Import List Bool Arith ZArith QArith Sorted Lia Lqa.
From Verif Require Import Lib_List Model_Pareto Spec_Pareto Proofs_Pareto Model_Boxes Spec_Boxes Proofs_Boxes Proofs_BoxFront Proofs_Box2D Proofs_BoxRuns.
Import ListNotations.
Open Scope nat_scope.

(** A position of the first largest entry. *)
Definition first_max (l : list nat) : nat :=
  match find (fun i => forallb (fun d => d <=? nth i l 0) l) (seq 0 (length l)) with Some i => i | None => 0 end.
Lemma first_max_finds : finds_max first_max.
Proof.
  intros l HN. unfold first_max.
  assert (EX : exists i, i < length l /\ forall d, In d l -> d <= nth i l 0).
  { induction l as [|a l IH]; [congruence|]. destruct l as [|b l].
    - exists 0. split; [simpl; lia|]. intros d [<-|[]]. simpl. lia.
    - destruct IH as (i&Hi&K); [discriminate|]. destruct (Nat.le_gt_cases a (nth i (b :: l) 0)) as [L|L].
      + exists (S i). split; [simpl in *; lia|]. intros d [<-|Hd]; [exact L|exact (K d Hd)].
      + exists 0. split; [simpl; lia|]. intros d [<-|Hd]; [simpl; lia|]. specialize (K d Hd). cbn [nth]. lia. }
  destruct (find _ _) as [i|] eqn:E.
  - apply find_some in E. destruct E as [E1 E2]. apply in_seq in E1. split; [lia|]. rewrite forallb_forall in E2.
    intros d Hd. apply Nat.leb_le, E2, Hd.
  - exfalso. destruct EX as (i&Hi&K). assert (N := find_none _ _ E i ltac:(apply in_seq; lia)). cbv beta in N.
    assert (T : forallb (fun d => d <=? nth i l 0) l = true); [|congruence]. apply forallb_forall. intros d Hd. apply Nat.leb_le, K, Hd.
Qed.

(** C22.  For every two-objective set of outcomes and every reference point, the cells of
    NondominatedPartitioning partition the points above the reference that no outcome dominates,
    and contain no other points.  [alpha] and the loop are not used in this case. *)
Theorem C22_two_objectives :
  forall argsort argmax fuel alpha r0 r1 Y, sorts argsort -> rectangular 2 Y ->
    exists cells, nondominated_partitioning argsort argmax fuel alpha [r0; r1] Y = Some cells /\
      partitions cells [r0; r1] Y /\ nothing_below cells [r0; r1].
Proof.
  intros argsort argmax fuel alpha r0 r1 Y HS HR. unfold nondominated_partitioning, hypercells. cbn [length Nat.eqb option_map].
  exists (map (cell_bounds (neg_front argsort true [r0; r1] Y) [r0; r1]) (partition_space_2d argsort (neg_front argsort true [r0; r1] Y))).
  split; [reflexivity|]. apply class_2d; assumption.
Qed.
Print Assumptions C22_two_objectives.

(** C22, the same for FastNondominatedPartitioning. *)
Theorem C22_fast_two_objectives :
  forall argsort r0 r1 Y, sorts argsort -> rectangular 2 Y ->
    exists cells, fast_partitioning_2d argsort [r0; r1] Y = Some cells /\
      partitions cells [r0; r1] Y /\ nothing_below cells [r0; r1].
Proof. intros argsort r0 r1 Y HS HR. apply fast_2d; assumption. Qed.
Print Assumptions C22_fast_two_objectives.

(** C22, the two functions on their own: for every non-empty front listed by increasing first and
    decreasing second objective, above the reference point. *)
Theorem C22_nondominated_cells :
  forall pts r0 r1, pts <> [] -> StronglySorted (fun p q => (fst p < fst q)%Q /\ (snd q < snd p)%Q) pts ->
    (forall p, In p pts -> (r0 < fst p)%Q /\ (r1 < snd p)%Q) ->
    exists cells, nd_cells_2d pts (r0, r1) = Some cells /\
      partitions cells [r0; r1] (map (fun p => [fst p; snd p]) pts) /\ nothing_below cells [r0; r1].
Proof.
  intros pts r0 r1 HN HS HB. rewrite nd_cells_stairs by exact HN. cbn [fst snd].
  assert (HB' : Forall (fun p => (r0 < fst p)%Q /\ (r1 < snd p)%Q) pts) by (apply Forall_forall; exact HB).
  exists (stairs r0 pts r1). split; [reflexivity|]. split.
  - intros z Hz. destruct (above2 r0 r1 z (len2 r0 r1 z Hz)) as (z0&z1&->&HA). destruct (proj1 HA Hz) as [A1 A2].
    assert (HC : dominated_by (map (fun p => [fst p; snd p]) pts) [z0; z1] <-> cov2 pts z0 z1).
    { unfold dominated_by, cov2, covers. split.
      - intros (y&Hy&C). apply in_map_iff in Hy. destruct Hy as (p&<-&Hp). exists p. split; [exact Hp|].
        inversion C as [|? ? ? ? C1 C2]; subst. inversion C2 as [|? ? ? ? C3 _]; subst. tauto.
      - intros (p&Hp&C1&C2). exists [fst p; snd p]. split; [apply in_map_iff; eauto|]. repeat (apply Forall2_cons; [assumption|]). constructor. }
    rewrite HC. apply stairs_spec; assumption.
  - intros z Lz Hz c Hc. destruct (above2 r0 r1 z Lz) as (z0&z1&->&HA).
    destruct (stairs_lower pts r0 r1 c HB' HS Hc) as (a&b&u&->&A&B). rewrite inside2. simpl. intros (I1&I2&_). apply Hz, HA. lra.
Qed.
Print Assumptions C22_nondominated_cells.

Theorem C22_dominated_cells :
  forall pts r0 r1, pts <> [] -> StronglySorted (fun p q => (fst p < fst q)%Q /\ (snd q < snd p)%Q) pts ->
    (forall p, In p pts -> (r0 < fst p)%Q /\ (r1 < snd p)%Q) ->
    exists cells, dom_cells_2d pts (r0, r1) = Some cells /\ nothing_below cells [r0; r1] /\
      forall z, strictly_above [r0; r1] z ->
        (dominated_by (map (fun p => [fst p; snd p]) pts) z -> in_exactly_one z cells) /\
        (~ dominated_by (map (fun p => [fst p; snd p]) pts) z -> in_none z cells).
Proof.
  intros pts r0 r1 HN HS HB. rewrite dom_cells_bars by exact HN. cbn [fst snd].
  assert (HB' : Forall (fun p => (r0 < fst p)%Q) pts) by (apply Forall_forall; intros p Hp; apply HB, Hp).
  exists (bars r0 pts r1). split; [reflexivity|]. split.
  - intros z Lz Hz c Hc. destruct (above2 r0 r1 z Lz) as (z0&z1&->&HA).
    destruct (bars_lower pts r0 r1 c HB' HS Hc) as (a&u&v&->&A&B). rewrite inside2. simpl. intros (I1&I2&_). apply Hz, HA. lra.
  - intros z Hz. destruct (above2 r0 r1 z (len2 r0 r1 z Hz)) as (z0&z1&->&HA). destruct (proj1 HA Hz) as [A1 A2].
    assert (HC : dominated_by (map (fun p => [fst p; snd p]) pts) [z0; z1] <-> cov2 pts z0 z1).
    { unfold dominated_by, cov2, covers. split.
      - intros (y&Hy&C). apply in_map_iff in Hy. destruct Hy as (p&<-&Hp). exists p. split; [exact Hp|].
        inversion C as [|? ? ? ? C1 C2]; subst. inversion C2 as [|? ? ? ? C3 _]; subst. tauto.
      - intros (p&Hp&C1&C2). exists [fst p; snd p]. split; [apply in_map_iff; eauto|]. repeat (apply Forall2_cons; [assumption|]). constructor. }
    rewrite HC. apply bars_spec; assumption.
Qed.
Print Assumptions C22_dominated_cells.

Example C22_case :
  let Y := [[1#1; 5#1]; [4#1; 1#1]; [2#1; 3#1]; [1#1; 2#1]; [-3#1; 9#1]]%Q in
  sorts argsort_stable /\ rectangular 2 Y /\
  option_map (@length _) (nondominated_partitioning argsort_stable first_max 0 0 [0; 0]%Q Y) = Some 4 /\
  option_map (@length _) (fast_partitioning_2d argsort_stable [0; 0]%Q Y) = Some 4 /\
  nd_cells_2d [(1#1, 5#1); (2#1, 3#1)]%Q (0, 0)%Q =
    Some [([Val 0; Val (5#1)], [Val (1#1); PInf]); ([Val (1#1); Val (3#1)], [Val (2#1); PInf]); ([Val (2#1); Val 0], [PInf; PInf])]%Q.
Proof.
  split; [apply argsort_stable_sorts|]. split; [intros p H; simpl in H; intuition (subst; reflexivity)|].
  split; [reflexivity|]. split; reflexivity.
Qed.

(** C23.  For every number of objectives, every set of outcomes, every reference point and the
    default threshold (alpha = 0, or less): the loop ends, after at most
    2 (n + 1)^m rounds for a front of n points, always with the same cells, and these partition
    the points above the reference that no outcome dominates and contain nothing else. *)
Theorem C23_binary_partitioning :
  forall argsort argmax alpha ref Y, sorts argsort -> finds_max argmax -> (alpha <= 0)%Q ->
    rectangular (length ref) Y ->
    exists fuel0 cells, fuel0 <= 2 * (S (length Y)) ^ length ref /\
      (forall fuel, fuel0 <= fuel -> nondominated_partitioning argsort argmax fuel alpha ref Y = Some cells) /\
      partitions cells ref Y /\ nothing_below cells ref.
Proof.
  intros argsort argmax alpha ref Y HS HM HA HR.
  assert (LP : length (neg_front argsort true ref Y) <= length Y).
  { rewrite (Permutation.Permutation_length (front_perm argsort HS ref Y HR)), map_length. unfold chosen. rewrite map_length.
    assert (G : forall {T} (f : T -> bool) l, length (filter f l) <= length l) by (intros T f l; induction l as [|a l IH]; simpl; [lia|destruct (f a); simpl; lia]).
    etransitivity; [apply G|]. rewrite combine_length. lia. }
  destruct (Nat.eqb_spec (length ref) 2) as [E|E].
  - destruct ref as [|r0 [|r1 [|]]]; try discriminate. destruct (C22_two_objectives argsort argmax 0 alpha r0 r1 Y HS HR) as (cells&H1&H2).
    exists 0, cells. split; [lia|]. split; [|exact H2]. intros fuel _. exact H1.
  - destruct (binary_cells argsort argmax HS HM alpha ref Y HR) as (cells&C&B1&B2&_).
    exists (fuel_for (length ref) (neg_front argsort true ref Y)), (map (cell_bounds (neg_front argsort true ref Y) ref) cells).
    split; [|split; [|split; [apply B1, HA|exact B2]]].
    + unfold fuel_for. apply Nat.mul_le_mono_l, Nat.pow_le_mono_l. lia.
    + intros fuel Hf. unfold nondominated_partitioning, hypercells. destruct (Nat.eqb_spec (length ref) 2); [contradiction|].
      rewrite (C fuel Hf). reflexivity.
Qed.
Print Assumptions C23_binary_partitioning.

(** C23, any threshold alpha: the loop ends, no cell contains a dominated point or a point that
    is not above the reference, and no point lies in two cells. *)
Theorem C23_any_threshold :
  forall argsort argmax alpha ref Y, sorts argsort -> finds_max argmax -> rectangular (length ref) Y ->
    exists fuel0 cells,
      (forall fuel, fuel0 <= fuel -> nondominated_partitioning argsort argmax fuel alpha ref Y = Some cells) /\
      nothing_below cells ref /\
      forall z, strictly_above ref z -> (dominated_by Y z -> in_none z cells) /\ (in_none z cells \/ in_exactly_one z cells).
Proof.
  intros argsort argmax alpha ref Y HS HM HR. destruct (Nat.eqb_spec (length ref) 2) as [E|E].
  - destruct ref as [|r0 [|r1 [|]]]; try discriminate. destruct (C22_two_objectives argsort argmax 0 alpha r0 r1 Y HS HR) as (cells&H1&H2&H3).
    exists 0, cells. split; [intros fuel _; exact H1|]. split; [exact H3|]. intros z Hz. destruct (H2 z Hz) as [K1 K2]. split; [exact K1|].
    destruct (dominated_dec Y z) as [D|D]; [left; apply K1, D|right; apply K2, D].
  - destruct (binary_cells argsort argmax HS HM alpha ref Y HR) as (cells&C&_&B2&B3).
    exists (fuel_for (length ref) (neg_front argsort true ref Y)), (map (cell_bounds (neg_front argsort true ref Y) ref) cells).
    split; [|split; [exact B2|exact B3]]. intros fuel Hf. unfold nondominated_partitioning, hypercells.
    destruct (Nat.eqb_spec (length ref) 2); [contradiction|]. rewrite (C fuel Hf). reflexivity.
Qed.
Print Assumptions C23_any_threshold.

Example C23_case :
  let Y := [[1#1; 5#1; 2#1]; [4#1; 1#1; 3#1]; [2#1; 3#1; 3#1]; [1#1; 2#1; 1#1]]%Q in
  sorts argsort_stable /\ finds_max first_max /\ rectangular 3 Y /\
  option_map (@length _) (nondominated_partitioning argsort_stable first_max 128 0 [0; 0; 0]%Q Y) = Some 9 /\
  strictly_above [0; 0; 0]%Q [3#1; 2#1; 1#1]%Q /\ ~ dominated_by Y [3#1; 2#1; 1#1]%Q.
Proof.
  split; [apply argsort_stable_sorts|]. split; [apply first_max_finds|].
  split; [intros p H; simpl in H; intuition (subst; reflexivity)|]. split; [reflexivity|]. split.
  - repeat (apply Forall2_cons; [reflexivity|]). constructor.
  - intros (y&Hy&C). simpl in Hy. destruct Hy as [<-|[<-|[<-|[<-|[]]]]];
      inversion C as [|? ? ? ? C1 C2]; subst; inversion C2 as [|? ? ? ? C3 C4]; subst; lra.
Qed.

(** C96.  After construction with the first batch of outcomes and any further updates the cells
    partition the region that none of the outcomes given so far dominates, also when an update
    leaves the front as it was and the cells are not recomputed. *)
Theorem C96_updates :
  forall argsort argmax alpha ref Ys, sorts argsort -> finds_max argmax -> (alpha <= 0)%Q ->
    (forall Y, In Y Ys -> rectangular (length ref) Y) -> Ys <> [] ->
    exists d cells, updates argsort argmax alpha ref Ys = Some d /\ bounds_of ref d = Some cells /\
      partitions cells ref (concat Ys) /\ nothing_below cells ref.
Proof.
  intros argsort argmax alpha ref Ys HS HM HA HR HN.
  destruct (updates_good argsort argmax HS alpha ref Ys HR HN) as (d&E&G&EY).
  destruct (good_partitions argsort argmax HS HM alpha ref d HA G) as (bs&B1&B2&B3).
  exists d, bs. rewrite EY in B2. auto.
Qed.
Print Assumptions C96_updates.

Example C96_case :
  let Ys := [[[1#1; 5#1; 2#1]]; [[1#1; 1#1; 1#1]]; [[2#1; 3#1; 3#1]]]%Q in
  (forall Y, In Y Ys -> rectangular 3 Y) /\
  option_map (fun d => option_map (@length _) (d_cells d)) (updates argsort_stable first_max 0 [0; 0; 0]%Q Ys) = Some (Some 5).
Proof. split; [intros Y H p Hp; simpl in H; intuition (subst; simpl in Hp; intuition (subst; reflexivity))|reflexivity]. Qed.
