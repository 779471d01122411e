(** Property C291: the expected hypervolume improvement with a positive threshold of the binary partitioning. *)
From Coq Require Import Reals List Bool Arith ZArith QArith Qreals Lia Lra.
From Verif Require Import Lib_List Model_Pareto Spec_Pareto Proofs_Pareto Model_Boxes Spec_Boxes Proofs_Boxes Proofs_BoxFront Proofs_Box2D Proofs_BoxRuns Model_Lacour Proofs_LacourRuns
  Proofs_CellIndex Properties_Boxes Spec_Improve Spec_Expect Proofs_Expect Proofs_ExpectCells Model_EHVI Properties_EHVI Proofs_ExpectPos Proofs_Region Proofs_IndexProper Spec_Decompose Properties_Region.
Import ListNotations.
Open Scope nat_scope.

(** Cells that cover a part of the region, each point at most once. *)
Lemma part_le big pred ref cs1 cs2 Y cells1 cells2 : length pred = length ref -> proper_cells big (length ref) cs1 -> proper_cells big (length ref) cs2 ->
  (forall z, strictly_above ref z -> (dominated_by Y z -> in_none z cs1) /\ (in_none z cs1 \/ in_exactly_one z cs1)) -> nothing_below cs1 ref -> partitions cs2 ref Y ->
  real_cells cs1 = Some cells1 -> real_cells cs2 = Some cells2 -> (forward big cells1 pred <= forward big cells2 pred)%R.
Proof.
  intros L P1 P2 A1 N1 A2 E1 E2. rewrite (forward_region big (length ref) cs1 cells1 pred P1 E1 L), (forward_region big (length ref) cs2 cells2 pred P2 E2 L).
  assert (W : forall cs, proper_cells big (length ref) cs -> forall c, In c (qcells cs) -> wf (length (map (weight big) pred)) c).
  { intros cs P c Hc. apply in_map_iff in Hc as (d & <- & Hd). destruct (P d Hd) as [Ld Pd]. rewrite map_length, L, <- Ld. apply (qcell_wf big), Pd. }
  apply values_le; [|exact (W cs1 P1)|exact (W cs2 P2)|].
  - apply List.Forall_forall. intros g Hg. apply in_map_iff in Hg as (p & <- & _). apply weight_growing.
  - intros z Hz. rewrite map_length, L in Hz. destruct (strictly_em ref z) as [SA|SA]; [|rewrite (count_none big _ cs1 z P1 (N1 z Hz SA)); lia].
    destruct (A1 z SA) as [K [K2|K2]]; [rewrite (count_none big _ cs1 z P1 K2); lia|].
    destruct (dominated_em Y z) as [D|D]; [rewrite (count_none big _ cs1 z P1 (K D)); lia|].
    rewrite (count_one big _ cs1 z P1 K2), (count_one big _ cs2 z P2 (proj2 (A2 z SA) D)). lia.
Qed.
Lemma threshold_cells argsort argmax alpha ref batches big : sorts argsort -> finds_max argmax -> (forall B, In B batches -> rectangular (length ref) B) -> batches <> [] ->
  below_cut big ref -> (forall y, In y (concat batches) -> below_cut big y) ->
  exists d cs, updates argsort argmax alpha ref batches = Some d /\ bounds_of ref d = Some cs /\ proper_cells big (length ref) cs /\ nothing_below cs ref /\
    forall z, strictly_above ref z -> (dominated_by (concat batches) z -> in_none z cs) /\ (in_none z cs \/ in_exactly_one z cs).
Proof.
  intros HS HM R NE HC HY. destruct (updates_good argsort argmax HS alpha ref batches R NE) as (d & E & (R1 & Y0 & R0 & IN & F & C & D) & EY). rewrite EY in *.
  assert (SP : exists cs, cells_of argsort argmax alpha ref (neg_front argsort true ref Y0) = Some cs /\
    (forall z, strictly_above ref z -> (dominated_by Y0 z -> in_none z (map (cell_bounds (neg_front argsort true ref Y0) ref) cs)) /\
      (in_none z (map (cell_bounds (neg_front argsort true ref Y0) ref) cs) \/ in_exactly_one z (map (cell_bounds (neg_front argsort true ref Y0) ref) cs))) /\
    nothing_below (map (cell_bounds (neg_front argsort true ref Y0) ref) cs) ref).
  { unfold cells_of. destruct (Nat.eqb_spec (length ref) 2) as [E2|E2].
    - clear - HS R0 E2. destruct ref as [|r0 [|r1 [|]]]; try discriminate. eexists. split; [reflexivity|]. destruct (class_2d argsort HS r0 r1 Y0 R0) as [PA NB]. split; [|exact NB].
      intros z Hz. destruct (PA z Hz) as [A B]. split; [exact A|]. destruct (dominated_em Y0 z) as [K|K]; [left; auto|right; auto].
    - destruct (binary_cells argsort argmax HS HM alpha ref Y0 R0) as (cs & C' & _ & B2 & B3). exists cs. split; [apply C'; lia|]. split; auto. }
  destruct SP as (cs & EC & PA & NB). exists d, (map (cell_bounds (neg_front argsort true ref Y0) ref) cs). split; [exact E|].
  split; [unfold bounds_of; now rewrite C, F, EC|]. split; [apply (index_proper argsort argmax HS HM ref Y0 R0 alpha cs big EC HC); intros y Hy; apply HY, IN, Hy|]. split; [exact NB|].
  intros z SA. destruct (PA z SA) as [A B]. split; [intros K; apply A, (D z SA), K|exact B].
Qed.

(** C291.  For every threshold, the class returns cells, and the acquisition function over them never exceeds that over the cells of an
    exact decomposition of any class, at any prediction; it is never negative. *)
Theorem C291_underestimates :
  forall argsort argmax alpha ref batches big pred, sorts argsort -> finds_max argmax ->
    (forall B, In B batches -> rectangular (length ref) B) -> batches <> [] -> length pred = length ref ->
    below_cut big ref -> (forall y, In y (concat batches) -> below_cut big y) ->
    exists d cs cells, updates argsort argmax alpha ref batches = Some d /\ bounds_of ref d = Some cs /\ real_cells cs = Some cells /\ (0 <= forward big cells pred)%R /\
      forall cs' cells', decomposition ref batches cs' -> real_cells cs' = Some cells' -> (forward big cells pred <= forward big cells' pred)%R.
Proof.
  intros argsort argmax alpha ref batches big pred HS HM R NE L HC HY. destruct (threshold_cells argsort argmax alpha ref batches big HS HM R NE HC HY) as (d & cs & E & Eb & PR & NB & PA).
  destruct (real_cells_ok big (length ref) cs pred PR L) as (cells & Ec & OK). exists d, cs, cells. split; [exact E|]. split; [exact Eb|]. split; [exact Ec|]. split.
  - rewrite (forward_values big cells pred OK). apply Rle_trans with (sum (map (fun _ : list side => 0%R) cells)); [rewrite sum_zero; apply Rle_refl|]. apply sum_le. intros c Hc. rewrite List.Forall_forall in OK.
    apply (cell_mono big c pred pred (at_least_refl pred) (OK c Hc)).
  - intros cs' cells' D Ec'. destruct (decomposed ref batches big cs' NE R HC HY D) as (PA' & _ & PR'). exact (part_le big pred ref cs cs' (concat batches) cells cells' L PR PR' PA NB PA' Ec Ec').
Qed.
Print Assumptions C291_underestimates.

(** A threshold of one fifth leaves cells out: of the 11 that the outcome (3, 4, 5/2) adds, 4 are counted. *)
Example C291_case :
  let H := [[[1; 5; 2]]; [[4; 1; 2]; [-1; 1; 1]]; []; [[2; 3; 3]; [1; 5; 2]]]%Q in let ref := [0; 0; 0]%Q in
  (forall B, In B H -> rectangular 3 B) /\
  map (fun alpha => option_map (fun d => option_map (fun cs => (length cs, option_map Qred (total_gain cs [3; 4; 5 # 2]%Q))) (bounds_of ref d)) (updates argsort_stable first_max alpha ref H)) [0; 1 # 5]%Q =
    [Some (Some (13, Some 11%Q)); Some (Some (2, Some 4%Q))].
Proof. cbv zeta. split; [intros B HB p Hp; simpl in HB; intuition (subst; simpl in Hp; intuition (subst; reflexivity))|vm_compute; reflexivity]. Qed.
