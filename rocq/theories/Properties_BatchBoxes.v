(** Properties C264, C265: box decompositions of several sets of outcomes at once. *)
From Coq Require Import List Bool Arith ZArith QArith Lia Lqa.
From Verif Require Import Lib_List Model_Pareto Spec_Pareto Proofs_Pareto Model_Boxes Spec_Boxes Spec_HV Proofs_HVgrid Model_CellVolume Model_BatchBoxes Spec_BatchBoxes Proofs_LacourRuns Proofs_BatchBoxes Proofs_BatchClass.
Import ListNotations.
Open Scope nat_scope.

(** C264.  NondominatedPartitioning with one reference point for all sets: after the constructor and any further updates with batches of b
    sets, every set has the cells and the volume that belong to its own outcomes, whatever the other sets contain. *)
Theorem C264_one_reference :
  forall argsort r0 r1 b Bs, sorts argsort -> 0 < b -> Bs <> [] -> (forall B, In B Bs -> tensor b B) ->
    exists d cells hv, batch_run argsort (index_cells argsort) (One [r0; r1]) Bs = Some d /\ index_bounds (One [r0; r1]) d = Some cells /\
      index_volumes (One [r0; r1]) d = Some hv /\ decomposed b (fun _ => [r0; r1]) Bs cells hv.
Proof.
  intros argsort r0 r1 b Bs HS Hb NE HT.
  destruct (index_batch argsort HS (One [r0; r1]) b (repeat [r0; r1] b) Hb eq_refl) with (Bs := Bs) as (d & cells & hv & E & EC & EV & LC & LV & U & P); auto.
  - intros p Hp. apply repeat_spec in Hp. now subst.
  - apply repeat_length.
  - exists d, cells, hv. split; [exact E|]. split; [exact EC|]. split; [exact EV|]. split; [exact LC|]. split; [exact LV|]. split; [exact U|].
    intros i Hi. specialize (P i Hi). rewrite nth_repeat' in P by exact Hi. exact P.
Qed.
Print Assumptions C264_one_reference.

(** The same for FastNondominatedPartitioning, which keeps the bounds of its cells. *)
Theorem C264_fast_one_reference :
  forall argsort r0 r1 b Bs, sorts argsort -> 0 < b -> Bs <> [] -> (forall B, In B Bs -> tensor b B) ->
    exists d hv, batch_run argsort (fast_cells (One [r0; r1])) (One [r0; r1]) Bs = Some d /\
      fast_volumes (One [r0; r1]) d = Some hv /\ decomposed b (fun _ => [r0; r1]) Bs (b_cells d) hv.
Proof.
  intros argsort r0 r1 b Bs HS Hb NE HT.
  destruct (fast_batch argsort HS (One [r0; r1]) b (repeat [r0; r1] b) Hb eq_refl) with (Bs := Bs) (K := fun _ : list (list (list Q)) => True) as (d & hv & E & EV & LC & LV & U & P); auto.
  - intros p Hp. apply repeat_spec in Hp. now subst.
  - apply repeat_length.
  - intros Ys k Ps _ T M ->. rewrite (made_none argsort HS b (repeat [r0; r1] b) Hb) with (Ys := Ys) (Ps := Ps); auto.
    + destruct b as [|b]; [lia|]. cbn [repeat fast_cells map]. do 2 f_equal. clear. induction b as [|b IH]; [reflexivity|]. cbn [repeat map]. now rewrite IH.
    + intros p Hp. apply repeat_spec in Hp. now subst.
    + apply repeat_length.
  - exists d, hv. split; [exact E|]. split; [exact EV|]. split; [exact LC|]. split; [exact LV|]. split; [exact U|].
    intros i Hi. specialize (P i Hi). rewrite nth_repeat' in P by exact Hi. exact P.
Qed.
Print Assumptions C264_fast_one_reference.

Example C264_case :
  let B := [[[1#1; 5#1]; [3#1; 2#1]]; [[-1#1; 1#1]; [2#1; 2#1]]]%Q in let B' := [[[2#1; 4#1]]; [[0#1; 7#1]]]%Q in
  sorts argsort_stable /\ tensor 2 B /\ tensor 2 B' /\
  option_map (fun d => option_map (map Qred) (index_volumes (One [0; 0]%Q) d)) (batch_run argsort_stable (index_cells argsort_stable) (One [0; 0]%Q) [B; B'])
    = Some (Some [11#1; 4#1]%Q) /\
  option_map (fun d => option_map (map Qred) (fast_volumes (One [0; 0]%Q) d)) (batch_run argsort_stable (fast_cells (One [0; 0]%Q)) (One [0; 0]%Q) [B; B'])
    = Some (Some [11#1; 4#1]%Q).
Proof.
  cbv zeta. split; [apply argsort_stable_sorts|]. split; [|split; [|split; vm_compute; reflexivity]].
  - split; [reflexivity|]. split; [exists 2; intros Y H; simpl in H; intuition (subst; reflexivity)|]. intros Y y H Hy. simpl in H. intuition (subst; simpl in Hy; intuition (subst; reflexivity)).
  - split; [reflexivity|]. split; [exists 1; intros Y H; simpl in H; intuition (subst; reflexivity)|]. intros Y y H Hy. simpl in H. intuition (subst; simpl in Hy; intuition (subst; reflexivity)).
Qed.

(** C265.  NondominatedPartitioning with a reference point for each set. *)
Theorem C265_each_reference :
  forall argsort rs b Bs, sorts argsort -> 0 < b -> length rs = b -> (forall p, In p rs -> length p = 2) -> Bs <> [] -> (forall B, In B Bs -> tensor b B) ->
    exists d cells hv, batch_run argsort (index_cells argsort) (Each rs) Bs = Some d /\ index_bounds (Each rs) d = Some cells /\
      index_volumes (Each rs) d = Some hv /\ decomposed b (fun i => nth i rs []) Bs cells hv.
Proof.
  intros argsort rs b Bs HS Hb HL H2 NE HT. assert (HE : expand b (Each rs) = Some rs) by (cbn [expand]; now rewrite HL, Nat.eqb_refl).
  exact (index_batch argsort HS (Each rs) b rs Hb HE H2 HL Bs NE HT).
Qed.
Print Assumptions C265_each_reference.

(** The full claim for FastNondominatedPartitioning is the same; what is missing: two or more sets with no outcome better than the
    reference point of its set in the first batch. *)
Theorem C265_fast_each_partial :
  forall argsort rs b Bs, sorts argsort -> 0 < b -> length rs = b -> (forall p, In p rs -> length p = 2) -> Bs <> [] -> (forall B, In B Bs -> tensor b B) ->
    b = 1 \/ some_better b (fun i => nth i rs []) (hd [] Bs) ->
    exists d hv, batch_run argsort (fast_cells (Each rs)) (Each rs) Bs = Some d /\ fast_volumes (Each rs) d = Some hv /\
      decomposed b (fun i => nth i rs []) Bs (b_cells d) hv.
Proof.
  intros argsort rs b Bs HS Hb HL H2 NE HT HK. assert (HE : expand b (Each rs) = Some rs) by (cbn [expand]; now rewrite HL, Nat.eqb_refl).
  apply (fast_batch argsort HS (Each rs) b rs Hb HE H2 HL Bs (fun Ys => b = 1 \/ some_better b (fun i => nth i rs []) Ys) NE HT HK).
  - intros Ys Zs LY LZ [E|(i & y & Hi & Hy & A)]; [now left|]. right. exists i, y. split; [exact Hi|]. split; [|exact A]. rewrite joined_nth by lia. apply in_app_iff. now left.
  - intros Ys k Ps [E1|SB] T M ->.
    + rewrite (made_none argsort HS b rs Hb H2 HL Ys Ps M). subst b. destruct rs as [|p [|]]; try discriminate. now rewrite E1.
    + destruct (better_some argsort HS b rs Hb H2 HL Ys Ps 0 T M SB eq_refl).
Qed.
Print Assumptions C265_fast_each_partial.

(** In that case the constructor raises. *)
Theorem C265_fast_each_refuted :
  forall argsort rs b B, sorts argsort -> 2 <= b -> length rs = b -> (forall p, In p rs -> length p = 2) -> tensor b B ->
    ~ some_better b (fun i => nth i rs []) B -> batch_run argsort (fast_cells (Each rs)) (Each rs) [B] = None.
Proof.
  intros argsort rs b B HS Hb HL H2 T NB. assert (HE : expand b (Each rs) = Some rs) by (cbn [expand]; now rewrite HL, Nat.eqb_refl).
  assert (Hb0 : 0 < b) by lia. destruct (fronts_made argsort HS (Each rs) b rs Hb0 HE HL B T) as (k & Ps & E & M).
  cbn [batch_run batch_update]. unfold batch_reset. rewrite E.
  assert (EP : Ps = map (fun _ => []) B).
  { assert (FP : forall i, i < b -> front_points (nth i rs []) (nth i B []) = []).
    { intros i Hi. apply none_points. intros y Hy. split; [rewrite (tensor_nth b B i T Hi y Hy); symmetry; apply H2, nth_In; lia|]. intros A. apply NB. exists i, y. auto. }
    unfold batch_fronts in E. destruct B as [|[|y Y] B']; [discriminate|injection E as <-; reflexivity|]. rewrite (proj1 T), HE in E. revert E FP. set (B := (y :: Y) :: B'). intros E FP.
    set (Fs := map (fun ry => front_points (fst ry) (snd ry)) (combine rs B)) in E.
    assert (LB : length B = b) by exact (proj1 T).
    assert (LF : length Fs = b) by (unfold Fs; rewrite map_length, combine_length; lia).
    assert (EF : Fs = repeat [] b). { apply nth_ext with (d := []) (d' := []); [now rewrite repeat_length|]. intros i Hi. rewrite LF in Hi. rewrite nth_repeat' by exact Hi. unfold Fs. rewrite (nth_map_combine _ [] []) by lia. apply FP, Hi. }
    assert (K0 : list_max (map (@length vec) Fs) = 0). { rewrite EF. clear. induction b as [|b IH]; [reflexivity|]. cbn [repeat map list_max fold_right length]. exact IH. }
    rewrite K0 in E. injection E as <-. apply nth_ext with (d := []) (d' := []); [rewrite !map_length, combine_length; lia|].
    intros i Hi. rewrite map_length, combine_length in Hi. rewrite (nth_map_combine _ [] []) by lia. rewrite (nth_map' _ []) by lia. cbn [fst snd]. rewrite EF, nth_repeat' by lia.
    unfold sorted_neg. cbn [pad repeat map]. destruct (HS []) as [HP _]. unfold col. cbn [map] in *. cbn [length seq] in HP. apply Permutation.Permutation_sym, Permutation.Permutation_nil in HP. now rewrite HP. }
  rewrite EP. assert (LB := proj1 T). destruct B as [|Y0 [|Y1 B]]; simpl in LB; [lia|lia|]. destruct rs as [|p [|q rs]]; simpl in HL; [lia|lia|]. reflexivity.
Qed.
Print Assumptions C265_fast_each_refuted.

Example C265_case :
  let B := [[[1#1; 5#1]; [3#1; 2#1]]; [[-1#1; 1#1]; [2#1; 2#1]]]%Q in let rs := [[0; 0]; [1; 1]]%Q in let low := [[[1#1; -5#1]]; [[1#1; 7#1]]]%Q in
  tensor 2 B /\ some_better 2 (fun i => nth i rs []) B /\ tensor 2 low /\ ~ some_better 2 (fun i => nth i rs []) low /\
  option_map (fun d => option_map (map Qred) (index_volumes (Each rs) d)) (batch_run argsort_stable (index_cells argsort_stable) (Each rs) [B; low])
    = Some (Some [9#1; 1#1]%Q) /\
  option_map (fun d => option_map (map Qred) (fast_volumes (Each rs) d)) (batch_run argsort_stable (fast_cells (Each rs)) (Each rs) [B; low])
    = Some (Some [9#1; 1#1]%Q) /\
  batch_run argsort_stable (fast_cells (Each rs)) (Each rs) [low] = None.
Proof.
  cbv zeta. split; [|split; [|split; [|split; [|split; [vm_compute; reflexivity|split; vm_compute; reflexivity]]]]].
  - split; [reflexivity|]. split; [exists 2; intros Y H; simpl in H; intuition (subst; reflexivity)|]. intros Y y H Hy. simpl in H. intuition (subst; simpl in Hy; intuition (subst; reflexivity)).
  - exists 0, [1#1; 5#1]%Q. split; [lia|]. split; [simpl; auto|]. repeat constructor.
  - split; [reflexivity|]. split; [exists 1; intros Y H; simpl in H; intuition (subst; reflexivity)|]. intros Y y H Hy. simpl in H. intuition (subst; simpl in Hy; intuition (subst; reflexivity)).
  - intros (i & y & Hi & Hy & A). destruct i as [|[|]]; [| |lia]; simpl in Hy; destruct Hy as [<-|[]]; inversion A as [|? ? ? ? A1 A2]; subst; inversion A2 as [|? ? ? ? A3 _]; subst; vm_compute in A1, A3; discriminate.
Qed.
