(** Lemmas: what the cells of a decomposition measure of an outcome. *)
From Coq Require Import List Bool Arith ZArith QArith Qminmax Lia Lqa.
From Verif Require Import Lib_List Model_Pareto Spec_Pareto Model_Boxes Spec_Boxes Proofs_Boxes Proofs_BoxFront Proofs_Box2D Proofs_BoxRuns Model_Lacour Proofs_LacourRuns Spec_HV Proofs_HVmeasure Proofs_HVgrid
  Model_CellVolume Proofs_CellVolume Proofs_CellClip Proofs_CellIndex Proofs_CellFast Spec_Improve.
Import ListNotations.
Open Scope nat_scope.

Lemma side_clip lo hi y : lo <> NInf -> hi <> NInf -> exists g, side_gain lo hi y = Some g /\ (g == clamp (clipQ lo y) (clipQ hi y))%Q.
Proof.
  unfold clamp. destruct lo as [|a|], hi as [|b|]; intros HA HB; try congruence; cbn [side_gain clipQ]; eexists; (split; [reflexivity|]).
  - destruct (Qle_bool a y) eqn:E1; destruct (Qle_bool b y) eqn:E2; try (apply Qle_bool_iff in E1); try (apply Qle_bool_iff in E2); try (apply Qle_bool_false in E1); try (apply Qle_bool_false in E2).
    + destruct (Qle_bool a b) eqn:E3; [apply Qle_bool_iff in E3|apply Qle_bool_false in E3].
      * rewrite (Q.min_r y b) by lra. rewrite Q.max_r by lra. reflexivity.
      * rewrite (Q.min_r y b) by lra. rewrite Q.max_l by lra. reflexivity.
    + assert (T : Qle_bool a y = true) by (apply Qle_bool_iff; lra). rewrite T. rewrite (Q.min_l y b) by lra. rewrite Q.max_r by lra. reflexivity.
    + destruct (Qle_bool y b) eqn:E3; [apply Qle_bool_iff in E3|apply Qle_bool_false in E3]; rewrite (Q.min_r y b) by lra; rewrite Q.max_l by lra; lra.
    + assert (T : Qle_bool y y = true) by (apply Qle_bool_iff; lra). rewrite T. rewrite (Q.min_l y b) by lra. rewrite Q.max_l by lra. lra.
  - destruct (Qle_bool a y) eqn:E1; [apply Qle_bool_iff in E1 as E|apply Qle_bool_false in E1 as E].
    + rewrite E1. rewrite Q.max_r by lra. reflexivity.
    + assert (T : Qle_bool y y = true) by (apply Qle_bool_iff; lra). rewrite T. rewrite Q.max_l by lra. lra.
  - destruct (Qle_bool b y) eqn:E1; [apply Qle_bool_iff in E1|apply Qle_bool_false in E1].
    + destruct (Qle_bool y b) eqn:E3; [apply Qle_bool_iff in E3; lra|reflexivity].
    + destruct (Qle_bool y y); lra.
  - destruct (Qle_bool y y); lra.
Qed.
Lemma gain_box : forall lo hi y, length lo = length y -> length hi = length y ->
  (forall j, j < length y -> nth j lo NInf <> NInf /\ nth j hi NInf <> NInf) ->
  exists g, cell_gain lo hi y = Some g /\
    (g == boxvol (map (fun j => clipQ (nth j lo NInf) (nth j y 0%Q)) (seq 0 (length y))) (map (fun j => clipQ (nth j hi NInf) (nth j y 0%Q)) (seq 0 (length y))))%Q.
Proof.
  induction lo as [|a lo IH]; intros [|b hi] [|v y] L1 L2 H; simpl in L1, L2; try lia.
  - exists 1%Q. split; reflexivity.
  - destruct (H 0 ltac:(simpl; lia)) as [A B]. cbn [nth] in A, B. destruct (side_clip a b v A B) as (g & Eg & Hg).
    destruct (IH hi y ltac:(lia) ltac:(lia)) as (p & Ep & Hp). { intros j Hj. apply (H (S j)). simpl. lia. }
    exists (g * p)%Q. cbn [cell_gain]. rewrite Eg, Ep. split; [reflexivity|]. cbn [length seq map boxvol nth]. rewrite <- !seq_shift, !map_map. cbn [nth]. rewrite Hg, Hp. reflexivity.
Qed.
Lemma total_sum (f : box -> Q) y cs : (forall c, In c cs -> exists g, cell_gain (fst c) (snd c) y = Some g /\ (g == f c)%Q) ->
  exists s, total_gain cs y = Some s /\ (s == sumQ (map f cs))%Q.
Proof.
  induction cs as [|c cs IH]; intros H; cbn [total_gain map]; [exists 0%Q; split; reflexivity|]. destruct (H c (or_introl eq_refl)) as (g & -> & Eg). destruct IH as (s & -> & Es); [intros d Hd; apply H; now right|].
  exists (g + s)%Q. split; [reflexivity|]. change (sumQ (f c :: map f cs)) with (f c + sumQ (map f cs))%Q. rewrite Eg, Es. reflexivity.
Qed.

Section Improve.
  Variables (ref : vec) (Y : list vec) (Gs : list (list Q)) (y : vec).
  Notation m := (length ref).
  Hypothesis HR : rectangular m (y :: Y).
  Hypothesis HG : grid_for Gs ref (y :: Y).
  Variable cs : list box.
  Hypothesis PA : partitions cs ref Y.
  Hypothesis NB : nothing_below cs ref.
  Hypothesis OK : forall c, In c cs -> length (fst c) = m /\ length (snd c) = m /\ forall j, j < m -> bound_ok Gs j (nth j (fst c) NInf) /\ bound_ok Gs j (nth j (snd c) NInf).

  Let cl (es : list ext) : vec := map (fun j => clipQ (nth j es NInf) (nth j y 0%Q)) (seq 0 m).
  Lemma cl_nth es k : k < m -> nth k (cl es) 0%Q = clipQ (nth k es NInf) (nth k y 0%Q).
  Proof. intros Hk. unfold cl. now rewrite nth_seq_map. Qed.
  Lemma y_lines : lines ref Gs y.
  Proof. apply (lines_y ref (y :: Y) Gs HR HG). now left. Qed.
  Lemma cl_lines c : In c cs -> lines ref Gs (cl (fst c)) /\ lines ref Gs (cl (snd c)).
  Proof.
    intros Hc. destruct (OK c Hc) as (_ & _ & O). split; (split; [unfold cl; now rewrite map_length, seq_length|]); intros k Hk; rewrite cl_nth by exact Hk; apply bound_clip; try apply (O k Hk); apply y_lines, Hk.
  Qed.
  Definition under (z : vec) : Prop := forall k, k < m -> (nth k z 0 <= nth k y 0)%Q.
  Lemma fin_inside c z : In c cs -> length z = m -> under z -> (fin z (cl (fst c), cl (snd c)) <-> inside z c).
  Proof.
    intros Hc Lz Wz. destruct (OK c Hc) as (L1 & L2 & OKc). unfold fin, inside. cbn [fst snd]. rewrite (F2_nth above NInf 0%Q) by congruence. rewrite (F2_nth upto 0%Q NInf) by congruence. rewrite L1, Lz. split.
    - intros F. split; intros k Hk; destruct (F k Hk) as [F1 F2]; rewrite cl_nth in F1, F2 by exact Hk; destruct (OKc k Hk) as [O1 O2];
        destruct (bound_clip Gs k _ y O1 (proj2 y_lines k Hk)) as [N1 _]; destruct (bound_clip Gs k _ y O2 (proj2 y_lines k Hk)) as [N2 _].
      + apply (clip_above _ (nth k y 0%Q)); auto.
      + apply (clip_upto _ (nth k y 0%Q)); auto.
    - intros [A B] k Hk. rewrite !cl_nth by exact Hk. destruct (OKc k Hk) as [O1 O2]. destruct (bound_clip Gs k _ y O1 (proj2 y_lines k Hk)) as [N1 _]; destruct (bound_clip Gs k _ y O2 (proj2 y_lines k Hk)) as [N2 _].
      split; [apply clip_above; auto|apply clip_upto; auto].
  Qed.
  Lemma fin_under c z : In c cs -> length z = m -> fin z (cl (fst c), cl (snd c)) -> under z.
  Proof.
    intros Hc Lz F k Hk. destruct (F k ltac:(lia)) as [_ K]. cbn [snd] in K. rewrite cl_nth in K by exact Hk. destruct (OK c Hc) as (_ & _ & O). destruct (O k Hk) as [_ O2].
    destruct (bound_clip Gs k _ y O2 (proj2 y_lines k Hk)) as [N2 _]. assert (T := clip_le _ (nth k y 0%Q) N2). lra.
  Qed.

  Lemma improve_cell c : In c (cells Gs) -> (sumQ (map (fun b => if between (cl (fst b)) (cl (snd b)) c then volume c else 0) cs) ==
    (if existsb (fun y => between ref y c) (y :: Y) then volume c else 0) - (if existsb (fun y => between ref y c) Y then volume c else 0))%Q.
  Proof.
    intros Hc. set (z := map snd c). assert (Lz : length z = m) by apply (z_len ref (y :: Y) Gs HG c Hc).
    assert (BF : forall b, In b cs -> (between (cl (fst b)) (cl (snd b)) c = true <-> fin z (cl (fst b), cl (snd b)))).
    { intros b Hb. destruct (cl_lines b Hb). apply (between_fin ref (y :: Y) Gs HG c Hc); auto. }
    assert (ZERO : forall l, (forall b, In b l -> In b cs) -> (forall b, In b l -> ~ fin z (cl (fst b), cl (snd b))) -> (sumQ (map (fun b => if between (cl (fst b)) (cl (snd b)) c then volume c else 0) l) == 0)%Q).
    { intros l I H. rewrite <- (sum_zero l). apply sum_ext. intros b Hb. destruct (between (cl (fst b)) (cl (snd b)) c) eqn:E; [|reflexivity]. exfalso. apply (H b Hb), BF; auto. }
    assert (LR := lines_ref ref (y :: Y) Gs HG).
    assert (YB : forall v, In v (y :: Y) -> (between ref v c = true <-> strictly_above ref z /\ forall k, k < m -> (nth k z 0 <= nth k v 0)%Q)).
    { intros v Hv. rewrite (between_fin ref (y :: Y) Gs HG c Hc ref v LR (lines_y ref (y :: Y) Gs HR HG v Hv)). fold z. split.
      - intros F. split; [apply (fin_above ref (y :: Y) Gs HG c Hc v F)|]. intros k Hk. apply F. lia.
      - intros [SA W] k Hk. rewrite Lz in Hk. cbn [fst snd]. split; [apply (above_nth ref (y :: Y) Gs HG c Hc k SA Hk)|apply W, Hk]. }
    assert (CV : forall v, In v (y :: Y) -> (covers v z <-> forall k, k < m -> (nth k z 0 <= nth k v 0)%Q)).
    { intros v Hv. unfold covers. rewrite (F2_nth Qle 0%Q 0%Q) by (rewrite Lz; symmetry; apply HR, Hv). rewrite Lz. reflexivity. }
    assert (DOM : existsb (fun y => between ref y c) Y = true <-> strictly_above ref z /\ dominated_by Y z).
    { rewrite existsb_exists. split.
      - intros (v & Hv & B). apply YB in B as [SA W]; [|now right]. split; [exact SA|]. exists v. split; [exact Hv|]. apply CV; [now right|exact W].
      - intros (SA & v & Hv & C). exists v. split; [exact Hv|]. apply YB; [now right|]. split; [exact SA|]. apply CV; [now right|exact C]. }
    cbn [existsb]. destruct (between ref y c) eqn:EY.
    - apply YB in EY as [SA W]; [|now left]. cbn [orb]. destruct (existsb (fun y => between ref y c) Y) eqn:ED.
      + destruct (proj1 DOM eq_refl) as [_ D]. rewrite (ZERO cs); [ring|auto|]. intros b Hb F. apply (fin_inside b z Hb Lz W) in F. destruct (PA z SA) as [A _]. exact (A D b Hb F).
      + assert (ND : ~ dominated_by Y z) by (intros D; assert (K := proj2 DOM (conj SA D)); congruence).
        destruct (PA z SA) as [_ A]. destruct (A ND) as (l & b & r & E & I & O). assert (Hb : In b cs) by (rewrite E; apply in_app_iff; simpl; auto).
        assert (BB : between (cl (fst b)) (cl (snd b)) c = true) by (apply BF; [exact Hb|]; apply fin_inside; auto).
        assert (IL : forall d, In d (l ++ r) -> In d cs) by (intros d Hd; rewrite E; apply in_app_iff in Hd; apply in_app_iff; simpl; tauto).
        assert (OO : forall d, In d (l ++ r) -> ~ fin z (cl (fst d), cl (snd d))) by (intros d Hd F; apply (fin_inside d z (IL d Hd) Lz W) in F; exact (O d Hd F)).
        rewrite E, map_app, sum_app. cbn [map]. rewrite BB. change (sumQ (volume c :: ?x)) with (volume c + sumQ x)%Q.
        rewrite (ZERO l), (ZERO r); [ring| | | |]; intros d Hd; try apply IL; try apply OO; apply in_app_iff; auto.
    - cbn [orb]. rewrite (ZERO cs); [ring|auto|]. intros b Hb F. assert (W := fin_under b z Hb Lz F). apply (fin_inside b z Hb Lz W) in F.
      destruct (above_dec ref z Lz) as [SA|NS]; [|exact (NB z Lz NS b Hb F)]. enough (K : between ref y c = true) by congruence. apply YB; [now left|]. auto.
  Qed.

  Theorem improve : exists s, total_gain cs y = Some s /\ (s == measure Gs ref (y :: Y) - measure Gs ref Y)%Q.
  Proof.
    destruct (grid_lines ref (y :: Y) Gs HG) as [LG G]. assert (Ly : length y = m) by (apply HR; now left).
    destruct (total_sum (fun c => boxvol (cl (fst c)) (cl (snd c))) y cs) as (s & E & Hs).
    { intros c Hc. destruct (OK c Hc) as (L1 & L2 & O). unfold cl. rewrite <- Ly. apply gain_box; [congruence|congruence|]. intros j Hj. rewrite Ly in Hj. destruct (O j Hj) as [O1 O2].
      split; eapply bound_clip; eauto; apply y_lines, Hj. }
    exists s. split; [exact E|]. rewrite Hs. unfold measure.
    rewrite (sum_ext (fun c => boxvol (cl (fst c)) (cl (snd c))) (fun b => sumQ (map (fun c => if between (cl (fst b)) (cl (snd b)) c then volume c else 0%Q) (cells Gs))) cs).
    - rewrite <- (sum_swap (fun c b => if between (cl (fst b)) (cl (snd b)) c then volume c else 0%Q) (cells Gs) cs).
      rewrite (sum_ext _ (fun c => (if existsb (fun y => between ref y c) (y :: Y) then volume c else 0) + (-1) * (if existsb (fun y => between ref y c) Y then volume c else 0))%Q (cells Gs))
        by (intros c Hc; rewrite (improve_cell c Hc); ring).
      rewrite sum_plus, sum_scale. ring.
    - intros b Hb. destruct (cl_lines b Hb) as [[A1 A2] [B1 B2]]. symmetry. apply box_volume; [congruence|congruence|]. intros k Hk. rewrite LG in Hk. split; [apply (G k Hk)|]. auto.
  Qed.
End Improve.

(** The cells of the classes. *)
Lemma inv_bounds ref o Gs : 2 <= length ref -> Inv ref o -> grid_for Gs ref (f_Y o) ->
  forall c, In c (f_cells o) -> length (fst c) = length ref /\ length (snd c) = length ref /\ forall j, j < length ref -> bound_ok Gs j (nth j (fst c) NInf) /\ bound_ok Gs j (nth j (snd c) NInf).
Proof.
  intros Hm (R & F & C & [[E0 ->]|(NP & N & L & _ & Z1 & FN & _ & Z2)]) HG.
  - intros c [<-|[]]. cbn [fst snd]. rewrite map_length, repeat_length. split; [reflexivity|]. split; [reflexivity|]. intros j Hj. split.
    + right. exists (nth j ref 0%Q). split; [now rewrite val_nth by assumption|]. destruct (grid_lines ref (f_Y o) Gs HG) as [_ G]. destruct (G j Hj) as (_ & K & _). exact K.
    + left. apply nth_repeat'. exact Hj.
  - destruct (two_passes ref Hm N (from_under ref Hm _ _ FN)) as (L' & cells & A1 & A2 & _ & OV & _). assert (L' = L) by congruence. subst L'. assert (cells = f_cells o) by congruence. subst cells.
    assert (OK : forall j e, j < length ref -> from_values ref N j e -> bound_ok Gs j e).
    { intros j e Hj [->|(v & -> & [E|(p & Hp & E)])]; [left; reflexivity| |]; right; exists v; (split; [reflexivity|]).
      - destruct (grid_lines ref (f_Y o) Gs HG) as [_ G]. destruct (G j Hj) as (_ & K & _). apply (on_line_eq (nth j ref 0%Q)); [lra|exact K].
      - apply (on_line_eq (- nth j p 0)%Q); [lra|]. apply (front_line ref (f_Y o) Gs N R HG FN p j Hp Hj). }
    intros c Hc. destruct (OV c Hc) as (L1 & L2 & O). split; [exact L1|]. split; [exact L2|]. intros j Hj. destruct (O j Hj). auto.
Qed.
Lemma with_new (ref y : vec) (Y : list vec) : rectangular (length ref) Y -> length y = length ref -> rectangular (length ref) (y :: Y).
Proof. intros R L p [<-|Hp]; auto. Qed.
Lemma inv_improve ref o Gs (y : vec) : 2 <= length ref -> Inv ref o -> length y = length ref -> grid_for Gs ref (y :: f_Y o) ->
  exists s, total_gain (f_cells o) y = Some s /\ (s == measure Gs ref (y :: f_Y o) - measure Gs ref (f_Y o))%Q.
Proof.
  intros Hm HI Ly HG. destruct (inv_partitions ref Hm o HI) as [PA NB]. assert (R : rectangular (length ref) (f_Y o)) by apply HI.
  apply improve; auto; [now apply with_new|]. apply inv_bounds; auto. eapply grid_sub; [|exact HG]. intros v Hv. now right.
Qed.

Lemma two_bounds argsort r0 r1 Y Gs cs : sorts argsort -> rectangular 2 Y -> grid_for Gs [r0; r1] Y -> fast_partitioning_2d argsort [r0; r1] Y = Some cs ->
  forall c, In c cs -> length (fst c) = 2 /\ length (snd c) = 2 /\ forall j, j < 2 -> bound_ok Gs j (nth j (fst c) NInf) /\ bound_ok Gs j (nth j (snd c) NInf).
Proof.
  intros HS HR HG E. destruct (sorted_front argsort HS [r0; r1] Y HR) as [FO RE].
  destruct (grid_lines [r0; r1] Y Gs HG) as [_ G]. destruct (G 0 ltac:(simpl; lia)) as (_ & G0 & _). destruct (G 1 ltac:(simpl; lia)) as (_ & G1 & _). cbn [nth] in G0, G1.
  unfold fast_partitioning_2d in E. destruct (neg_front argsort true [r0; r1] Y) as [|p0 P0] eqn:EP.
  - injection E as <-. intros c [<-|[]]. split; [reflexivity|]. split; [reflexivity|]. intros [|[|j]] Hj; [| |lia]; cbn [map fst snd nth]; (split; [right|now left]); [exists r0|exists r1]; auto.
  - rewrite nd_cells_stairs in E by (simpl; intros K; apply app_eq_nil in K; destruct K; discriminate). cbn [fst snd nth] in E. injection E as E. rewrite <- EP in *.
    assert (PT : forall q, In q (rev (map (fun p => ((- nth 0 p 0)%Q, (- nth 1 p 0)%Q)) (neg_front argsort true [r0; r1] Y))) -> on_line (fst q) (nth 0 Gs []) /\ on_line (snd q) (nth 1 Gs [])).
    { intros q Hq. apply in_rev in Hq. apply in_map_iff in Hq as (p & <- & Hp). cbn [fst snd]. split; apply (front_line [r0; r1] Y Gs _ HR HG FO p); auto; simpl; lia. }
    intros c Hc. rewrite <- E in Hc. change (rev (map (fun p => ((- nth 0 p 0)%Q, (- nth 1 p 0)%Q)) P0) ++ [((- nth 0 p0 0)%Q, (- nth 1 p0 0)%Q)]) with (rev (map (fun p => ((- nth 0 p 0)%Q, (- nth 1 p 0)%Q)) (p0 :: P0))) in Hc.
    rewrite <- EP in Hc. destruct (stairs_values _ _ _ _ Hc) as (a & b & u & -> & A & B & U). split; [reflexivity|]. split; [reflexivity|].
    intros [|[|j]] Hj; [| |lia]; cbn [fst snd nth].
    + split; [right; exists a; split; [reflexivity|]; destruct A as [->|(q & Hq & ->)]; [exact G0|apply PT, Hq]|].
      destruct U as [->|(q & Hq & ->)]; [now left|right; exists (fst q); split; [reflexivity|apply PT, Hq]].
    + split; [right; exists b; split; [reflexivity|]; destruct B as [->|(q & Hq & ->)]; [exact G1|apply PT, Hq]|now left].
Qed.
Lemma two_improve argsort r0 r1 Y Gs (y : vec) : sorts argsort -> rectangular 2 Y -> length y = 2 -> grid_for Gs [r0; r1] (y :: Y) ->
  exists cs s, fast_partitioning_2d argsort [r0; r1] Y = Some cs /\ total_gain cs y = Some s /\ (s == measure Gs [r0; r1] (y :: Y) - measure Gs [r0; r1] Y)%Q.
Proof.
  intros HS HR Ly HG. destruct (fast_2d argsort HS r0 r1 Y HR) as (cs & E & PA & NB).
  destruct (improve [r0; r1] Y Gs y (with_new [r0; r1] y Y HR Ly) HG cs PA NB) as (s & E1 & E2); [|exists cs, s; auto].
  apply (two_bounds argsort r0 r1 Y Gs cs HS HR); [|exact E]. eapply grid_sub; [|exact HG]. intros v Hv. now right.
Qed.

Lemma index_bounds argsort argmax alpha ref Y Gs cs : sorts argsort -> finds_max argmax -> rectangular (length ref) Y -> grid_for Gs ref Y ->
  cells_of argsort argmax alpha ref (neg_front argsort true ref Y) = Some cs ->
  forall c, In c (map (cell_bounds (neg_front argsort true ref Y) ref) cs) -> length (fst c) = length ref /\ length (snd c) = length ref /\
    forall j, j < length ref -> bound_ok Gs j (nth j (fst c) NInf) /\ bound_ok Gs j (nth j (snd c) NInf).
Proof.
  intros HS HM HR HG E. destruct (sorted_front argsort HS ref Y HR) as [FO RE].
  assert (LC : forall c, In c cs -> length c = length ref).
  { intros c Hc. unfold cells_of in E. destruct (Nat.eqb_spec (length ref) 2) as [E2|E2].
    - injection E as <-. apply in_map_iff in Hc as (i & <- & _). now rewrite E2.
    - destruct (neg_front argsort true ref Y) as [|p0 P0] eqn:EP.
      + injection E as <-. destruct Hc as [<-|[]]. unfold cell_idx. now rewrite map_length, indexed_len, repeat_length.
      + rewrite <- EP in E. exact (proj1 (space_mono argsort argmax HS HM ref Y HR ltac:(rewrite EP; discriminate) alpha _ cs E c Hc)). }
  assert (B : forall i j, j < length ref -> bound_ok Gs j (eopp (bound_at (neg_front argsort true ref Y) ref i j))).
  { intros [|k] j Hj; [left; reflexivity|]. right. cbn [bound_at]. destruct (nth_error (neg_front argsort true ref Y) k) as [p|] eqn:Ep; cbn [eopp]; eexists; (split; [reflexivity|]).
    - apply (front_line ref Y Gs _ HR HG FO p j); [eapply nth_error_In; eauto|exact Hj].
    - destruct (grid_lines ref Y Gs HG) as [_ G]. destruct (G j Hj) as (_ & K & _). apply (on_line_eq (nth j ref 0%Q)); [lra|exact K]. }
  intros c Hc. apply in_map_iff in Hc as (d & <- & Hd). unfold cell_bounds. cbn [fst snd]. rewrite !map_length, !indexed_len, (LC d Hd). split; [reflexivity|]. split; [reflexivity|].
  intros j Hj. destruct (lt_nth_error d j ltac:(rewrite (LC d Hd); exact Hj)) as (lu & El).
  split; erewrite nth_error_nth by (rewrite nth_error_map, nth_error_indexed, El; reflexivity); cbn [fst snd]; apply B, Hj.
Qed.
