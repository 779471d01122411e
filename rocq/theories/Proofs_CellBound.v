(** Lemmas about Model_CellVolume.v: the volume outside cells that do not fill the non-dominated region. *)
From Coq Require Import List Bool Arith ZArith QArith Qminmax Lia Lqa Permutation.
From Verif Require Import Lib_List Model_Pareto Spec_Pareto Model_Boxes Spec_Boxes Proofs_Boxes Proofs_BoxFront Proofs_Box2D Proofs_BoxRuns Model_Lacour Proofs_LacourRuns Spec_HV Proofs_HVmeasure Proofs_HVgrid Model_CellVolume Proofs_CellVolume Proofs_CellClip Proofs_CellIndex.
Import ListNotations.
Open Scope nat_scope.

Lemma clamp_nonneg a b : (0 <= clamp a b)%Q.
Proof. unfold clamp. destruct (Qle_bool a b) eqn:E; [apply Qle_bool_iff in E; lra|lra]. Qed.
Lemma boxvol_nonneg : forall lo hi, (0 <= boxvol lo hi)%Q.
Proof. induction lo as [|a lo IH]; intros [|b hi]; simpl; try lra. apply Qmult_le_0_compat; [apply clamp_nonneg|apply IH]. Qed.
Lemma boxvol_mono : forall lo hi hi', length hi = length hi' -> (forall k, k < length hi -> (nth k hi 0 <= nth k hi' 0)%Q) -> (boxvol lo hi <= boxvol lo hi')%Q.
Proof.
  induction lo as [|a lo IH]; intros [|b hi] [|b' hi'] L H; simpl; try discriminate; try lra.
  assert (B := H 0 ltac:(simpl; lia)). simpl in B.
  assert (C : (clamp a b <= clamp a b')%Q). { unfold clamp. destruct (Qle_bool a b) eqn:E1; destruct (Qle_bool a b') eqn:E2; try lra; [apply Qle_bool_iff in E1; apply Qle_bool_false in E2; lra|apply Qle_bool_iff in E2; lra]. }
  eapply Qle_trans; [apply (Qmult_le_compat_r _ _ _ C (boxvol_nonneg lo hi))|]. rewrite (Qmult_comm (clamp a b')), (Qmult_comm (clamp a b') (boxvol lo hi')). apply Qmult_le_compat_r; [|apply clamp_nonneg].
  apply IH; [simpl in L; lia|]. intros k Hk. apply (H (S k)). simpl. lia.
Qed.

Section Main.
  Variables (ref : vec) (Y : list vec) (Gs : list (list Q)) (best : vec) (boxes : list (vec * vec)).
  Notation m := (length ref).
  Hypothesis HR : rectangular m Y.
  Hypothesis HG : grid_for Gs ref Y.
  Notation lines := (lines ref Gs).
  Hypothesis HB : lines best.
  Hypothesis HI : forall y, In y Y -> strictly_above ref y -> forall k, k < m -> (nth k y 0 <= nth k best 0)%Q.
  Hypothesis HX : forall b, In b boxes -> lines (fst b) /\ lines (snd b).
  Notation within := (within ref best).
  Hypothesis P1 : forall z, within z -> strictly_above ref z -> dominated_by Y z -> forall b, In b boxes -> ~ fin z b.
  Hypothesis P2 : forall z, within z -> strictly_above ref z -> ~ dominated_by Y z ->
    (forall b, In b boxes -> ~ fin z b) \/ exists l b r, boxes = l ++ b :: r /\ fin z b /\ forall d, In d (l ++ r) -> ~ fin z d.
  Hypothesis P3 : forall z, length z = m -> ~ strictly_above ref z -> forall b, In b boxes -> ~ fin z b.
  Hypothesis P4 : forall b, In b boxes -> forall k, k < m -> (nth k (snd b) 0 <= nth k best 0)%Q.

  Lemma grid_lines : length Gs = m /\ forall k, k < m -> ascending (nth k Gs []) /\ on_line (nth k ref 0%Q) (nth k Gs []) /\ forall y, In y Y -> on_line (nth k y 0%Q) (nth k Gs []).
  Proof. destruct HG as [A B]. split; [exact A|]. intros k Hk. apply B. apply nth_error_nth'. lia. Qed.
  Lemma vol_nonneg c : In c (cells Gs) -> (0 <= volume c)%Q.
  Proof. intros Hc. apply Qlt_le_weak, (volume_pos Gs c); [|exact Hc]. intros G HGi. apply In_nth with (d := []) in HGi as (k & Hk & <-). destruct grid_lines as [L A]. apply A. lia. Qed.

  Section OneCell.
    Variable c : list (Q * Q).
    Hypothesis Hc : In c (cells Gs).
    Let z : vec := map snd c.
    Lemma c_len : length c = m.
    Proof. rewrite (cells_length _ _ Hc). apply grid_lines. Qed.
    Lemma z_len : length z = m.
    Proof. unfold z. rewrite map_length. apply c_len. Qed.
    Lemma z_nth k : k < m -> nth k z 0%Q = snd (nth k c (0, 0)%Q).
    Proof. intros Hk. unfold z. rewrite (nth_indep _ 0%Q (snd (0, 0)%Q)) by (rewrite map_length, c_len; exact Hk). exact (map_nth snd c (0, 0)%Q k). Qed.
    Lemma cut k v : k < m -> on_line v (nth k Gs []) -> ((v <= fst (nth k c (0, 0)))%Q <-> (v < nth k z 0)%Q).
    Proof.
      intros Hk Hv. destruct grid_lines as [LG G]. destruct (G k Hk) as (A & _ & _). rewrite z_nth by exact Hk.
      assert (I := cell_interval Gs c k Hc ltac:(lia)). assert (K := intervals_lt _ _ A I). destruct (interval_cut _ A _ v I Hv) as [D|D]; split; intros; lra.
    Qed.
    Lemma between_fin lo hi : lines lo -> lines hi -> (between lo hi c = true <-> fin z (lo, hi)).
    Proof.
      intros [L1 H1] [L2 H2]. rewrite between_iff by (rewrite c_len; auto). rewrite c_len. unfold fin. rewrite z_len. cbn [fst snd]. split; intros H k Hk; destruct (H k Hk) as [A B].
      - rewrite <- cut by auto. rewrite z_nth by auto. auto.
      - rewrite z_nth in B by auto. rewrite cut by auto. auto.
    Qed.
    Lemma lines_ref : lines ref. Proof. split; [reflexivity|]. intros k Hk. destruct (proj2 grid_lines k Hk) as (_ & A & _). exact A. Qed.
    Lemma lines_y y : In y Y -> lines y. Proof. intros Hy. split; [apply HR, Hy|]. intros k Hk. destruct (proj2 grid_lines k Hk) as (_ & _ & A). exact (A y Hy). Qed.
    Lemma fin_above hi : fin z (ref, hi) -> strictly_above ref z.
    Proof. intros H. unfold strictly_above. apply (F2_nth Qlt 0%Q 0%Q); [symmetry; apply z_len|]. intros k Hk. apply H. rewrite z_len. exact Hk. Qed.
    Lemma above_nth k : strictly_above ref z -> k < m -> (nth k ref 0 < nth k z 0)%Q.
    Proof. intros H Hk. apply (F2_nth Qlt 0%Q 0%Q) with (j := k) in H; auto. symmetry. apply z_len. Qed.
    Lemma one_cell : ((if existsb (fun y => between ref y c) Y then volume c else 0) <=
      (if between ref best c then volume c else 0) - sumQ (map (fun b => if between (fst b) (snd b) c then volume c else 0) boxes))%Q.
    Proof.
      assert (BF : forall b, In b boxes -> (between (fst b) (snd b) c = true <-> fin z b)).
      { intros [lo hi] Hb. destruct (HX _ Hb). cbn [fst snd] in *. apply between_fin; auto. }
      assert (ZERO : (forall b, In b boxes -> ~ fin z b) -> (sumQ (map (fun b => if between (fst b) (snd b) c then volume c else 0) boxes) == 0)%Q).
      { intros H. rewrite <- (sum_zero boxes). apply sum_ext. intros b Hb. destruct (between (fst b) (snd b) c) eqn:E; [|reflexivity]. exfalso. apply (H b Hb), BF; auto. }
      assert (DOM : existsb (fun y => between ref y c) Y = true <-> strictly_above ref z /\ dominated_by Y z).
      { rewrite existsb_exists. split.
        - intros (y & Hy & B). apply (between_fin ref y lines_ref (lines_y y Hy)) in B. split; [apply (fin_above y B)|]. exists y. split; [exact Hy|]. unfold covers.
          apply (F2_nth Qle 0%Q 0%Q); [rewrite z_len; symmetry; apply HR, Hy|]. intros k Hk. apply (B k Hk).
        - intros (SA & y & Hy & C). exists y. split; [exact Hy|]. apply (between_fin ref y lines_ref (lines_y y Hy)). intros k Hk. cbn [fst snd]. rewrite z_len in Hk. split; [apply above_nth; auto|].
          apply (F2_nth Qle 0%Q 0%Q) with (j := k) in C; [exact C|rewrite z_len; symmetry; apply HR, Hy|rewrite z_len; exact Hk]. }
      assert (BEST : between ref best c = true <-> strictly_above ref z /\ within z).
      { rewrite (between_fin ref best lines_ref HB). split.
        - intros F. split; [apply (fin_above best F)|]. split; [apply z_len|]. intros k Hk. apply F. rewrite z_len. exact Hk.
        - intros [SA W] k Hk. rewrite z_len in Hk. cbn [fst snd]. split; [apply above_nth; auto|]. apply W, Hk. }
      destruct (existsb (fun y => between ref y c) Y) eqn:ED.
      - destruct (proj1 DOM eq_refl) as [SA D]. assert (WZ : within z).
        { split; [apply z_len|]. intros k Hk. destruct D as (y & Hy & C). assert (Ly := HR y Hy). assert (C' := proj1 (F2_nth Qle 0%Q 0%Q z y ltac:(rewrite z_len; auto)) C). rewrite z_len in C'.
          assert (SY : strictly_above ref y). { unfold strictly_above. apply (F2_nth Qlt 0%Q 0%Q); [auto|]. intros l Hl. specialize (C' l Hl). assert (T := above_nth l SA Hl). lra. }
          specialize (C' k Hk). assert (T := HI y Hy SY k Hk). lra. }
        assert (BT : between ref best c = true) by (apply BEST; split; assumption). rewrite BT, ZERO; [lra|]. apply P1; assumption.
      - assert (ND : strictly_above ref z -> ~ dominated_by Y z) by (intros SA D; assert (K := proj2 DOM (conj SA D)); congruence).
        destruct (between ref best c) eqn:EB.
        + destruct (proj1 BEST eq_refl) as [SA WZ]. destruct (P2 z WZ SA (ND SA)) as [NO|(l & b & r & E & F & O)]; [rewrite (ZERO NO); assert (V := vol_nonneg c Hc); lra|].
          assert (Hb : In b boxes) by (rewrite E; apply in_app_iff; simpl; auto). assert (BB := proj2 (BF b Hb) F).
          assert (OO : forall ll, (forall d, In d ll -> In d (l ++ r)) -> (sumQ (map (fun b => if between (fst b) (snd b) c then volume c else 0) ll) == 0)%Q).
          { intros ll Hll. rewrite <- (sum_zero ll). apply sum_ext. intros d Hd. destruct (between (fst d) (snd d) c) eqn:E1; [|reflexivity]. exfalso. apply (O d (Hll d Hd)), BF; [|exact E1].
            rewrite E. specialize (Hll d Hd). apply in_app_iff in Hll. apply in_app_iff. simpl. tauto. }
          rewrite E, map_app, sum_app. cbn [map]. rewrite BB. change (sumQ (volume c :: ?x)) with (volume c + sumQ x)%Q. rewrite (OO l), (OO r) by (intros d Hd; apply in_app_iff; auto). lra.
        + rewrite ZERO; [lra|]. intros b Hb F. destruct (above_dec ref z z_len) as [SA|NS]; [|exact (P3 z z_len NS b Hb F)].
          enough (K : false = true) by discriminate. apply BEST. split; [exact SA|]. split; [apply z_len|]. intros k Hk. assert (T := P4 b Hb k Hk). destruct (F k ltac:(rewrite z_len; exact Hk)) as [_ T']. lra.
    Qed.
  End OneCell.

  Lemma outside_least : (measure Gs ref Y <= boxvol ref best - sumQ (map (fun b => boxvol (fst b) (snd b)) boxes))%Q.
  Proof.
    destruct grid_lines as [LG G]. unfold measure.
    eapply Qle_trans; [apply (sum_le _ (fun c => (if between ref best c then volume c else 0) + (-1) * sumQ (map (fun b => if between (fst b) (snd b) c then volume c else 0) boxes))%Q (cells Gs))|].
    { intros c Hc. assert (K := one_cell c Hc). lra. }
    rewrite sum_plus, sum_scale. rewrite (sum_swap (fun c b => if between (fst b) (snd b) c then volume c else 0%Q) (cells Gs) boxes).
    assert (T : (sumQ (map (fun c => if between ref best c then volume c else 0%Q) (cells Gs)) == boxvol ref best)%Q).
    { apply box_volume; [congruence|rewrite (proj1 HB); auto|]. intros k Hk. rewrite LG in Hk. destruct (G k Hk) as (A & B & _). split; [exact A|]. split; [exact B|apply HB, Hk]. }
    rewrite T. clear T.
    rewrite (sum_ext (fun b => sumQ (map (fun c => if between (fst b) (snd b) c then volume c else 0%Q) (cells Gs))) (fun b => boxvol (fst b) (snd b)) boxes); [lra|].
    intros b Hb. destruct (HX b Hb) as [[A1 A2] [B1 B2]]. apply box_volume; [congruence|congruence|]. intros k Hk. rewrite LG in Hk. split; [apply (G k Hk)|]. auto.
  Qed.
End Main.

Section Index.
  Variables (ref : vec) (Y : list vec) (Gs : list (list Q)) (P : list vec).
  Notation m := (length ref).
  Hypothesis HR : rectangular m Y.
  Hypothesis HG : grid_for Gs ref Y.
  Hypothesis FO : from_outcomes ref Y P.
  Hypothesis RE : reaches ref Y P.
  Hypothesis NP : P <> [].
  Notation fa := (finite_at m P ref).
  Let best : vec := map (fun j => (- vmin (col j P))%Q) (seq 0 m).

  Lemma index_least cs : (forall c, In c cs -> length c = m) ->
    (forall c j lu, In c cs -> nth_error c j = Some lu -> (fa (fst lu) j <= fa (snd lu) j)%Q) ->
    (forall z, strictly_above ref z -> (dominated_by Y z -> in_none z (map (cell_bounds P ref) cs)) /\ (in_none z (map (cell_bounds P ref) cs) \/ in_exactly_one z (map (cell_bounds P ref) cs))) -> nothing_below (map (cell_bounds P ref) cs) ref ->
    (measure Gs ref Y <= index_hypervolume ref P cs <= boxvol ref best)%Q.
  Proof.
    intros LC MO PA NB. assert (IB := (min_best ref Y P FO RE NP)). assert (LB := best_lines ref Y Gs P HR HG FO best IB).
    set (lo := fun c : list (nat * nat) => map (fun jc => (- fa (snd (snd jc)) (fst jc))%Q) (indexed c)).
    set (hi := fun c : list (nat * nat) => map (fun jc => (- fa (fst (snd jc)) (fst jc))%Q) (indexed c)).
    set (boxes := map (fun c => (lo c, hi c)) cs).
    assert (AT : forall c j lu, nth_error c j = Some lu -> nth j (lo c) 0%Q = (- fa (snd lu) j)%Q /\ nth j (hi c) 0%Q = (- fa (fst lu) j)%Q).
    { intros c j lu E. unfold lo, hi. split; apply nth_error_nth; rewrite nth_error_map, nth_error_indexed, E; reflexivity. }
    assert (LL : forall c, In c cs -> length (lo c) = m /\ length (hi c) = m).
    { intros c Hc. unfold lo, hi. rewrite !map_length, !indexed_len. split; apply LC, Hc. }
    assert (GET : forall c j, In c cs -> j < m -> exists lu, nth_error c j = Some lu) by (intros c j Hc Hj; apply lt_nth_error; rewrite (LC c Hc); exact Hj).
    assert (BN : forall j, j < m -> nth j best 0%Q = (- vmin (col j P))%Q) by (intros j Hj; unfold best; now rewrite nth_seq_map).
    assert (FI : forall c z, In c cs -> within ref best z -> (fin z (lo c, hi c) <-> inside z (cell_bounds P ref c))).
    { intros c z Hc [Lz Wz]. unfold fin, inside, cell_bounds. cbn [fst snd].
      rewrite (F2_nth above NInf 0%Q) by (rewrite map_length, indexed_len, (LC c Hc); auto). rewrite (F2_nth upto 0%Q NInf) by (rewrite map_length, indexed_len, (LC c Hc); auto).
      rewrite map_length, indexed_len, (LC c Hc), Lz.
      assert (E1 : forall j lu, nth_error c j = Some lu -> nth j (map (fun jc => eopp (bound_at P ref (snd (snd jc)) (fst jc))) (indexed c)) NInf = eopp (bound_at P ref (snd lu) j)).
      { intros j lu E. apply nth_error_nth. rewrite nth_error_map, nth_error_indexed, E. reflexivity. }
      assert (E2 : forall j lu, nth_error c j = Some lu -> nth j (map (fun jc => eopp (bound_at P ref (fst (snd jc)) (fst jc))) (indexed c)) NInf = eopp (bound_at P ref (fst lu) j)).
      { intros j lu E. apply nth_error_nth. rewrite nth_error_map, nth_error_indexed, E. reflexivity. }
      split.
      - intros F. split; intros j Hj; destruct (GET c j Hc Hj) as (lu & E); destruct (AT c j lu E) as [A1 A2]; destruct (F j Hj) as [F1 F2]; specialize (Wz j Hj); rewrite BN in Wz by exact Hj.
        + rewrite (E1 j lu E). apply (fa_above ref P); [exact Wz|]. rewrite <- A1. exact F1.
        + rewrite (E2 j lu E). apply (fa_upto ref P); [exact Wz|]. rewrite <- A2. exact F2.
      - intros [A B] j Hj. destruct (GET c j Hc Hj) as (lu & E); destruct (AT c j lu E) as [A1 A2]; specialize (Wz j Hj); rewrite BN in Wz by exact Hj. specialize (A j Hj). specialize (B j Hj).
        rewrite (E1 j lu E) in A. rewrite (E2 j lu E) in B. rewrite A1, A2. split; [apply (fa_above ref P _ _ _ Wz), A|apply (fa_upto ref P _ _ _ Wz), B]. }
    assert (IN : forall b, In b boxes <-> exists c, b = (lo c, hi c) /\ In c cs).
    { intros b. unfold boxes. rewrite in_map_iff. split; intros (c & E & Hc); exists c; auto. }
    assert (P4 : forall b, In b boxes -> forall k, k < m -> (nth k (snd b) 0 <= nth k best 0)%Q).
    { intros b Hb k Hk. apply IN in Hb as (c & -> & Hc). destruct (GET c k Hc Hk) as (lu & E); destruct (AT c k lu E) as [_ A2]. cbn [snd]. rewrite A2, BN by exact Hk. assert (K := fa_ge ref Y P HR FO RE NP (fst lu) k Hk). lra. }
    assert (MAIN : (measure Gs ref Y <= boxvol ref best - sumQ (map (fun b => boxvol (fst b) (snd b)) boxes))%Q).
    { apply outside_least; auto.
      - apply (best_covers ref Y P HR RE best IB).
      - intros b Hb. apply IN in Hb as (c & -> & Hc). destruct (LL c Hc) as [L1 L2]. cbn [fst snd]. split; (split; [assumption|]); intros k Hk; destruct (GET c k Hc Hk) as (lu & E); destruct (AT c k lu E) as [A1 A2]; rewrite ?A1, ?A2; now apply (fa_line ref Y Gs P HR HG FO RE NP).
      - intros z W SA D b Hb F. apply IN in Hb as (c & -> & Hc). apply (FI c z Hc W) in F. destruct (PA z SA) as [A _]. exact (A D _ (in_map (cell_bounds P ref) cs c Hc) F).
      - intros z W SA D. destruct (PA z SA) as [_ [A|(l & c & r & E & I & O)]].
        { left. intros b Hb F. apply IN in Hb as (c & -> & Hc). apply (FI c z Hc W) in F. exact (A _ (in_map (cell_bounds P ref) cs c Hc) F). }
        right.
        apply map_eq_app in E as (l' & r'' & -> & <- & E). destruct r'' as [|c' r']; [discriminate|]. cbn [map] in E. injection E as <- <-. rewrite <- map_app in O.
        unfold boxes. rewrite map_app. cbn [map]. do 3 eexists. split; [reflexivity|].
        assert (Hc : In c' (l' ++ c' :: r')) by (apply in_app_iff; simpl; auto). split; [apply FI; auto|]. intros d Hd. rewrite <- map_app in Hd. apply in_map_iff in Hd as (d' & <- & Hd). intros F.
        apply (O (cell_bounds P ref d')); [apply in_map; exact Hd|]. apply FI; auto. apply in_app_iff in Hd. apply in_app_iff. simpl. tauto.
      - intros z Lz NS b Hb F. apply IN in Hb as IC. destruct IC as (c & -> & Hc). assert (W : within ref best z).
        { split; [exact Lz|]. intros k Hk. destruct (F k ltac:(lia)) as [_ K]. assert (T := P4 _ Hb k Hk). lra. }
        apply (FI c z Hc W) in F. exact (NB z Lz NS _ (in_map (cell_bounds P ref) cs c Hc) F). }
    assert (UN : (index_hypervolume ref P cs == prod (map (fun j => - nth j ref 0 - vmin (col j P)) (seq 0 m)) - sumQ (map (index_volume m P ref) cs))%Q).
    { unfold index_hypervolume. destruct P; [congruence|reflexivity]. }
    assert (EQ : (prod (map (fun j => - nth j ref 0 - vmin (col j P)) (seq 0 m)) == boxvol ref best)%Q).
    { rewrite (prod_clamp' (fun j => nth j ref 0%Q) (fun j => nth j best 0%Q)).
      + rewrite map_nth_seq. replace m with (length best) by apply IB. rewrite map_nth_seq. reflexivity.
      + intros j Hj. apply in_seq in Hj. rewrite BN by lia. unfold clamp. destruct (Qle_bool (nth j ref 0%Q) (- vmin (col j P))%Q) eqn:E1; [ring|]. apply Qle_bool_false in E1. exfalso.
        destruct (some_p ref Y P FO RE NP) as (p & Hp). assert (A := front_under ref Y P HR FO p j Hp ltac:(lia)). assert (K : (vmin (col j P) <= nth j p 0)%Q) by (apply vmin_le, in_map_iff; eauto). lra. }
    assert (ES : (sumQ (map (index_volume m P ref) cs) == sumQ (map (fun b => boxvol (fst b) (snd b)) boxes))%Q).
    { unfold boxes. rewrite map_map. cbn [fst snd]. apply sum_ext. intros c Hc. unfold index_volume, lo, hi. apply prod_clamp'. intros jc Hj. apply indexed_In in Hj as [E _]. assert (K := MO c (fst jc) (snd jc) Hc E). unfold clamp.
      destruct (Qle_bool (- fa (snd (snd jc)) (fst jc))%Q (- fa (fst (snd jc)) (fst jc))%Q) eqn:E1; [ring|]. apply Qle_bool_false in E1. lra. }
    assert (POS : (0 <= sumQ (map (fun b => boxvol (fst b) (snd b)) boxes))%Q) by (apply sum_nonneg; intros b _; apply boxvol_nonneg).
    rewrite UN, EQ, ES. split; [exact MAIN|lra].
  Qed.
End Index.

Lemma measure_nonneg ref Y Gs : grid_for Gs ref Y -> (0 <= measure Gs ref Y)%Q.
Proof.
  intros [L A]. apply sum_nonneg. intros c Hc. destruct (existsb _ Y); [|apply Qle_refl]. apply Qlt_le_weak, (volume_pos Gs c); [|exact Hc].
  intros G HG. apply In_nth_error in HG as (k & Hk). apply (A k G Hk).
Qed.
Lemma measure_one ref u Gs : length u = length ref -> grid_for Gs ref [u] -> (measure Gs ref [u] == boxvol ref u)%Q.
Proof.
  intros Lu [L A]. unfold measure. rewrite (sum_ext _ (fun c => if between ref u c then volume c else 0%Q) (cells Gs)); [|intros c _; cbn [existsb]; rewrite orb_false_r; reflexivity].
  apply box_volume; [congruence|congruence|]. intros k Hk. assert (E : nth_error Gs k = Some (nth k Gs [])) by (apply nth_error_nth'; exact Hk). destruct (A k _ E) as (B & C & D). split; [exact B|]. split; [exact C|]. apply D. now left.
Qed.

Lemma cells_of_bounds argsort argmax alpha ref Y Gs : sorts argsort -> finds_max argmax -> rectangular (length ref) Y -> grid_for Gs ref Y ->
  exists cs, cells_of argsort argmax alpha ref (neg_front argsort true ref Y) = Some cs /\
    (measure Gs ref Y <= index_hypervolume ref (neg_front argsort true ref Y) cs)%Q /\
    forall u Gu, length u = length ref -> grid_for Gu ref [u] -> (forall y, In y Y -> strictly_above ref y -> covers u y) ->
      (index_hypervolume ref (neg_front argsort true ref Y) cs <= measure Gu ref [u])%Q.
Proof.
  intros HS HM HR HG. destruct (sorted_front argsort HS ref Y HR) as [FO RE].
  assert (SP : exists cs, cells_of argsort argmax alpha ref (neg_front argsort true ref Y) = Some cs /\
    (forall z, strictly_above ref z -> (dominated_by Y z -> in_none z (map (cell_bounds (neg_front argsort true ref Y) ref) cs)) /\
      (in_none z (map (cell_bounds (neg_front argsort true ref Y) ref) cs) \/ in_exactly_one z (map (cell_bounds (neg_front argsort true ref Y) ref) cs))) /\
    nothing_below (map (cell_bounds (neg_front argsort true ref Y) ref) cs) ref).
  { unfold cells_of. destruct (Nat.eqb_spec (length ref) 2) as [E|E].
    - destruct ref as [|r0 [|r1 [|]]]; try discriminate. eexists. split; [reflexivity|]. destruct (class_2d argsort HS r0 r1 Y HR) as [PA NB]. split; [|exact NB].
      intros z Hz. destruct (PA z Hz) as [A B]. split; [exact A|].
      destruct (dominated_dec Y z) as [D|D]; [left; auto|right; auto].
    - destruct (binary_cells argsort argmax HS HM alpha ref Y HR) as (cs & C & _ & B2 & B3). exists cs. split; [apply C; lia|]. split; auto. }
  destruct SP as (cs & E & PA & NB). exists cs. split; [exact E|].
  assert (DP : neg_front argsort true ref Y = [] \/ neg_front argsort true ref Y <> []) by (destruct (neg_front argsort true ref Y); [left; reflexivity|right; discriminate]).
  destruct DP as [EP|NP].
  { rewrite EP. rewrite (measure_none ref Y Gs _ HR HG RE EP). split; [apply Qle_refl|]. intros u Gu Lu HGu _. exact (measure_nonneg ref [u] Gu HGu). }
  assert (MO : forall c, In c cs -> length c = length ref /\ forall j lu, nth_error c j = Some lu ->
    (finite_at (length ref) (neg_front argsort true ref Y) ref (fst lu) j <= finite_at (length ref) (neg_front argsort true ref Y) ref (snd lu) j)%Q).
  { intros c Hc. unfold cells_of in E. destruct (Nat.eqb_spec (length ref) 2) as [E2|E2].
    - destruct ref as [|r0 [|r1 [|]]]; try discriminate. injection E as <-. exact (two_mono argsort HS r0 r1 Y HR NP c Hc).
    - exact (space_mono argsort argmax HS HM ref Y HR NP alpha _ cs E c Hc). }
  destruct (index_least ref Y Gs (neg_front argsort true ref Y) HR HG FO RE NP cs) as [LO UP]; auto.
  { intros c Hc. apply (MO c Hc). }
  { intros c j lu Hc F. apply (MO c Hc), F. }
  split; [exact LO|]. intros u Gu Lu HGu CO. rewrite (measure_one ref u Gu Lu HGu). eapply Qle_trans; [exact UP|].
  apply boxvol_mono; [rewrite map_length, seq_length; congruence|]. rewrite map_length, seq_length. intros k Hk.
  rewrite (nth_indep _ 0%Q (- vmin (col 0 (neg_front argsort true ref Y)))%Q) by (rewrite map_length, seq_length; exact Hk).
  rewrite (map_nth (fun j => - vmin (col j (neg_front argsort true ref Y)))%Q), seq_nth by exact Hk. cbn [Nat.add].
  destruct (vmin_in (col k (neg_front argsort true ref Y))) as (v & V & EV); [unfold col; destruct (neg_front argsort true ref Y); [congruence|discriminate]|].
  apply in_map_iff in V as (p & EP & Hp). rewrite EV, <- EP. destruct (FO p Hp) as (y & Hy & SA & EQ). subst p.
  assert (Ly : length y = length ref) by (symmetry; exact (F2_len _ _ _ SA)). assert (OP : (nth k (map Qopp y) 0 = - nth k y 0)%Q) by exact (map_nth Qopp y 0%Q k). rewrite OP.
  specialize (CO y Hy SA). apply (F2_nth Qle 0%Q 0%Q) with (j := k) in CO; [lra|exact (F2_len _ _ _ CO)|rewrite <- (F2_len _ _ _ SA); exact Hk].
Qed.
