(** Lemmas about Model_CellVolume.v: the volume outside a partition of the non-dominated region. *)
From Coq Require Import List Bool Arith ZArith QArith Qminmax Lia Lqa.
From Verif Require Import Lib_List Model_Pareto Spec_Pareto Model_Boxes Spec_Boxes Proofs_Boxes Proofs_BoxFront Proofs_BoxRuns Spec_HV Proofs_HVmeasure Proofs_HVgrid Model_CellVolume.
Import ListNotations.
Open Scope nat_scope.

Definition clamp (a b : Q) : Q := if Qle_bool a b then (b - a)%Q else 0%Q.
Fixpoint boxvol (lo hi : list Q) : Q :=
  match lo, hi with a :: lo, b :: hi => (clamp a b * boxvol lo hi)%Q | _, _ => 1%Q end.

Lemma line_sum G a b : ascending G -> on_line a G -> on_line b G -> (sumQ (map (len a b) (intervals G)) == clamp a b)%Q.
Proof.
  intros HA Ha Hb. unfold clamp. destruct (Qle_bool a b) eqn:E.
  - apply Qle_bool_iff in E. apply telescope; auto.
  - apply Qle_bool_false in E. rewrite <- (sum_zero (intervals G)). apply sum_ext. intros c Hc. unfold len.
    destruct (Qle_bool a (fst c) && Qle_bool (snd c) b) eqn:F; [|reflexivity]. apply andb_true_iff in F as [F1 F2]. apply Qle_bool_iff in F1, F2.
    assert (K := intervals_lt G c HA Hc). lra.
Qed.

Lemma box_volume Gs : forall lo hi, length lo = length Gs -> length hi = length Gs ->
  (forall k, k < length Gs -> ascending (nth k Gs []) /\ on_line (nth k lo 0%Q) (nth k Gs []) /\ on_line (nth k hi 0%Q) (nth k Gs [])) ->
  (sumQ (map (fun c => if between lo hi c then volume c else 0%Q) (cells Gs)) == boxvol lo hi)%Q.
Proof.
  induction Gs as [|G Gs IH]; intros [|a lo] [|b hi] L1 L2 H; simpl in L1, L2; try lia.
  - simpl. lra.
  - destruct (H 0 ltac:(simpl; lia)) as (HA & Ha & Hb). cbn [nth] in HA, Ha, Hb. cbn [cells boxvol]. rewrite sum_flat.
    rewrite <- (IH lo hi) by (try lia; intros k Hk; apply (H (S k)); simpl; lia). rewrite <- (line_sum G a b HA Ha Hb).
    set (V := sumQ (map (fun c => if between lo hi c then volume c else 0%Q) (cells Gs))).
    rewrite Qmult_comm, <- sum_scale. apply sum_ext. intros c _. rewrite map_map. unfold V. rewrite Qmult_comm, <- sum_scale. apply sum_ext. intros d _. cbn [between]. unfold len.
    destruct (Qle_bool a (fst c)), (Qle_bool (snd c) b), (between lo hi d); simpl; ring.
Qed.

Lemma cell_interval Gs : forall c k, In c (cells Gs) -> k < length Gs -> In (nth k c (0%Q, 0%Q)) (intervals (nth k Gs [])).
Proof.
  induction Gs as [|G Gs IH]; intros c k Hc Hk; simpl in *; [lia|]. apply in_flat_map in Hc as (i & Hi & Hc). apply in_map_iff in Hc as (d & <- & Hd).
  destruct k as [|k]; [exact Hi|]. exact (IH d k Hd ltac:(lia)).
Qed.
Lemma interval_cut G : ascending G -> forall c v, In c (intervals G) -> on_line v G -> (v <= fst c)%Q \/ (snd c <= v)%Q.
Proof.
  induction G as [|a G IH]; intros HA c v Hc Hv; [destruct Hc|]. destruct G as [|b G]; [destruct Hc|]. rewrite intervals_cons in Hc. destruct Hv as (g & Hg & E).
  destruct Hc as [<-|Hc].
  - cbn [fst snd]. destruct Hg as [<-|[<-|Hg]]; [left; lra|right; lra|]. right. assert (K := ascending_lt b G (proj2 HA) g Hg). lra.
  - destruct Hg as [<-|Hg].
    + left. destruct (intervals_In _ _ Hc) as [K _]. assert (T := ascending_lt a (b :: G) HA _ K). lra.
    + apply (IH (proj2 HA)); auto. exists g. auto.
Qed.
Lemma between_iff : forall lo hi c, length lo = length c -> length hi = length c ->
  (between lo hi c = true <-> forall k, k < length c -> (nth k lo 0 <= fst (nth k c (0, 0)))%Q /\ (snd (nth k c (0, 0)) <= nth k hi 0)%Q).
Proof.
  induction lo as [|a lo IH]; intros [|b hi] [|x c] L1 L2; simpl in L1, L2; try lia.
  - simpl. split; [intros _ k Hk; lia|reflexivity].
  - cbn [between]. rewrite !andb_true_iff, !Qle_bool_iff, IH by lia. split.
    + intros [[A B] C] [|k] Hk; [auto|]. apply C. simpl in Hk. lia.
    + intros H. split; [apply (H 0); simpl; lia|]. intros k Hk. apply (H (S k)). simpl. lia.
Qed.
Lemma above_dec ref z : length z = length ref -> strictly_above ref z \/ ~ strictly_above ref z.
Proof.
  unfold strictly_above. revert z. induction ref as [|r ref IH]; intros [|a z] Lz; simpl in Lz; try lia; [left; constructor|].
  destruct (Qlt_le_dec r a) as [A|A]; [|right; intros K; inversion K; subst; lra]. destruct (IH z) as [B|B]; [lia|left; constructor; auto|right; intros K; inversion K; subst; auto].
Qed.

(** Boxes with finite bounds. *)
Definition fin (z : vec) (b : vec * vec) : Prop := forall k, k < length z -> (nth k (fst b) 0 < nth k z 0 /\ nth k z 0 <= nth k (snd b) 0)%Q.

Section Main.
  Variables (ref : vec) (Y : list vec) (Gs : list (list Q)) (best : vec) (boxes : list (vec * vec)).
  Notation m := (length ref).
  Hypothesis HR : rectangular m Y.
  Hypothesis HG : grid_for Gs ref Y.
  Definition lines (v : vec) : Prop := length v = m /\ forall k, k < m -> on_line (nth k v 0%Q) (nth k Gs []).
  Hypothesis HB : lines best.
  Hypothesis HI : forall y, In y Y -> strictly_above ref y -> forall k, k < m -> (nth k y 0 <= nth k best 0)%Q.
  Hypothesis HX : forall b, In b boxes -> lines (fst b) /\ lines (snd b).
  Definition within (z : vec) : Prop := length z = m /\ forall k, k < m -> (nth k z 0 <= nth k best 0)%Q.
  Hypothesis P1 : forall z, within z -> strictly_above ref z -> dominated_by Y z -> forall b, In b boxes -> ~ fin z b.
  Hypothesis P2 : forall z, within z -> strictly_above ref z -> ~ dominated_by Y z ->
    exists l b r, boxes = l ++ b :: r /\ fin z b /\ forall d, In d (l ++ r) -> ~ fin z d.
  Hypothesis P3 : forall z, length z = m -> ~ strictly_above ref z -> forall b, In b boxes -> ~ fin z b.
  Hypothesis P4 : forall b, In b boxes -> forall k, k < m -> (nth k (snd b) 0 <= nth k best 0)%Q.

  Lemma grid_lines : length Gs = m /\ forall k, k < m -> ascending (nth k Gs []) /\ on_line (nth k ref 0%Q) (nth k Gs []) /\ forall y, In y Y -> on_line (nth k y 0%Q) (nth k Gs []).
  Proof. destruct HG as [A B]. split; [exact A|]. intros k Hk. apply B. apply nth_error_nth'. lia. Qed.

  Section OneCell.
    Variable c : list (Q * Q).
    Hypothesis Hc : In c (cells Gs).
    Let z : vec := map snd c.
    Lemma c_len : length c = m.
    Proof. rewrite (cells_length _ _ Hc). apply grid_lines. Qed.
    Lemma z_len : length z = m.
    Proof. unfold z. rewrite map_length. apply c_len. Qed.
    Lemma z_nth k : k < m -> nth k z 0%Q = snd (nth k c (0, 0)%Q).
    Proof. intros Hk. unfold z. rewrite (nth_indep _ 0%Q (snd (0, 0)%Q)) by (rewrite map_length, c_len; exact Hk). exact (map_nth snd c (0, 0)%Q k). Qed.
    Lemma cut k v : k < m -> on_line v (nth k Gs []) -> ((v <= fst (nth k c (0, 0)))%Q <-> (v < nth k z 0)%Q).
    Proof.
      intros Hk Hv. destruct grid_lines as [LG G]. destruct (G k Hk) as (A & _ & _). rewrite z_nth by exact Hk.
      assert (I := cell_interval Gs c k Hc ltac:(lia)). assert (K := intervals_lt _ _ A I). destruct (interval_cut _ A _ v I Hv) as [D|D]; split; intros; lra.
    Qed.
    Lemma between_fin lo hi : lines lo -> lines hi -> (between lo hi c = true <-> fin z (lo, hi)).
    Proof.
      intros [L1 H1] [L2 H2]. rewrite between_iff by (rewrite c_len; auto). rewrite c_len. unfold fin. rewrite z_len. cbn [fst snd]. split; intros H k Hk; destruct (H k Hk) as [A B].
      - rewrite <- cut by auto. rewrite z_nth by auto. auto.
      - rewrite z_nth in B by auto. rewrite cut by auto. auto.
    Qed.
    Lemma lines_ref : lines ref. Proof. split; [reflexivity|]. intros k Hk. destruct (proj2 grid_lines k Hk) as (_ & A & _). exact A. Qed.
    Lemma lines_y y : In y Y -> lines y. Proof. intros Hy. split; [apply HR, Hy|]. intros k Hk. destruct (proj2 grid_lines k Hk) as (_ & _ & A). exact (A y Hy). Qed.
    Lemma fin_above hi : fin z (ref, hi) -> strictly_above ref z.
    Proof. intros H. unfold strictly_above. apply (F2_nth Qlt 0%Q 0%Q); [symmetry; apply z_len|]. intros k Hk. apply H. rewrite z_len. exact Hk. Qed.
    Lemma above_nth k : strictly_above ref z -> k < m -> (nth k ref 0 < nth k z 0)%Q.
    Proof. intros H Hk. apply (F2_nth Qlt 0%Q 0%Q) with (j := k) in H; auto. symmetry. apply z_len. Qed.
    Lemma one_cell : ((if existsb (fun y => between ref y c) Y then volume c else 0) ==
      (if between ref best c then volume c else 0) - sumQ (map (fun b => if between (fst b) (snd b) c then volume c else 0) boxes))%Q.
    Proof.
      assert (BF : forall b, In b boxes -> (between (fst b) (snd b) c = true <-> fin z b)).
      { intros [lo hi] Hb. destruct (HX _ Hb). cbn [fst snd] in *. apply between_fin; auto. }
      assert (ZERO : (forall b, In b boxes -> ~ fin z b) -> (sumQ (map (fun b => if between (fst b) (snd b) c then volume c else 0) boxes) == 0)%Q).
      { intros H. rewrite <- (sum_zero boxes). apply sum_ext. intros b Hb. destruct (between (fst b) (snd b) c) eqn:E; [|reflexivity]. exfalso. apply (H b Hb), BF; auto. }
      assert (DOM : existsb (fun y => between ref y c) Y = true <-> strictly_above ref z /\ dominated_by Y z).
      { rewrite existsb_exists. split.
        - intros (y & Hy & B). apply (between_fin ref y lines_ref (lines_y y Hy)) in B. split; [apply (fin_above y B)|]. exists y. split; [exact Hy|]. unfold covers.
          apply (F2_nth Qle 0%Q 0%Q); [rewrite z_len; symmetry; apply HR, Hy|]. intros k Hk. apply (B k Hk).
        - intros (SA & y & Hy & C). exists y. split; [exact Hy|]. apply (between_fin ref y lines_ref (lines_y y Hy)). intros k Hk. cbn [fst snd]. rewrite z_len in Hk. split; [apply above_nth; auto|].
          apply (F2_nth Qle 0%Q 0%Q) with (j := k) in C; [exact C|rewrite z_len; symmetry; apply HR, Hy|rewrite z_len; exact Hk]. }
      assert (BEST : between ref best c = true <-> strictly_above ref z /\ within z).
      { rewrite (between_fin ref best lines_ref HB). split.
        - intros F. split; [apply (fin_above best F)|]. split; [apply z_len|]. intros k Hk. apply F. rewrite z_len. exact Hk.
        - intros [SA W] k Hk. rewrite z_len in Hk. cbn [fst snd]. split; [apply above_nth; auto|]. apply W, Hk. }
      destruct (existsb (fun y => between ref y c) Y) eqn:ED.
      - destruct (proj1 DOM eq_refl) as [SA D]. assert (WZ : within z).
        { split; [apply z_len|]. intros k Hk. destruct D as (y & Hy & C). assert (Ly := HR y Hy). assert (C' := proj1 (F2_nth Qle 0%Q 0%Q z y ltac:(rewrite z_len; auto)) C). rewrite z_len in C'.
          assert (SY : strictly_above ref y). { unfold strictly_above. apply (F2_nth Qlt 0%Q 0%Q); [auto|]. intros l Hl. specialize (C' l Hl). assert (T := above_nth l SA Hl). lra. }
          specialize (C' k Hk). assert (T := HI y Hy SY k Hk). lra. }
        assert (BT : between ref best c = true) by (apply BEST; split; assumption). rewrite BT, ZERO; [ring|]. apply P1; assumption.
      - assert (ND : strictly_above ref z -> ~ dominated_by Y z) by (intros SA D; assert (K := proj2 DOM (conj SA D)); congruence).
        destruct (between ref best c) eqn:EB.
        + destruct (proj1 BEST eq_refl) as [SA WZ]. destruct (P2 z WZ SA (ND SA)) as (l & b & r & E & F & O).
          assert (Hb : In b boxes) by (rewrite E; apply in_app_iff; simpl; auto). assert (BB := proj2 (BF b Hb) F).
          assert (OO : forall ll, (forall d, In d ll -> In d (l ++ r)) -> (sumQ (map (fun b => if between (fst b) (snd b) c then volume c else 0) ll) == 0)%Q).
          { intros ll Hll. rewrite <- (sum_zero ll). apply sum_ext. intros d Hd. destruct (between (fst d) (snd d) c) eqn:E1; [|reflexivity]. exfalso. apply (O d (Hll d Hd)), BF; [|exact E1].
            rewrite E. specialize (Hll d Hd). apply in_app_iff in Hll. apply in_app_iff. simpl. tauto. }
          rewrite E, map_app, sum_app. cbn [map]. rewrite BB. change (sumQ (volume c :: ?x)) with (volume c + sumQ x)%Q. rewrite (OO l), (OO r) by (intros d Hd; apply in_app_iff; auto). ring.
        + rewrite ZERO; [ring|]. intros b Hb F. destruct (above_dec ref z z_len) as [SA|NS]; [|exact (P3 z z_len NS b Hb F)].
          enough (K : false = true) by discriminate. apply BEST. split; [exact SA|]. split; [apply z_len|]. intros k Hk. assert (T := P4 b Hb k Hk). destruct (F k ltac:(rewrite z_len; exact Hk)) as [_ T']. lra.
    Qed.
  End OneCell.

  Lemma outside_volume : (boxvol ref best - sumQ (map (fun b => boxvol (fst b) (snd b)) boxes) == measure Gs ref Y)%Q.
  Proof.
    destruct grid_lines as [LG G]. unfold measure.
    rewrite (sum_ext _ (fun c => (if between ref best c then volume c else 0) + (-1) * sumQ (map (fun b => if between (fst b) (snd b) c then volume c else 0) boxes))%Q (cells Gs))
      by (intros c Hc; rewrite (one_cell c Hc); ring).
    rewrite sum_plus, sum_scale. rewrite (sum_swap (fun c b => if between (fst b) (snd b) c then volume c else 0%Q) (cells Gs) boxes).
    assert (T : (sumQ (map (fun c => if between ref best c then volume c else 0%Q) (cells Gs)) == boxvol ref best)%Q).
    { apply box_volume; [congruence|rewrite (proj1 HB); auto|]. intros k Hk. rewrite LG in Hk. destruct (G k Hk) as (A & B & _). split; [exact A|]. split; [exact B|apply HB, Hk]. }
    rewrite T. clear T.
    rewrite (sum_ext (fun b => sumQ (map (fun c => if between (fst b) (snd b) c then volume c else 0%Q) (cells Gs))) (fun b => boxvol (fst b) (snd b)) boxes); [ring|].
    intros b Hb. destruct (HX b Hb) as [[A1 A2] [B1 B2]]. apply box_volume; [congruence|congruence|]. intros k Hk. rewrite LG in Hk. split; [apply (G k Hk)|]. auto.
  Qed.
End Main.
