(** Lemmas about Model_Lacour.v: the two passes and the incremental updates. *)
From Coq Require Import List Bool Arith ZArith QArith Lia Lqa.
From Verif Require Import Lib_List Model_Pareto Spec_Pareto Proofs_Pareto Model_Boxes Spec_Boxes Proofs_Boxes Proofs_BoxFront Model_Lacour Proofs_Lacour Proofs_LacourTag Proofs_LacourStage.
Import ListNotations.
Open Scope nat_scope.

Lemma val_nth l p : l < length p -> nth l (map Val p) NInf = Val (nth l p 0%Q).
Proof. intros H. rewrite (nth_indep _ NInf (Val 0%Q)) by now rewrite map_length. apply map_nth. Qed.
Lemma nth_repeat' {A} (a d : A) n l : l < n -> nth l (repeat a n) d = a.
Proof. revert l. induction n as [|n IH]; intros [|l] H; simpl; auto; try lia. apply IH. lia. Qed.
Lemma map_nth_lt {A B} (f : A -> B) (da : A) (db : B) l p : l < length p -> nth l (map f p) db = f (nth l p da).
Proof. intros H. rewrite (nth_indep _ db (f da)) by now rewrite map_length. apply map_nth. Qed.
Lemma above_eleb e q : above e q <-> eleb (Val q) e = false.
Proof. destruct e as [|a|]; simpl; try tauto; try (split; congruence || tauto). rewrite <- not_true_iff_false, Qle_bool_iff. split; intros H; [lra|]. apply Qnot_le_lt, H. Qed.
Lemma upto_eleb e q : upto q e <-> eleb (Val q) e = true.
Proof. destruct e as [|a|]; simpl; try tauto; try (split; congruence || tauto). now rewrite Qle_bool_iff. Qed.
Lemma eopp_eleb a b : eleb (eopp a) (eopp b) = eleb b a.
Proof. destruct a as [|a|], b as [|b|]; simpl; auto. apply eq_true_iff_eq. rewrite !Qle_bool_iff. split; lra. Qed.
Lemma update_app m zs zs' : forall L, update_bounds ext eleb NInf m L (zs ++ zs') =
  match update_bounds ext eleb NInf m L zs with Some L' => update_bounds ext eleb NInf m L' zs' | None => None end.
Proof. induction zs as [|z zs IH]; intros L; simpl; [reflexivity|]. destruct (compute_local_upper_bounds ext eleb NInf m L z); auto. Qed.

Section Cells.
  Variable ref : vec.
  Notation m := (length ref).
  Hypothesis Hm : 2 <= m.
  (** The condition of being inside a cell, in terms of the zone. *)
  Lemma inside_vcell z u Z : length z = m -> (inside z (lower_of ext eleb NInf m Z, upper_of ext NInf m (repeat PInf m) u) <-> vcell m (map Val z) (u, Z)).
  Proof.
    intros Lz. unfold inside, vcell. simpl fst. simpl snd.
    assert (LL : length (lower_of ext eleb NInf m Z) = length z) by (unfold lower_of; simpl; rewrite map_length, seq_length; lia).
    assert (LU : length z = length (upper_of ext NInf m (repeat PInf m) u)) by (unfold upper_of; simpl; rewrite map_length, seq_length; lia).
    rewrite (F2_nth above NInf 0%Q _ _ LL), (F2_nth upto 0%Q NInf _ _ LU), LL. clear LL LU.
    assert (L0 : nth 0 (lower_of ext eleb NInf m Z) NInf = nth 0 (nth 0 Z []) NInf) by reflexivity.
    assert (LS : forall j, 1 <= j < m -> forall q, (above (nth j (lower_of ext eleb NInf m Z) NInf) q <-> forall k, k < j -> eleb (Val q) (nth j (nth k Z []) NInf) = false)).
    { intros j Hj q. unfold lower_of. destruct j as [|j]; [lia|]. cbn [nth]. rewrite (map_nth_lt _ 0) by (rewrite seq_length; lia). rewrite seq_nth by lia. simpl Nat.add.
      destruct (max_of_spec (map (fun k => entry ext NInf (nth k Z []) (S j)) (seq 0 (S j)))) as (M & -> & I & HM); [discriminate|].
      rewrite above_eleb. split.
      - intros A k Hk. destruct (eleb (Val q) (nth (S j) (nth k Z []) NInf)) eqn:E0; auto. rewrite <- A. symmetry. apply (eleb_trans _ (nth (S j) (nth k Z []) NInf)); auto.
        apply HM. apply in_map_iff. exists k. split; [reflexivity|]. apply in_seq. lia.
      - intros A. apply in_map_iff in I as (k & <- & I). apply in_seq in I. apply A. lia. }
    assert (US : forall j, 1 <= j < m -> nth j (upper_of ext NInf m (repeat PInf m) u) NInf = nth j u NInf).
    { intros j Hj. unfold upper_of. destruct j as [|j]; [lia|]. cbn [nth]. rewrite (map_nth_lt _ 0) by (rewrite seq_length; lia). rewrite seq_nth by lia. reflexivity. }
    assert (U0 : nth 0 (upper_of ext NInf m (repeat PInf m) u) NInf = PInf) by (unfold upper_of, entry; cbn [nth]; apply nth_repeat'; lia).
    split.
    - intros [A B]. split.
      + rewrite val_nth by lia. apply above_eleb. rewrite <- L0. apply A. lia.
      + intros j Hj. rewrite val_nth by lia. split; [apply LS; auto; apply A; lia|]. apply upto_eleb. rewrite <- US by lia. apply B. lia.
    - intros [A B]. split; intros j Hj; destruct (Nat.eq_dec j 0) as [->|].
      + rewrite L0. apply above_eleb. rewrite val_nth in A by lia. exact A.
      + apply LS; [lia|]. destruct (B j ltac:(lia)) as [B1 _]. rewrite val_nth in B1 by lia. exact B1.
      + rewrite U0. exact I.
      + rewrite US by lia. apply upto_eleb. destruct (B j ltac:(lia)) as [_ B2]. rewrite val_nth in B2 by lia. exact B2.
  Qed.
  Lemma inside_kept z c : length z = m -> inside z c ->
    negb (existsb (fun j => eleb (entry ext NInf (snd c) j) (entry ext NInf (fst c) j)) (seq 0 m)) = true.
  Proof.
    intros Lz [A B]. apply negb_true_iff. destruct (existsb _ _) eqn:E0; [|reflexivity]. apply existsb_exists in E0 as (j & Hj & E0). apply in_seq in Hj. exfalso.
    assert (LA := F2_len _ _ _ A). assert (LB := F2_len _ _ _ B). apply (F2_nth above NInf 0%Q _ _ LA) with (j := j) in A; [|lia]. apply (F2_nth upto 0%Q NInf _ _ LB) with (j := j) in B; [|lia].
    apply above_eleb in A. apply upto_eleb in B. unfold entry in E0. rewrite (eleb_trans _ _ _ B E0) in A. discriminate.
  Qed.
  Let f (uZ : list ext * list (list ext)) := (lower_of ext eleb NInf m (snd uZ), upper_of ext NInf m (repeat PInf m) (fst uZ)).
  Lemma cells_one z L : length z = m -> (exists l c r, L = l ++ c :: r /\ vcell m (map Val z) c /\ forall d, In d (l ++ r) -> ~ vcell m (map Val z) d) ->
    in_exactly_one z (partition_bounds ext eleb NInf m (repeat PInf m) L).
  Proof.
    intros Lz (l & [u Z] & r & -> & V & H). unfold partition_bounds. rewrite map_app, filter_app. cbn [map filter]. apply (inside_vcell z u Z Lz) in V.
    assert (K := inside_kept z _ Lz V). cbn [fst snd] in K |- *. rewrite K. clear K. do 3 eexists. split; [reflexivity|]. split; [exact V|]. intros d Hd I. rewrite <- filter_app, <- map_app in Hd. apply filter_In in Hd as [Hd _].
    apply in_map_iff in Hd as ([u' Z'] & <- & Hd). apply (inside_vcell z u' Z' Lz) in I. exact (H _ Hd I).
  Qed.
  Lemma cells_none z L : length z = m -> (forall c, In c L -> ~ vcell m (map Val z) c) -> in_none z (partition_bounds ext eleb NInf m (repeat PInf m) L).
  Proof.
    intros Lz H c Hc I. unfold partition_bounds in Hc. apply filter_In in Hc as [Hc _]. apply in_map_iff in Hc as ([u Z] & <- & Hc). apply (inside_vcell z u Z Lz) in I. exact (H _ Hc I).
  Qed.

  Definition under (N : list vec) : Prop := forall p, In p N -> length p = m /\ forall l, l < m -> (nth l p 0 < - nth l ref 0)%Q.
  (** The numbers that bounds of cells are made of. *)
  Definition from_values (N : list vec) (j : nat) (e : ext) : Prop :=
    e = PInf \/ exists v, e = Val v /\ ((v == nth j ref 0)%Q \/ exists p, In p N /\ (v == - nth j p 0)%Q).
  Definition on_values (N : list vec) (c : box) : Prop :=
    length (fst c) = m /\ length (snd c) = m /\ forall j, j < m -> from_values N j (nth j (fst c) NInf) /\ from_values N j (nth j (snd c) NInf).
  Lemma lower_entry Z j : j < m -> exists k, k < m /\ nth j (lower_of ext eleb NInf m Z) NInf = nth j (nth k Z []) NInf.
  Proof.
    intros Hj. destruct j as [|j]; [exists 0; split; [lia|reflexivity]|]. unfold lower_of. cbn [nth]. rewrite (map_nth_lt _ 0) by (rewrite seq_length; lia). rewrite seq_nth by lia. simpl Nat.add.
    destruct (max_of_spec (map (fun k => entry ext NInf (nth k Z []) (S j)) (seq 0 (S j)))) as (M & -> & I & HM); [discriminate|].
    apply in_map_iff in I as (k & <- & I). apply in_seq in I. exists k. split; [lia|reflexivity].
  Qed.
  Lemma two_passes N : under N -> exists L cells, first_zones ref N = Some L /\ second_cells ref L = Some cells /\ nothing_below cells ref /\ (forall c, In c cells -> on_values N c) /\
    forall z, strictly_above ref z ->
      ((exists p, In p N /\ forall l, l < m -> (nth l p 0 <= - nth l z 0)%Q) -> in_none z cells) /\
      (~ (exists p, In p N /\ forall l, l < m -> (nth l p 0 <= - nth l z 0)%Q) -> in_exactly_one z cells).
  Proof.
    intros HU. set (nref := map (fun r => Val (- r)%Q) ref).
    assert (NR : forall l, l < m -> nth l nref NInf = Val (- nth l ref 0)%Q) by (intros l Hl; unfold nref; now rewrite (map_nth_lt _ 0%Q) by lia).
    assert (LN : length nref = m) by (unfold nref; now rewrite map_length).
    assert (HB1 : forall p, In p (map (map Val) N) -> between m (repeat NInf m) nref p).
    { intros p Hp. apply in_map_iff in Hp as (q & <- & Hq). destruct (HU q Hq) as [Lq Hl]. split; [now rewrite map_length|]. intros l Hl'. rewrite nth_repeat' by lia. rewrite NR, val_nth by lia.
      split; [reflexivity|]. simpl. rewrite <- not_true_iff_false, Qle_bool_iff. specialize (Hl l Hl'). lra. }
    assert (LT1 : forall l, l < m -> eleb (nth l nref NInf) (nth l (repeat NInf m) NInf) = false) by (intros l Hl; rewrite NR, nth_repeat' by lia; reflexivity).
    destruct (zones_tagged m Hm (repeat NInf m) nref (repeat_length NInf m) LN LT1 (map (map Val) N) HB1) as (L1 & E1 & T1 & G1).
    set (L := map untagz L1) in *.
    assert (BD := stage_bounds m Hm _ _ (repeat_length NInf m) LN _ L1 HB1 G1 T1). assert (ZN := stage_zone m Hm _ _ (repeat_length NInf m) LN LT1 _ L1 HB1 G1 T1).
    fold L in BD, ZN.
    set (zs := map (fun uZ => map eopp (fst uZ)) L).
    assert (VR : forall l, l < m -> nth l (map Val ref) NInf = Val (nth l ref 0)%Q) by (intros l Hl; now rewrite val_nth by lia).
    assert (LR : length (map Val ref) = m) by now rewrite map_length.
    assert (LP : length (repeat PInf m) = m) by apply repeat_length.
    assert (HB2 : forall z, In z zs -> between m (map Val ref) (repeat PInf m) z).
    { intros z Hz. apply in_map_iff in Hz as ([u Z] & <- & Hz). destruct (BD u Z Hz) as [Lu Hu]. simpl fst. split; [now rewrite map_length|]. intros l Hl. rewrite nth_repeat' by lia.
      rewrite (map_nth_lt eopp NInf) by lia. rewrite VR by lia. destruct (Hu l Hl) as [->|(p & Hp & ->)].
      - rewrite NR by lia. simpl. split; [|reflexivity]. apply Qle_bool_iff. lra.
      - apply in_map_iff in Hp as (q & <- & Hq). destruct (HU q Hq) as [Lq Hq']. rewrite val_nth by lia. simpl. split; [|reflexivity]. apply Qle_bool_iff. specialize (Hq' l Hl). lra. }
    assert (LT2 : forall l, l < m -> eleb (nth l (repeat PInf m) NInf) (nth l (map Val ref) NInf) = false) by (intros l Hl; rewrite VR, nth_repeat' by lia; reflexivity).
    destruct (zones_tagged m Hm (map Val ref) (repeat PInf m) LR LP LT2 zs HB2) as (L2 & E2 & T2 & G2).
    assert (CE := stage_cell m Hm _ _ LR LP LT2 zs L2 HB2 G2). assert (LO := stage_low m Hm _ _ LR LP LT2 zs L2 HB2 G2).
    exists L, (partition_bounds ext eleb NInf m (repeat PInf m) (map untagz L2)). split; [exact E1|].
    split; [unfold second_cells; cbv zeta; fold zs; rewrite E2; reflexivity|]. split; [|split].
    - intros z Lz NS. apply cells_none; [exact Lz|]. intros [u Z] Hc V. apply NS. unfold strictly_above. apply (F2_nth Qlt 0%Q 0%Q); [congruence|]. intros l Hl.
      destruct V as [V0 V]. simpl snd in *. destruct (Nat.eq_dec l 0) as [->|].
      + specialize (LO u Z 0 0 Hc ltac:(lia) ltac:(lia)). rewrite VR in LO by lia. rewrite val_nth in V0 by lia. apply Qnot_le_lt. intros K.
        assert (X : eleb (Val (nth 0 z 0%Q)) (nth 0 (nth 0 Z []) NInf) = true); [|congruence]. apply (eleb_trans _ (Val (nth 0 ref 0%Q))); auto. simpl. now apply Qle_bool_iff.
      + specialize (LO u Z 0 l Hc ltac:(lia) Hl). rewrite VR in LO by lia. destruct (V l ltac:(lia)) as [V1 _]. specialize (V1 0 ltac:(lia)). rewrite val_nth in V1 by lia. apply Qnot_le_lt. intros K.
        assert (X : eleb (Val (nth l z 0%Q)) (nth l (nth 0 Z []) NInf) = true); [|congruence]. apply (eleb_trans _ (Val (nth l ref 0%Q))); auto. simpl. now apply Qle_bool_iff.
    - assert (ZV : forall z j, In z zs -> j < m -> from_values N j (nth j z NInf)).
      { intros z j Hz Hj. apply in_map_iff in Hz as ([u Z] & <- & Hz). destruct (BD u Z Hz) as [Lu Hu]. simpl fst. rewrite (map_nth_lt eopp NInf) by lia. right. destruct (Hu j Hj) as [->|(p & Hp & ->)].
        - rewrite NR by lia. simpl. eexists. split; [reflexivity|]. left. lra.
        - apply in_map_iff in Hp as (q & <- & Hq). destruct (HU q Hq) as [Lq _]. rewrite val_nth by lia. simpl. eexists. split; [reflexivity|]. right. exists q. split; [exact Hq|lra]. }
      assert (DE := stage_def m Hm _ _ LR LP zs L2 HB2 G2). assert (BE := stage_bounds m Hm _ _ LR LP zs L2 HB2 G2 T2).
      intros c Hc. unfold partition_bounds in Hc. apply filter_In in Hc as [Hc _]. apply in_map_iff in Hc as ([u Z] & <- & Hc). simpl fst. simpl snd. split; [|split].
      + unfold lower_of. simpl. rewrite map_length, seq_length. lia.
      + unfold upper_of. simpl. rewrite map_length, seq_length. lia.
      + intros j Hj. cbn [fst snd]. split.
        * destruct (lower_entry Z j Hj) as (k & Hk & ->). destruct (DE u Z k j Hc Hk Hj) as [->|[->|(z & Hz & ->)]]; [|left; apply nth_repeat'; exact Hj|apply ZV; assumption].
          rewrite VR by lia. right. eexists. split; [reflexivity|]. left. reflexivity.
        * destruct j as [|j]; [left; unfold upper_of, entry; cbn [nth]; apply nth_repeat'; lia|]. unfold upper_of. cbn [nth]. rewrite (map_nth_lt _ 0) by (rewrite seq_length; lia). rewrite seq_nth by lia. simpl Nat.add. unfold entry.
          destruct (BE u Z Hc) as [_ Hu]. destruct (Hu (S j) Hj) as [->|(z & Hz & ->)]; [left; apply nth_repeat'; exact Hj|apply ZV; assumption].
    - intros z SA. assert (Lz := F2_len _ _ _ SA). symmetry in Lz. assert (SA' := proj1 (F2_nth Qlt 0%Q 0%Q _ _ (eq_sym Lz)) SA).
      destruct (CE (map Val z)) as [C1 C2].
      { now rewrite map_length. }
      { intros l Hl. rewrite VR, val_nth, nth_repeat' by lia. simpl. split; [|reflexivity]. rewrite <- not_true_iff_false, Qle_bool_iff. specialize (SA' l Hl). lra. }
      set (nz := map Val (map Qopp z)). assert (Lnz : length nz = m) by (unfold nz; now rewrite !map_length).
      assert (NZ : forall l, l < m -> nth l nz NInf = Val (- nth l z 0)%Q) by (intros l Hl; unfold nz; rewrite val_nth by (rewrite map_length; lia); now rewrite (map_nth_lt Qopp 0%Q) by lia).
      destruct (ZN nz Lnz) as [Z1 Z2].
      { intros l Hl. rewrite nth_repeat', NR, NZ by lia. simpl. split; [reflexivity|]. rewrite <- not_true_iff_false, Qle_bool_iff. specialize (SA' l Hl). lra. }
      assert (X1 : (exists p, In p N /\ forall l, l < m -> (nth l p 0 <= - nth l z 0)%Q) <-> exists p, In p (map (map Val) N) /\ forall l, l < m -> eleb (nth l p NInf) (nth l nz NInf) = true).
      { split.
        - intros (p & Hp & A). exists (map Val p). split; [now apply in_map|]. destruct (HU p Hp) as [Lp _]. intros l Hl. rewrite val_nth, NZ by lia. simpl. now apply Qle_bool_iff, A.
        - intros (p & Hp & A). apply in_map_iff in Hp as (q & <- & Hq). exists q. split; auto. destruct (HU q Hq) as [Lp _]. intros l Hl. specialize (A l Hl). rewrite val_nth, NZ in A by lia. simpl in A. now apply Qle_bool_iff in A. }
      assert (X2 : (exists u Z, In (u, Z) L /\ forall l, l < m -> eleb (nth l u NInf) (nth l nz NInf) = false) <-> exists p, In p zs /\ forall l, l < m -> eleb (nth l (map Val z) NInf) (nth l p NInf) = false).
      { assert (Y : forall u Z l, In (u, Z) L -> l < m -> eleb (nth l (map Val z) NInf) (nth l (map eopp u) NInf) = eleb (nth l u NInf) (nth l nz NInf)).
        { intros u Z l I Hl. destruct (BD u Z I) as [Lu _]. rewrite (map_nth_lt eopp NInf) by lia. rewrite NZ, val_nth by lia.
          destruct (nth l u NInf) as [|q|]; simpl; auto. apply eq_true_iff_eq. rewrite !Qle_bool_iff. split; lra. }
        split.
        - intros (u & Z & I & A). exists (map eopp u). split; [unfold zs; apply in_map_iff; exists (u, Z); auto|]. intros l Hl. rewrite (Y u Z) by auto. auto.
        - intros (p & Hp & A). apply in_map_iff in Hp as ([u Z] & <- & I). exists u, Z. split; auto. intros l Hl. rewrite <- (Y u Z) by auto. apply A; auto. }
      split.
      + intros H. apply cells_none; [exact Lz|]. apply C2. intros K. apply X2 in K. apply Z1 in K. apply K, X1, H.
      + intros H. apply cells_one; [exact Lz|]. apply C1. apply X2. apply Z2. intros K. apply H, X1, K.
  Qed.
End Cells.

Section Updates.
  Variable ref : vec.
  Notation m := (length ref).
  Hypothesis Hm : 2 <= m.
  (** The points of N are negated outcomes above the reference; every outcome above the reference is reached by one. *)
  Definition from_outcomes (Y N : list vec) : Prop := forall p, In p N -> exists y, In y Y /\ strictly_above ref y /\ p = map Qopp y.
  Definition below (N : list vec) (q : vec) : Prop := exists p, In p N /\ forall l, l < m -> (nth l p 0 <= nth l q 0)%Q.
  Definition reaches (Y N : list vec) : Prop := forall y, In y Y -> strictly_above ref y -> below N (map Qopp y).

  Lemma opp_at y l : length y = m -> l < m -> nth l (map Qopp y) 0%Q = (- nth l y 0)%Q.
  Proof. intros. rewrite (map_nth_lt Qopp 0%Q) by lia. reflexivity. Qed.
  Lemma from_under Y N : from_outcomes Y N -> under ref N.
  Proof.
    intros H p Hp. destruct (H p Hp) as (y & _ & SA & ->). assert (Ly := F2_len _ _ _ SA). symmetry in Ly. split; [now rewrite map_length|]. intros l Hl. rewrite opp_at by auto.
    apply (F2_nth Qlt 0%Q 0%Q) with (j := l) in SA; auto. lra.
  Qed.
  Lemma reached_iff Y N z : from_outcomes Y N -> reaches Y N -> strictly_above ref z ->
    ((exists p, In p N /\ forall l, l < m -> (nth l p 0 <= - nth l z 0)%Q) <-> dominated_by Y z).
  Proof.
    intros HF HR SA. assert (Lz := F2_len _ _ _ SA). symmetry in Lz. split.
    - intros (p & Hp & A). destruct (HF p Hp) as (y & Hy & SY & ->). exists y. split; auto. assert (Ly := F2_len _ _ _ SY). unfold covers. apply (F2_nth Qle 0%Q 0%Q); [congruence|].
      intros l Hl. specialize (A l ltac:(congruence)). rewrite opp_at in A by congruence. lra.
    - intros (y & Hy & C). assert (Ly := F2_len _ _ _ C). assert (C' := proj1 (F2_nth Qle 0%Q 0%Q _ _ Ly) C). assert (SY : strictly_above ref y).
      { unfold strictly_above in *. apply (F2_nth Qlt 0%Q 0%Q); [congruence|]. intros l Hl. specialize (C' l ltac:(congruence)). apply (F2_nth Qlt 0%Q 0%Q) with (j := l) in SA; auto. lra. }
      destruct (HR y Hy SY) as (p & Hp & A). exists p. split; auto. intros l Hl. specialize (A l Hl). rewrite opp_at in A by congruence. specialize (C' l ltac:(congruence)). lra.
  Qed.

  Definition Inv (o : fast) : Prop := rectangular m (f_Y o) /\ from_outcomes (f_Y o) (f_front o) /\ reaches (f_Y o) (f_front o) /\
    ((f_front o = [] /\ f_cells o = single_cell ref) \/
     (f_front o <> [] /\ exists N L, f_zones o = Some L /\ first_zones ref N = Some L /\ from_outcomes (f_Y o) N /\ (forall p, In p (f_front o) -> below N p) /\ second_cells ref L = Some (f_cells o))).

  Lemma reaches_trans Y F N : reaches Y F -> (forall p, In p F -> below N p) -> reaches Y N.
  Proof.
    intros H1 H2 y Hy SY. destruct (H1 y Hy SY) as (p & Hp & A). destruct (H2 p Hp) as (q & Hq & B). exists q. split; auto. intros l Hl. specialize (A l Hl). specialize (B l Hl). lra.
  Qed.
  Lemma inv_partitions o : Inv o -> partitions (f_cells o) ref (f_Y o) /\ nothing_below (f_cells o) ref.
  Proof.
    intros (R & F & C & [[E0 ->]|(_ & N & L & _ & Z1 & FN & BN & Z2)]).
    - assert (I : forall z, length z = m -> (inside z (map Val ref, repeat PInf m) <-> strictly_above ref z)).
      { intros z Lz. unfold inside, strictly_above. simpl. rewrite (F2_nth above NInf 0%Q) by (rewrite map_length; auto). rewrite (F2_nth upto 0%Q NInf) by (rewrite repeat_length; auto). rewrite (F2_nth Qlt 0%Q 0%Q) by auto. rewrite map_length, Lz. split.
        - intros [A _] l Hl. specialize (A l Hl). now rewrite val_nth in A.
        - intros A. split; intros l Hl; [rewrite val_nth by auto; simpl; auto|]. rewrite nth_repeat' by lia. exact Logic.I. }
      split.
      + intros z SA. assert (Lz := F2_len _ _ _ SA). symmetry in Lz. split.
        * intros D. exfalso. apply (reached_iff _ _ z F C SA) in D. destruct D as (p & Hp & _). rewrite E0 in Hp. destruct Hp.
        * intros _. exists [], (map Val ref, repeat PInf m), []. split; [reflexivity|]. split; [now apply I|]. intros d [].
      + intros z Lz NS c [<-|[]] K. apply NS, I; auto.
    - destruct (two_passes ref Hm N (from_under _ _ FN)) as (L' & cells & A1 & A2 & A3 & _ & A4). assert (L' = L) by congruence. subst L'. assert (cells = f_cells o) by congruence. subst cells.
      split; [|exact A3]. assert (RN := reaches_trans _ _ _ C BN). intros z SA. destruct (A4 z SA) as [B1 B2]. split.
      + intros D. apply B1. now apply (reached_iff _ _ z FN RN SA).
      + intros D. apply B2. intros K. apply D. now apply (reached_iff _ _ z FN RN SA).
  Qed.
  Lemma below_refl N p : In p N -> below N p.
  Proof. intros H. exists p. split; auto. intros. lra. Qed.

  Lemma inv_fast_partition Y P old : rectangular m Y -> from_outcomes Y P -> reaches Y P -> exists o, fast_partition ref Y P old = Some o /\ Inv o /\ f_Y o = Y.
  Proof.
    intros R F C. destruct P as [|p P].
    - eexists. split; [reflexivity|]. split; [|reflexivity]. split; auto.
    - unfold fast_partition. destruct (two_passes ref Hm (p :: P) (from_under _ _ F)) as (L & cells & A1 & A2 & _). rewrite A1, A2. simpl option_map. eexists. split; [reflexivity|]. split; [|reflexivity].
      split; auto. split; auto. split; auto. right. split; [discriminate|]. exists (p :: P), L. split; [reflexivity|]. split; [exact A1|]. split; [exact F|]. split; [intros q Hq; now apply below_refl|exact A2].
  Qed.
  Lemma front_outcomes Y : rectangular m Y -> from_outcomes Y (neg_front (fun _ => []) false ref Y) /\ reaches Y (neg_front (fun _ => []) false ref Y).
  Proof.
    intros R. assert (E0 : neg_front (fun _ => []) false ref Y = map (map Qopp) (chosen ref Y)) by (unfold neg_front, chosen; destruct Y; reflexivity). rewrite E0. split.
    - intros p Hp. apply in_map_iff in Hp as (y & <- & Hy). exists y. apply (chosen_Y ref Y R) in Hy. tauto.
    - intros y Hy SA. destruct (chosen_covers ref Y R y Hy SA) as (x & Hx & C). exists (map Qopp x). split; [now apply in_map|]. intros l Hl.
      assert (Lx := F2_len _ _ _ C). assert (Ly := R y Hy). rewrite !opp_at by congruence. apply (F2_nth Qle 0%Q 0%Q) with (j := l) in C; try congruence. lra.
  Qed.
  Lemma inv_reset Y old : rectangular m Y -> (forall o, old = Some o -> f_front o = [] /\ f_cells o = single_cell ref) ->
    exists o, fast_reset ref Y old = Some o /\ Inv o /\ f_Y o = Y.
  Proof.
    intros R H. destruct (front_outcomes Y R) as [F C]. unfold fast_reset. destruct old as [o|]; [|now apply inv_fast_partition].
    destruct (H o eq_refl) as [E1 E2]. rewrite E1. destruct (neg_front (fun _ => []) false ref Y) as [|p P] eqn:E0.
    - simpl. eexists. split; [reflexivity|]. split; [|reflexivity]. split; auto.
    - simpl same_front. cbv iota. now apply inv_fast_partition.
  Qed.
  Lemma filter_snd_in {A} (l : list A) b p : In p (map fst (filter snd (combine l b))) <-> exists i, nth_error l i = Some p /\ nth_error b i = Some true.
  Proof.
    rewrite in_map_iff. split.
    - intros ([q c] & E0 & I). simpl in E0. subst q. apply filter_In in I as [I K]. simpl in K. subst c. apply In_nth_error in I as (i & I). rewrite nth_error_combine in I. exists i.
      destruct (nth_error l i), (nth_error b i); try discriminate. injection I as -> ->. auto.
    - intros (i & E1 & E2). exists (p, true). split; [reflexivity|]. apply filter_In. split; [|reflexivity]. apply nth_error_In with i. now rewrite nth_error_combine, E1, E2.
  Qed.
  Lemma count_kept {A} (l : list A) b : length b = length l -> length (map fst (filter snd (combine l b))) = length (filter (fun b => b) b).
  Proof. revert b. induction l as [|a l IH]; intros [|c b] H; simpl in *; try lia. specialize (IH b ltac:(lia)). destruct c; simpl; lia. Qed.
  Lemma combine_app' {A B} (l l' : list A) (b b' : list B) : length l = length b -> combine (l ++ l') (b ++ b') = combine l b ++ combine l' b'.
  Proof. revert b. induction l as [|a l IH]; intros [|c b] H; simpl in *; try lia; auto. f_equal. apply IH. lia. Qed.

  Lemma above_all2 y : length y = m -> (all2 (fun a r => Qltb r a) y ref = true <-> strictly_above ref y).
  Proof. intros Ly. assert (R : rectangular m [y]) by (intros x [<-|[]]; exact Ly). apply (above_iff ref [y] R). now left. Qed.
  Lemma opp_opp y : Forall2 Qeq (map Qopp (map Qopp y)) y.
  Proof. induction y as [|a y IH]; simpl; constructor; auto. lra. Qed.

  Lemma inv_update o Y : Inv o -> rectangular m Y -> exists o', fast_update ref (Some o) Y = Some o' /\ Inv o' /\ f_Y o' = f_Y o ++ Y.
  Proof.
    intros HI RY. assert (HI0 := HI). destruct HI as (R & F & C & D). assert (RA : rectangular m (f_Y o ++ Y)) by (intros y Hy; apply in_app_iff in Hy as [Hy|Hy]; auto).
    destruct D as [[E1 E2]|(NE & N & L & E1 & E2 & FN & BN & E3)].
    - unfold fast_update. rewrite E1. apply inv_reset; auto. intros o' [= <-]. auto.
    - unfold fast_update. rewrite E1. destruct (f_front o) as [|p0 F0] eqn:EF; [congruence|]. rewrite <- EF in *. clear NE.
      set (Y' := filter (fun y => all2 (fun a r => Qltb r a) y ref) Y). set (B := map (map Qopp) Y'). set (Cd := f_front o ++ B).
      set (mask := is_non_dominated (map (map Qopp) Cd) true). set (P := map fst (filter snd (combine Cd mask))).
      assert (HY' : forall y, In y Y' -> In y Y /\ strictly_above ref y).
      { intros y Hy. apply filter_In in Hy as [Hy A]. split; auto. apply above_all2 in A; auto. }
      assert (FC : from_outcomes (f_Y o ++ Y) Cd).
      { intros p Hp. apply in_app_iff in Hp as [Hp|Hp].
        - destruct (F p Hp) as (y & A1 & A2 & A3). exists y. split; [apply in_app_iff; auto|auto].
        - apply in_map_iff in Hp as (y & <- & Hy). apply HY' in Hy. exists y. split; [apply in_app_iff; tauto|tauto]. }
      assert (RC : rectangular m (map (map Qopp) Cd)).
      { intros x Hx. apply in_map_iff in Hx as (p & <- & Hp). rewrite map_length. apply (from_under _ _ FC p Hp). }
      assert (LM : length mask = length Cd) by (unfold mask; rewrite (proj1 (is_nd_true m _ RC)); now rewrite map_length).
      assert (PC : forall p, In p P -> In p Cd) by (intros p Hp; apply filter_snd_in in Hp as (i & A & _); now apply nth_error_In in A).
      assert (FP : from_outcomes (f_Y o ++ Y) P) by (intros p Hp; apply FC, PC, Hp).
      assert (CP : forall p, In p Cd -> below P p).
      { intros p Hp. destruct (FC p Hp) as (y & _ & SY & Ep). assert (Ly := F2_len _ _ _ SY).
        destruct (chosen_covers ref _ RC (map Qopp p)) as (x & Hx & Cv).
        - now apply in_map.
        - subst p. unfold strictly_above in *. apply (F2_nth Qlt 0%Q 0%Q); [rewrite !map_length; auto|]. intros l Hl. apply (F2_nth Qlt 0%Q 0%Q) with (j := l) in SY; auto.
          rewrite opp_at by (rewrite ?map_length; congruence). rewrite opp_at by congruence. lra.
        - apply (chosen_in ref _ RC) in Hx as (i & A1 & A2 & _). assert (Hi := nth_error_lt _ _ _ A1). rewrite map_length in Hi. destruct (lt_nth_error Cd i Hi) as (q & Eq).
          rewrite (map_nth_error (map Qopp) i Cd Eq) in A1. injection A1 as <-. exists q. split; [apply filter_snd_in; exists i; auto|]. intros l Hl.
          assert (Lq : length q = m) by (apply (from_under _ _ FC q); now apply nth_error_In in Eq). assert (Lp : length p = m) by (apply (from_under _ _ FC p Hp)).
          apply (F2_nth Qle 0%Q 0%Q) with (j := l) in Cv; [|rewrite !map_length; congruence|rewrite map_length; congruence]. rewrite !opp_at in Cv by auto. lra. }
      assert (CC : reaches (f_Y o ++ Y) Cd).
      { intros y Hy SY. apply in_app_iff in Hy as [Hy|Hy].
        - destruct (C y Hy SY) as (p & Hp & A). exists p. split; auto. apply in_app_iff. auto.
        - apply below_refl. apply in_app_iff. right. apply in_map. apply filter_In. split; auto. apply above_all2; auto. }
      assert (CPY : reaches (f_Y o ++ Y) P) by exact (reaches_trans _ _ _ CC CP).
      assert (PN : P <> []).
      { destruct (CP p0) as (q & Hq & _); [apply in_app_iff; left; rewrite EF; now left|]. intros K. rewrite K in Hq. destruct Hq. }
      (* the kept old and the kept new points *)
      set (MA := firstn (length (f_front o)) mask). set (MB := skipn (length (f_front o)) mask).
      assert (EM : mask = MA ++ MB) by (symmetry; apply firstn_skipn).
      assert (LC : length Cd = length (f_front o) + length B) by (unfold Cd; apply app_length).
      assert (LMA : length MA = length (f_front o)) by (unfold MA; rewrite firstn_length; lia).
      assert (LMB : length MB = length B) by (unfold MB; rewrite skipn_length; lia).
      set (PA := map fst (filter snd (combine (f_front o) MA))). set (PB := map fst (filter snd (combine B MB))).
      assert (EP : P = PA ++ PB) by (unfold P, PA, PB, Cd; rewrite EM, combine_app', filter_app, map_app by auto; reflexivity).
      assert (PAF : forall p, In p PA -> In p (f_front o)) by (intros p Hp; apply filter_snd_in in Hp as (i & A & _); now apply nth_error_In in A).
      assert (LB : length Y' = length B) by (unfold B; now rewrite map_length).
      set (num_new := length (filter (fun b => b) (last_rows (length Y') mask))).
      assert (W : num_new = 0 /\ PB = [] \/ num_new <> 0 /\ (forall p, In p (last_rows num_new P) -> In p P) /\ (forall p, In p PB -> In p (last_rows num_new P))).
      { assert (SK : forall k p, In p (last_rows k P) -> In p P).
        { intros k p Hp. unfold last_rows in Hp. destruct (k =? 0); auto. rewrite <- (firstn_skipn (length P - k) P). apply in_app_iff. auto. }
        destruct (Nat.eq_dec (length Y') 0) as [E0|E0].
        - right. assert (E4 : num_new = length P).
          { unfold num_new, last_rows. rewrite E0. simpl. symmetry. apply count_kept. congruence. }
          split; [destruct P; [congruence|simpl in E4; lia]|]. split; [apply SK|]. intros p Hp. exfalso. apply filter_snd_in in Hp as (i & A & _). apply nth_error_lt in A. lia.
        - assert (E4 : num_new = length PB).
          { unfold num_new, last_rows. destruct (Nat.eqb_spec (length Y') 0); [lia|]. replace (length mask - length Y') with (length (f_front o)) by lia. fold MB. symmetry. apply count_kept. congruence. }
          destruct (Nat.eq_dec num_new 0) as [E5|E5]; [left; split; auto; destruct PB; [reflexivity|simpl in E4; lia]|]. right. split; auto. split; [apply SK|].
          intros p Hp. unfold last_rows. destruct (Nat.eqb_spec num_new 0); [lia|]. rewrite EP, app_length, E4. replace (length PA + length PB - length PB) with (length PA) by lia.
          rewrite skipn_app, skipn_all2 by lia. rewrite Nat.sub_diag. exact Hp. }
      destruct W as [[E5 E6]|(E5 & W1 & W2)].
      + cbv zeta. fold Y' B Cd mask P num_new. rewrite E5. cbn [Nat.ltb Nat.leb]. eexists. split; [reflexivity|]. split; [|reflexivity].
        split; [exact RA|]. split; [exact FP|]. split; [exact CPY|]. right. split; [exact PN|]. exists N, L. split; [reflexivity|]. split; [exact E2|]. split.
        * intros p Hp. destruct (FN p Hp) as (y & A1 & A2). exists y. split; [apply in_app_iff; auto|exact A2].
        * split; [|exact E3]. intros p Hp. cbn [f_front] in Hp. rewrite EP, E6, app_nil_r in Hp. apply BN, PAF, Hp.
      + cbv zeta. fold Y' B Cd mask P num_new. destruct (Nat.ltb_spec 0 num_new); [|lia]. set (W := last_rows num_new P) in *.
        assert (FNW : from_outcomes (f_Y o ++ Y) (N ++ W)).
        { intros p Hp. apply in_app_iff in Hp as [Hp|Hp]; [|apply FP, W1, Hp]. destruct (FN p Hp) as (y & A1 & A2). exists y. split; [apply in_app_iff; auto|exact A2]. }
        destruct (two_passes ref Hm (N ++ W) (from_under _ _ FNW)) as (L' & cells & Z1 & Z2 & _).
        assert (E7 : update_bounds ext eleb NInf m L (map (map Val) W) = Some L').
        { unfold first_zones in E2, Z1. cbv zeta in E2, Z1. rewrite map_app, update_app, E2 in Z1. exact Z1. }
        rewrite E7, Z2. simpl option_map. eexists. split; [reflexivity|]. split; [|reflexivity].
        split; [exact RA|]. split; [exact FP|]. split; [exact CPY|]. right. split; [exact PN|]. exists (N ++ W), L'. split; [reflexivity|]. split; [exact Z1|]. split; [exact FNW|].
        split; [|exact Z2]. intros p Hp. cbn [f_front] in Hp. rewrite EP in Hp. apply in_app_iff in Hp as [Hp|Hp].
        * destruct (BN p (PAF p Hp)) as (q & Hq & A). exists q. split; auto. apply in_app_iff. auto.
        * apply below_refl. apply in_app_iff. auto.
  Qed.
  Lemma inv_updates Ys : forall o, Inv o -> (forall Y, In Y Ys -> rectangular m Y) -> exists o', fast_updates ref (Some o) Ys = Some o' /\ Inv o' /\ f_Y o' = f_Y o ++ concat Ys.
  Proof.
    induction Ys as [|Y Ys IH]; intros o HI RY; simpl.
    - exists o. rewrite app_nil_r. auto.
    - destruct (inv_update o Y HI) as (o1 & E1 & I1 & Y1); [apply RY; now left|]. simpl in E1. rewrite E1. destruct (IH o1 I1) as (o2 & E2 & I2 & Y2); [intros; apply RY; now right|].
      exists o2. split; [exact E2|]. split; [exact I2|]. rewrite Y2, Y1, app_assoc. reflexivity.
  Qed.
  Lemma updates_spec Y Ys : rectangular m Y -> (forall Y, In Y Ys -> rectangular m Y) ->
    exists o, fast_updates ref None (Y :: Ys) = Some o /\ f_Y o = concat (Y :: Ys) /\ partitions (f_cells o) ref (concat (Y :: Ys)) /\ nothing_below (f_cells o) ref.
  Proof.
    intros R RY. destruct (inv_reset Y None R) as (o1 & E1 & I1 & Y1); [discriminate|]. cbn [fast_updates fast_update]. rewrite E1.
    destruct (inv_updates Ys o1 I1 RY) as (o2 & E2 & I2 & Y2). exists o2. split; [exact E2|]. rewrite Y2, Y1. split; [reflexivity|]. assert (X := inv_partitions o2 I2). now rewrite Y2, Y1 in X.
  Qed.
End Updates.
