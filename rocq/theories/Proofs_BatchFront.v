(** Lemmas about Model_BatchBoxes.v: one padded front. *)
From Coq Require Import List Bool Arith ZArith QArith Qminmax Permutation Sorted Lia Lqa.
From Verif Require Import Lib_List Model_Pareto Spec_Pareto Proofs_Pareto Model_Boxes Spec_Boxes Proofs_Boxes Proofs_BoxFront Proofs_Box2D Proofs_BoxRuns Model_Lacour Proofs_LacourRuns Spec_HV Proofs_HVmeasure Proofs_HVgrid Model_CellVolume Proofs_CellVolume Proofs_CellClip Proofs_CellIndex Proofs_CellFast Model_BatchBoxes.
Import ListNotations.
Open Scope nat_scope.

(** *** staircases with repeated points *)
Definition wstep (p q : Q * Q) : Prop := (fst p <= fst q)%Q /\ (snd q <= snd p)%Q.
Definition wdown (p q : Q * Q) : Prop := wstep q p.

Lemma wstairs_lower ps : forall l r1 c, Forall (fun p => (l <= fst p)%Q /\ (r1 <= snd p)%Q) ps -> StronglySorted wstep ps ->
  In c (stairs l ps r1) -> exists a b u, c = ([Val a; Val b], [u; PInf]) /\ (l <= a)%Q /\ (r1 <= b)%Q.
Proof.
  induction ps as [|p ps IH]; intros l r1 c HF HS; cbn [stairs].
  - intros [<-|[]]. exists l, r1, PInf. split; [reflexivity|]. split; lra.
  - inversion HF as [|? ? [F1 F2] F3]; subst. inversion HS as [|? ? S1 S2]; subst. intros [<-|H].
    + exists l, (snd p), (Val (fst p)). split; [reflexivity|]. split; lra.
    + destruct (IH (fst p) r1 c) as (a&b&u&E&A&B); auto.
      * rewrite Forall_forall in *. intros q Hq. specialize (S2 q Hq). specialize (F3 q Hq). unfold wstep in S2. lra.
      * exists a, b, u. split; [exact E|]. split; lra.
Qed.
Lemma wstairs_spec ps : StronglySorted wstep ps -> forall l r1 z0 z1,
  Forall (fun p => (l <= fst p)%Q /\ (r1 <= snd p)%Q) ps -> (l < z0)%Q -> (r1 < z1)%Q ->
  (cov2 ps z0 z1 -> in_none [z0; z1] (stairs l ps r1)) /\ (~ cov2 ps z0 z1 -> in_exactly_one [z0; z1] (stairs l ps r1)).
Proof.
  induction ps as [|p ps IH]; intros HS l r1 z0 z1 HF Hl Hr; cbn [stairs].
  - split; [intros (p&[]&_)|]. intros _. apply one_here; [|intros d []]. apply inside2. simpl. tauto.
  - inversion HS as [|? ? S1 S2]; subst. inversion HF as [|? ? [F1 F2] F3]; subst.
    assert (HF' : Forall (fun q => (fst p <= fst q)%Q /\ (r1 <= snd q)%Q) ps).
    { rewrite Forall_forall in *. intros q Hq. specialize (S2 q Hq). specialize (F3 q Hq). unfold wstep in S2. lra. }
    destruct (Qlt_le_dec (fst p) z0) as [L|L].
    + destruct (IH S1 (fst p) r1 z0 z1 HF' L Hr) as [I1 I2].
      assert (NI : ~ inside [z0; z1] ([Val l; Val (snd p)], [Val (fst p); PInf])) by (rewrite inside2; simpl; lra).
      split.
      * intros (q&[<-|Hq]&C1&C2); [lra|]. apply none_cons; [exact NI|]. apply I1. exists q. auto.
      * intros N. apply one_later; [exact NI|]. apply I2. intros (q&Hq&C). apply N. exists q. split; [right; exact Hq|exact C].
    + assert (NR : in_none [z0; z1] (stairs (fst p) ps r1)).
      { intros c Hc. destruct (wstairs_lower ps (fst p) r1 c HF' S1 Hc) as (a&b&u&->&A&B). rewrite inside2. simpl. lra. }
      destruct (Qlt_le_dec (snd p) z1) as [L1|L1].
      * split.
        -- intros (q&[<-|Hq]&C1&C2); [lra|]. rewrite Forall_forall in S2. specialize (S2 q Hq). unfold wstep in S2. lra.
        -- intros _. apply one_here; [|exact NR]. apply inside2. simpl. tauto.
      * split.
        -- intros _. apply none_cons; [|exact NR]. rewrite inside2. simpl. lra.
        -- intros N. exfalso. apply N. exists p. split; [left; reflexivity|]. split; lra.
Qed.
Lemma wdstairs_cells ps : forall up lo r0 c, Forall (fun p => (r0 <= fst p)%Q /\ (lo <= snd p)%Q) ps -> StronglySorted wdown ps ->
  In c (dstairs up lo ps r0) -> exists a b u, c = ([Val a; Val b], [u; PInf]) /\ (r0 <= a)%Q /\ (lo <= b)%Q /\
    (u = up \/ exists q, In q ps /\ u = Val (fst q)).
Proof.
  induction ps as [|p ps IH]; intros up lo r0 c HF HS; cbn [dstairs].
  - intros [<-|[]]. exists r0, lo, up. split; [reflexivity|]. split; [lra|]. split; [lra|]. left; reflexivity.
  - inversion HF as [|? ? [F1 F2] F3]; subst. inversion HS as [|? ? S1 S2]; subst. intros [<-|H].
    + exists (fst p), lo, up. split; [reflexivity|]. split; [lra|]. split; [lra|]. left; reflexivity.
    + destruct (IH (Val (fst p)) (snd p) r0 c) as (a&b&u&E&A&B&C); auto.
      * rewrite Forall_forall in *. intros q Hq. specialize (S2 q Hq). specialize (F3 q Hq). unfold wdown, wstep in S2. lra.
      * exists a, b, u. split; [exact E|]. split; [lra|]. split; [lra|].
        right. destruct C as [->|(q&Hq&->)]; [exists p|exists q]; simpl; auto.
Qed.
Lemma wdstairs_spec ps : StronglySorted wdown ps -> forall up lo r0 z0 z1,
  Forall (fun p => (r0 <= fst p)%Q /\ (lo <= snd p)%Q) ps -> upto z0 up -> (r0 < z0)%Q -> (lo < z1)%Q ->
  (cov2 ps z0 z1 -> in_none [z0; z1] (dstairs up lo ps r0)) /\ (~ cov2 ps z0 z1 -> in_exactly_one [z0; z1] (dstairs up lo ps r0)).
Proof.
  induction ps as [|p ps IH]; intros HS up lo r0 z0 z1 HF Hu Hl Hr; cbn [dstairs].
  - split; [intros (p&[]&_)|]. intros _. apply one_here; [|intros d []]. apply inside2. simpl. tauto.
  - inversion HS as [|? ? S1 S2]; subst. inversion HF as [|? ? [F1 F2] F3]; subst.
    assert (HF' : Forall (fun q => (r0 <= fst q)%Q /\ (snd p <= snd q)%Q) ps).
    { rewrite Forall_forall in *. intros q Hq. specialize (S2 q Hq). specialize (F3 q Hq). unfold wdown, wstep in S2. lra. }
    destruct (Qlt_le_dec (fst p) z0) as [L|L].
    + assert (NR : in_none [z0; z1] (dstairs (Val (fst p)) (snd p) ps r0)).
      { intros c Hc. destruct (wdstairs_cells ps (Val (fst p)) (snd p) r0 c HF' S1 Hc) as (a&b&u&->&A&B&C). rewrite inside2.
        destruct C as [->|(q&Hq&->)]; simpl; [lra|]. rewrite Forall_forall in S2. specialize (S2 q Hq). unfold wdown, wstep in S2. lra. }
      split.
      * intros (q&[<-|Hq]&C1&C2); [lra|]. rewrite Forall_forall in S2. specialize (S2 q Hq). unfold wdown, wstep in S2. lra.
      * intros N. apply one_here; [|exact NR]. apply inside2. simpl. tauto.
    + assert (NI : ~ inside [z0; z1] ([Val (fst p); Val lo], [up; PInf])) by (rewrite inside2; simpl; lra).
      destruct (Qlt_le_dec (snd p) z1) as [L1|L1].
      * destruct (IH S1 (Val (fst p)) (snd p) r0 z0 z1 HF' L Hl L1) as [I1 I2]. split.
        -- intros (q&[<-|Hq]&C1&C2); [lra|]. apply none_cons; [exact NI|]. apply I1. exists q. auto.
        -- intros N. apply one_later; [exact NI|]. apply I2. intros (q&Hq&C). apply N. exists q. split; [right; exact Hq|exact C].
      * split.
        -- intros _. apply none_cons; [exact NI|]. intros c Hc.
           destruct (wdstairs_cells ps (Val (fst p)) (snd p) r0 c HF' S1 Hc) as (a&b&u&->&A&B&C). rewrite inside2. simpl. lra.
        -- intros N. exfalso. apply N. exists p. split; [left; reflexivity|]. split; lra.
Qed.

(** *** two sorted lists with the same entries *)
Lemma sorted_equal {A} (R : A -> A -> Prop) : forall l l', (forall a b, In a l -> In b l -> R a b -> R b a -> a = b) ->
  StronglySorted R l -> StronglySorted R l' -> Permutation l l' -> l = l'.
Proof.
  induction l as [|a l IH]; intros [|b l'] An H1 H2 HP.
  - reflexivity.
  - apply Permutation_nil in HP. discriminate.
  - apply Permutation_sym, Permutation_nil in HP. discriminate.
  - inversion H1 as [|? ? A1 A2]; subst. inversion H2 as [|? ? B1 B2]; subst. rewrite Forall_forall in A2, B2.
    assert (E : a = b).
    { assert (I1 : In a (b :: l')) by (apply (Permutation_in _ HP); left; reflexivity).
      assert (I2 : In b (a :: l)) by (apply (Permutation_in _ (Permutation_sym HP)); left; reflexivity).
      destruct I1 as [I1|I1]; [auto|]. destruct I2 as [I2'|I2']; [auto|]. apply An; [now left|now right|apply A2, I2'|apply B2, I1]. }
    subst b. f_equal. apply IH; auto; [|apply Permutation_cons_inv in HP; exact HP]. intros x y Hx Hy. apply An; right; assumption.
Qed.

Lemma map_nth_seq {A} (d : A) : forall l, map (fun i => nth i l d) (seq 0 (length l)) = l.
Proof.
  induction l as [|a l IH]; [reflexivity|]. cbn [length seq map nth]. f_equal. rewrite <- seq_shift, map_map. exact IH.
Qed.
Lemma perm_seq_nth {A} (l : list A) (d : A) idx : Permutation idx (seq 0 (length l)) -> Permutation (map (fun i => nth i l d) idx) l.
Proof. intros H. apply (Permutation_map (fun i => nth i l d)) in H. rewrite map_nth_seq in H. exact H. Qed.

(** *** a sorted front with repeated points *)
Definition pairs (P : list vec) : list (Q * Q) := map (fun p => ((- nth 0 p 0)%Q, (- nth 1 p 0)%Q)) P.

Section Padded.
  Variable argsort : list Q -> list nat.
  Hypothesis HS : sorts argsort.
  Variables (r0 r1 : Q) (P : list vec).
  Notation ref := [r0; r1].
  Hypothesis HL : forall p, In p P -> length p = 2.
  Hypothesis H0 : forall a b p q, a < b -> nth_error P a = Some p -> nth_error P b = Some q -> (nth 0 p 0 <= nth 0 q 0)%Q.
  Hypothesis HP : forall p q, In p P -> In q P -> p = q \/ (~ weakly_better p q /\ ~ weakly_better q p).
  Hypothesis HB : forall p, In p P -> (nth 0 p 0 <= - r0)%Q /\ (nth 1 p 0 <= - r1)%Q.

  Lemma P_pair p : In p P -> p = [nth 0 p 0%Q; nth 1 p 0%Q].
  Proof. intros Hp. specialize (HL p Hp). destruct p as [|a [|b [|]]]; try discriminate. reflexivity. Qed.
  Lemma P_one p q : In p P -> In q P -> (nth 1 p 0 == nth 1 q 0)%Q -> p = q.
  Proof.
    intros Hp Hq E. destruct (HP p q Hp Hq) as [|[N1 N2]]; [assumption|]. exfalso. rewrite (P_pair p Hp), (P_pair q Hq) in N1, N2.
    destruct (Qlt_le_dec (nth 0 q 0%Q) (nth 0 p 0%Q)) as [K|K]; [apply N2|apply N1]; (apply Forall2_cons; [lra|]); (apply Forall2_cons; [lra|constructor]).
  Qed.
  Lemma P_steps a b p q : a < b -> nth_error P a = Some p -> nth_error P b = Some q -> (nth 0 p 0 <= nth 0 q 0)%Q /\ (nth 1 q 0 <= nth 1 p 0)%Q.
  Proof.
    intros L E1 E2. assert (K := H0 a b p q L E1 E2). split; [exact K|]. assert (Ip := nth_error_In _ _ E1). assert (Iq := nth_error_In _ _ E2).
    destruct (HP p q Ip Iq) as [->|[N _]]; [lra|]. destruct (Qlt_le_dec (nth 1 p 0%Q) (nth 1 q 0%Q)) as [K1|K1]; [|exact K1]. exfalso. apply N.
    rewrite (P_pair p Ip), (P_pair q Iq). apply Forall2_cons; [lra|]. apply Forall2_cons; [lra|constructor].
  Qed.
  Lemma w_down : StronglySorted wdown (pairs P).
  Proof.
    apply SS_nth. intros a b x y L E1 E2. unfold pairs in *. rewrite nth_error_map in E1, E2.
    destruct (nth_error P a) as [p|] eqn:F1; [|discriminate]. destruct (nth_error P b) as [q|] eqn:F2; [|discriminate].
    injection E1 as <-. injection E2 as <-. destruct (P_steps a b p q L F1 F2). unfold wdown, wstep. cbn [fst snd]. lra.
  Qed.
  Lemma w_above : Forall (fun p => (r0 <= fst p)%Q /\ (r1 <= snd p)%Q) (pairs P).
  Proof. rewrite Forall_forall. intros x Hx. apply in_map_iff in Hx. destruct Hx as (p&<-&Hp). cbn [fst snd]. destruct (HB p Hp). lra. Qed.
  Lemma w_above' : Forall (fun p => (- - r0 <= fst p)%Q /\ (- - r1 <= snd p)%Q) (pairs P).
  Proof. pose proof w_above as H. rewrite Forall_forall in *. intros x Hx. specialize (H x Hx). lra. Qed.

  Lemma sorted_col : map (fun i => nth i (col 1 P) 0%Q) (argsort (col 1 P)) = rev (col 1 P).
  Proof.
    destruct (HS (col 1 P)) as [PE HO]. assert (PM := perm_seq_nth (col 1 P) 0%Q _ PE).
    apply (sorted_equal Qle).
    - intros a b Ha Hb L1 L2. apply (Permutation_in _ PM) in Ha, Hb. unfold col in Ha, Hb. apply in_map_iff in Ha as (p & <- & Hp). apply in_map_iff in Hb as (q & <- & Hq).
      rewrite (P_one p q Hp Hq); [reflexivity|]. lra.
    - apply SS_nth. intros a b x y L E1 E2. rewrite nth_error_map in E1, E2. destruct (nth_error (argsort (col 1 P)) a) as [i|] eqn:F1; [|discriminate].
      destruct (nth_error (argsort (col 1 P)) b) as [j|] eqn:F2; [|discriminate]. injection E1 as <-. injection E2 as <-. exact (HO a b i j L F1 F2).
    - apply (SS_rev (fun a b => (b <= a)%Q)). apply SS_nth. intros a b x y L E1 E2. unfold col in *. rewrite nth_error_map in E1, E2.
      destruct (nth_error P a) as [p|] eqn:F1; [|discriminate]. destruct (nth_error P b) as [q|] eqn:F2; [|discriminate]. injection E1 as <-. injection E2 as <-. apply (P_steps a b p q L F1 F2).
    - rewrite PM. apply Permutation_rev.
  Qed.

  Lemma wcells : map (cell_bounds P ref) (partition_space_2d argsort P) = dstairs PInf (- - r1) (pairs P) (- - r0).
  Proof.
    set (n := length P).
    assert (LS : length (argsort (col 1 P)) = n) by (rewrite (sort_len argsort HS P 1); reflexivity).
    assert (LA : length (aug_idx argsort P 1) = S (S n)) by (unfold aug_idx; simpl; rewrite app_length, map_length, LS; simpl; lia).
    assert (AT : forall i, i < n -> exists k p q, nth (n - i) (aug_idx argsort P 1) 0 = S k /\ nth_error P k = Some p /\ nth_error P i = Some q /\ nth 1 p 0%Q = nth 1 q 0%Q).
    { intros i Hi. destruct (lt_nth_error (argsort (col 1 P)) (n - 1 - i) ltac:(lia)) as (k & Ek).
      assert (Hk := sort_lt argsort HS P 1 _ k Ek). destruct (lt_nth_error P k Hk) as (p & Ep). destruct (lt_nth_error P i Hi) as (q & Eq). exists k, p, q.
      split; [|split; [exact Ep|split; [exact Eq|]]].
      - replace (n - i) with (S (n - 1 - i)) by lia. unfold aug_idx. cbn [nth]. rewrite app_nth1 by (rewrite map_length; lia). apply nth_error_nth. rewrite nth_error_map, Ek. reflexivity.
      - assert (E := f_equal (fun l => nth_error l (n - 1 - i)) sorted_col). cbv beta in E. rewrite nth_error_map, Ek in E. cbn [option_map] in E. rewrite (col_nth P 1 k p Ep) in E.
        rewrite (nth_error_nth' _ 0%Q) in E by (rewrite rev_length, col_len; fold n; lia). rewrite rev_nth in E by (rewrite col_len; fold n; lia). rewrite col_len in E. fold n in E.
        replace (n - S (n - 1 - i)) with i in E by lia. rewrite (col_nth P 1 i q Eq) in E. congruence. }
    apply nth_error_ext. intros i. unfold partition_space_2d. fold n. rewrite nth_error_map, nth_error_map, nth_error_seq.
    destruct (Nat.ltb_spec i (S n)) as [Hi|Hi].
    2:{ cbn [option_map]. symmetry. apply nth_error_None. unfold pairs. rewrite dstairs_len, map_length. exact Hi. }
    rewrite dstairs_nth by (unfold pairs; rewrite map_length; fold n; lia). cbn [option_map]. f_equal.
    rewrite LA, Nat.add_0_l. unfold cell_bounds. cbn [indexed length combine seq map fst snd]. unfold indexed. cbn [length combine seq map fst snd].
    unfold pairs. rewrite nth_error_map. destruct i as [|i].
    - replace (S (S n) - 1 - 0) with (S n) by lia. replace (nth (S n) (aug_idx argsort P 1) 0) with (S n).
      2:{ unfold aug_idx. cbn [nth]. rewrite app_nth2 by (rewrite map_length; lia). rewrite map_length, LS, Nat.sub_diag. reflexivity. }
      cbn [bound_at eopp]. replace (nth_error P n) with (@None vec) by (symmetry; apply nth_error_None; unfold n; lia).
      destruct (nth_error P 0) as [p|] eqn:E0; cbn [option_map fst nth]; reflexivity.
    - replace (S (S n) - 1 - S i) with (n - i) by lia. destruct (AT i ltac:(lia)) as (k & p & q & -> & Ep & Eq & EV). cbn [bound_at eopp].
      rewrite Ep, nth_error_map, Eq, EV. cbn [option_map fst snd]. destruct (nth_error P (S i)) as [s|] eqn:Es; cbn [option_map fst nth]; reflexivity.
  Qed.

  Variable Y : list vec.
  Hypothesis HC : forall z0 z1, strictly_above ref [z0; z1] -> (cov2 (pairs P) z0 z1 <-> dominated_by Y [z0; z1]).

  Lemma class_padded : partitions (map (cell_bounds P ref) (partition_space_2d argsort P)) ref Y /\
    nothing_below (map (cell_bounds P ref) (partition_space_2d argsort P)) ref.
  Proof.
    rewrite wcells. split.
    - intros z Hz. destruct (above2 r0 r1 z (len2 r0 r1 z Hz)) as (z0&z1&->&HA). assert (A := proj1 HA Hz).
      rewrite <- (HC z0 z1 Hz). apply wdstairs_spec; [apply w_down|apply w_above'|exact I|lra|lra].
    - intros z Lz Hz c Hc. destruct (above2 r0 r1 z Lz) as (z0&z1&->&HA).
      destruct (wdstairs_cells (pairs P) PInf (- - r1) (- - r0) c w_above' w_down Hc) as (a&b&u&->&A&B&C). rewrite inside2. simpl.
      intros (I1&I2&_). apply Hz, HA. lra.
  Qed.
  Lemma fast_padded : partitions (stairs r0 (rev (pairs P)) r1) ref Y /\ nothing_below (stairs r0 (rev (pairs P)) r1) ref.
  Proof.
    assert (HU : StronglySorted wstep (rev (pairs P))) by exact (SS_rev _ _ w_down).
    assert (HB' : Forall (fun p => (r0 <= fst p)%Q /\ (r1 <= snd p)%Q) (rev (pairs P))).
    { pose proof w_above as H. rewrite Forall_forall in *. intros x Hx. apply H, in_rev, Hx. }
    assert (HV : forall z0 z1, cov2 (rev (pairs P)) z0 z1 <-> cov2 (pairs P) z0 z1).
    { intros. unfold cov2. split; intros (p&Hp&K); exists p; (split; [|exact K]); [apply in_rev; exact Hp|apply in_rev in Hp; exact Hp]. }
    split.
    - intros z Hz. destruct (above2 r0 r1 z (len2 r0 r1 z Hz)) as (z0&z1&->&HA). assert (A := proj1 HA Hz).
      rewrite <- (HC z0 z1 Hz), <- HV. apply wstairs_spec; auto; lra.
    - intros z Lz Hz c Hc. destruct (above2 r0 r1 z Lz) as (z0&z1&->&HA).
      destruct (wstairs_lower (rev (pairs P)) r0 r1 c HB' HU Hc) as (a&b&u&->&A&B). rewrite inside2. simpl.
      intros (I1&I2&_). apply Hz, HA. lra.
  Qed.
End Padded.
