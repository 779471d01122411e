(** Lemmas about Model_Boxes.v: the front, two objectives, and the partition statements. *)
From Coq Require Import List Bool Arith ZArith QArith Qminmax Permutation Sorted Lia Lqa.
From Verif Require Import Lib_List Model_Pareto Spec_Pareto Proofs_Pareto Model_Boxes Spec_Boxes Proofs_Boxes.
Import ListNotations.
Open Scope nat_scope.

Lemma F2_nth {A B} (R : A -> B -> Prop) da db p q : length p = length q ->
  (Forall2 R p q <-> forall j, j < length p -> R (nth j p da) (nth j q db)).
Proof.
  revert q. induction p as [|a p IH]; intros [|b q] L; simpl in L; try lia.
  - split; [intros _ j H; simpl in H; lia|constructor].
  - split.
    + intros H. inversion H; subst. intros [|j] Hj; simpl in *; auto. apply IH; auto; lia.
    + intros H. constructor; [apply (H 0); simpl; lia|]. apply IH; [lia|]. intros j Hj. apply (H (S j)). simpl; lia.
Qed.
Lemma F2_len {A B} (R : A -> B -> Prop) p q : Forall2 R p q -> length p = length q.
Proof. induction 1; simpl; congruence. Qed.

Lemma opp_nth j (p : vec) : nth j (map Qopp p) 0%Q = if j <? length p then (- nth j p 0)%Q else 0%Q.
Proof.
  destruct (Nat.ltb_spec j (length p)).
  - rewrite (nth_indep _ 0%Q (Qopp 0)) by (rewrite map_length; assumption). apply map_nth.
  - apply nth_overflow. rewrite map_length. assumption.
Qed.

Section Front.
  Variable argsort : list Q -> list nat.
  Hypothesis HS : sorts argsort.
  Variables (ref : vec) (Y : list vec).
  Notation m := (length ref).
  Hypothesis HR : rectangular m Y.

  Definition chosen : list vec :=
    map fst (filter (fun yb => snd yb && all2 (fun a r => Qltb r a) (fst yb) ref) (combine Y (is_non_dominated Y true))).

  Lemma above_iff y : In y Y -> (all2 (fun a r => Qltb r a) y ref = true <-> strictly_above ref y).
  Proof.
    intros H. rewrite all2_iff by (apply HR; exact H). unfold strictly_above. split; intros K; apply Forall2_flip in K;
      (eapply Forall2_iff; [|exact K]); intros a b; cbv beta; [symmetry|]; apply Qltb_iff.
  Qed.

  Lemma chosen_in y : In y chosen <-> exists i, nth_error Y i = Some y /\ nth_error (is_non_dominated Y true) i = Some true /\ strictly_above ref y.
  Proof.
    unfold chosen. rewrite in_map_iff. split.
    - intros ([y' b]&E&H). cbn [fst] in E. subst y'. apply filter_In in H. destruct H as [H K]. cbn [fst snd] in K.
      apply andb_true_iff in K. destruct K as [K1 K2]. subst b. apply In_nth_error in H. destruct H as (i&H). rewrite nth_error_combine in H.
      destruct (nth_error Y i) as [y'|] eqn:E1; [|discriminate]. destruct (nth_error (is_non_dominated Y true) i) as [b'|] eqn:E2; [|discriminate].
      injection H as <- ->. exists i. split; [exact E1|]. split; [exact E2|]. apply above_iff; [eapply nth_error_In; eauto|exact K2].
    - intros (i&E1&E2&K). exists (y, true). split; [reflexivity|]. apply filter_In. split.
      + apply nth_error_In with i. rewrite nth_error_combine, E1, E2. reflexivity.
      + cbn [fst snd andb]. apply above_iff; [eapply nth_error_In; eauto|exact K].
  Qed.

  Lemma chosen_rect : rectangular m chosen.
  Proof. intros y H. apply chosen_in in H. destruct H as (i&E&_). apply HR. eapply nth_error_In; eauto. Qed.
  Lemma chosen_Y y : In y chosen -> In y Y /\ strictly_above ref y.
  Proof. intros H. apply chosen_in in H. destruct H as (i&E&_&K). split; [eapply nth_error_In; eauto|exact K]. Qed.

  Lemma cover_all2 y t : In y Y -> In t Y -> (all2 Qle_bool y t = true <-> covers t y).
  Proof.
    intros Hy Ht. rewrite all2_iff by (rewrite (HR y Hy), (HR t Ht); reflexivity). unfold covers. apply Forall2_iff.
    intros a b. apply Qle_bool_spec.
  Qed.

  (** every observation above the reference point is covered by a chosen one *)
  Lemma chosen_covers y : In y Y -> strictly_above ref y -> exists x, In x chosen /\ covers x y.
  Proof.
    intros Hy Ha.
    (* a non-dominated one *)
    assert (E1 : exists x, In x Y /\ covers x y /\ forall z, In z Y -> ~ dominates_max z x).
    { destruct (minimal_exists (fun a b => dominates_max a b)) with (l := filter (fun t => all2 Qle_bool y t) Y) as (x&Hx&Mx).
      - intros a b. unfold dominates_max. destruct (wb_dec b a) as [W1|W1]; [destruct (wb_dec a b) as [W2|W2]|].
        + right. rewrite dominates_iff. tauto.
        + left. rewrite dominates_iff. tauto.
        + right. rewrite dominates_iff. tauto.
      - intros a _. apply dominates_irrefl.
      - intros a b c _ _ _ H1 H2. unfold dominates_max in *. eapply dominates_trans; eauto.
      - assert (K : In y (filter (fun t => all2 Qle_bool y t) Y)); [|destruct (filter (fun t => all2 Qle_bool y t) Y); [destruct K|discriminate]].
        apply filter_In. split; [exact Hy|]. apply (cover_all2 y y Hy Hy). apply wb_refl.
      - apply filter_In in Hx. destruct Hx as [Hx Cx]. apply (cover_all2 y x Hy Hx) in Cx. exists x. split; [exact Hx|]. split; [exact Cx|].
        intros z Hz D. apply (Mx z); [|exact D]. apply filter_In. split; [exact Hz|]. apply (cover_all2 y z Hy Hz).
        unfold dominates_max in D. apply dominates_iff in D. destruct D as [D _]. exact (wb_trans _ _ _ Cx D). }
    destruct E1 as (x&Hx&Cx&Mx).
    (* the first with its values *)
    assert (E2 : exists i x', nth_error Y i = Some x' /\ same_values x' x /\ forall j z, j < i -> nth_error Y j = Some z -> ~ same_values z x).
    { assert (G : forall l, In x l -> exists i x', nth_error l i = Some x' /\ same_values x' x /\ forall j z, j < i -> nth_error l j = Some z -> ~ same_values z x).
      { induction l as [|a l IH]; [intros []|]. intros Hl.
        destruct (wb_dec a x) as [W1|W1]; [destruct (wb_dec x a) as [W2|W2]|].
        - exists 0, a. split; [reflexivity|]. split; [apply wb_same; assumption|]. intros j z Hj. lia.
        - destruct Hl as [->|Hl]; [exfalso; apply W2, wb_refl|]. destruct (IH Hl) as (i&x'&E&S1&F). exists (S i), x'. split; [exact E|]. split; [exact S1|].
          intros [|j] z Hj Ez Sz; simpl in Ez; [injection Ez as <-; apply W2; apply same_wb in Sz; apply Sz|]. apply (F j z); auto; lia.
        - destruct Hl as [->|Hl]; [exfalso; apply W1, wb_refl|]. destruct (IH Hl) as (i&x'&E&S1&F). exists (S i), x'. split; [exact E|]. split; [exact S1|].
          intros [|j] z Hj Ez Sz; simpl in Ez; [injection Ez as <-; apply W1; apply same_wb in Sz; apply Sz|]. apply (F j z); auto; lia. }
      apply G, Hx. }
    destruct E2 as (i&x'&Ei&S1&F). assert (Hx' : In x' Y) by (eapply nth_error_In; eauto).
    destruct (same_wb _ _ S1) as [W1 W2].
    assert (Cx' : covers x' y) by (unfold covers in *; exact (wb_trans _ _ _ Cx W2)).
    exists x'. split; [|exact Cx']. apply chosen_in. exists i. split; [exact Ei|]. split.
    - destruct (is_nd_true m Y HR) as [_ N]. apply (N i x' Ei). split.
      + intros z Hz D. apply (Mx z Hz). unfold dominates_max in *. apply dominates_iff in D. apply dominates_iff. destruct D as [D1 D2].
        split; [exact (wb_trans _ _ _ W2 D1)|]. intros K. apply D2. exact (wb_trans _ _ _ K W2).
      + intros j z Hj Ez Sz. apply (F j z Hj Ez). destruct (same_wb _ _ Sz) as [A1 A2].
        apply wb_same; [exact (wb_trans _ _ _ A1 W1)|exact (wb_trans _ _ _ W2 A2)].
    - unfold strictly_above, covers in *.
      rewrite F2_nth with (da := 0%Q) (db := 0%Q) in Ha by (eapply F2_len; eauto).
      rewrite F2_nth with (da := 0%Q) (db := 0%Q) in Cx' by (eapply F2_len; eauto).
      rewrite F2_nth with (da := 0%Q) (db := 0%Q) by (symmetry; apply HR; exact Hx').
      intros j Hj. specialize (Ha j Hj). specialize (Cx' j ltac:(rewrite (HR y Hy); exact Hj)). lra.
  Qed.

  (** the chosen ones are pairwise incomparable *)
  Lemma chosen_antichain : ForallOrdPairs (fun x y => ~ covers x y /\ ~ covers y x) chosen.
  Proof.
    destruct (is_nd_true m Y HR) as [L N]. unfold chosen.
    assert (G : forall k, ForallOrdPairs (fun x y => ~ covers x y /\ ~ covers y x)
       (map fst (filter (fun yb => snd yb && all2 (fun a r => Qltb r a) (fst yb) ref) (skipn k (combine Y (is_non_dominated Y true)))))); [|exact (G 0)].
    intros k. remember (length Y - k) as d eqn:Ed. revert k Ed. induction d as [|d IH]; intros k Ed.
    - rewrite skipn_all2 by (rewrite combine_length; lia). constructor.
    - assert (Hk : k < length Y) by lia. destruct (lt_nth_error _ _ Hk) as (y&Ey).
      destruct (lt_nth_error (is_non_dominated Y true) k) as (b&Eb); [lia|].
      assert (SK : skipn k (combine Y (is_non_dominated Y true)) = (y, b) :: skipn (S k) (combine Y (is_non_dominated Y true))).
      { assert (E : nth_error (combine Y (is_non_dominated Y true)) k = Some (y, b)) by (rewrite nth_error_combine, Ey, Eb; reflexivity).
        revert E. generalize (combine Y (is_non_dominated Y true)). clear. intros l. revert k. induction l as [|a l IH]; intros [|k] E; try discriminate.
        - injection E as ->. reflexivity.
        - simpl in E. apply IH in E. simpl. exact E. }
      rewrite SK. cbn [filter]. destruct (snd (y, b) && _) eqn:Eq; [|apply IH; lia].
      cbn [map fst]. constructor; [|apply IH; lia].
      cbn [fst snd] in Eq. apply andb_true_iff in Eq. destruct Eq as [-> Eq].
      apply (N k y Ey) in Eb. destruct Eb as [B1 B2].
      rewrite Forall_forall. intros z Hz. apply in_map_iff in Hz. destruct Hz as ([z' b']&<-&Hz). cbn [fst].
      apply filter_In in Hz. destruct Hz as [Hz Kz]. cbn [fst snd] in Kz. apply andb_true_iff in Kz. destruct Kz as [-> _].
      apply In_nth_error in Hz. destruct Hz as (i&Hz).
      assert (Hz' : nth_error (combine Y (is_non_dominated Y true)) (S k + i) = Some (z', true)).
      { revert Hz. generalize (combine Y (is_non_dominated Y true)). clear. intros l. generalize (S k). intros a. revert a. induction l as [|x l IH]; intros [|a] H; auto.
        - destruct i; discriminate.
        - simpl in H. apply IH in H. exact H. }
      rewrite nth_error_combine in Hz'. destruct (nth_error Y (S k + i)) as [z''|] eqn:E1; [|discriminate].
      destruct (nth_error (is_non_dominated Y true) (S k + i)) as [b''|] eqn:E2; [|discriminate]. injection Hz' as -> ->.
      apply (N _ _ E1) in E2. destruct E2 as [C1 C2].
      assert (Iy : In y Y) by (eapply nth_error_In; eauto). assert (Iz : In z' Y) by (eapply nth_error_In; eauto).
      split; intros K; unfold covers in K.
      + destruct (wb_dec y z') as [W1|W1].
        * apply (C2 k y ltac:(lia) Ey). apply wb_same; assumption.
        * apply (C1 y Iy). unfold dominates_max. apply dominates_iff. split; assumption.
      + destruct (wb_dec z' y) as [W1|W1].
        * apply (C2 k y ltac:(lia) Ey). apply wb_same; assumption.
        * apply (B1 z' Iz). unfold dominates_max. apply dominates_iff. split; assumption.
  Qed.

  Notation N := (map (map Qopp) chosen).
  Notation P := (neg_front argsort true ref Y).

  Lemma map_nth_seq {A} (l : list A) d : map (fun i => nth i l d) (seq 0 (length l)) = l.
  Proof.
    apply nth_error_ext. intros i. rewrite nth_error_map, nth_error_seq. destruct (Nat.ltb_spec i (length l)).
    - cbn [option_map]. rewrite (nth_error_nth' l d H). reflexivity.
    - symmetry. apply nth_error_None. exact H.
  Qed.
  Lemma front_eq : Y = [] /\ P = [] /\ chosen = [] \/ P = map (fun i => nth i N []) (argsort (col 0 N)).
  Proof. unfold neg_front, chosen. destruct Y; [left; auto|right; reflexivity]. Qed.
  Lemma front_perm : Permutation P N.
  Proof.
    destruct front_eq as [(_&->&->)|E]; [constructor|]. rewrite E.
    destruct (HS (col 0 N)) as [K _]. apply (Permutation_map (fun i => nth i N [])) in K. rewrite K.
    unfold col. rewrite map_length, map_nth_seq. apply Permutation_refl.
  Qed.
  Lemma front_in p : In p P -> exists y, In y chosen /\ p = map Qopp y.
  Proof. intros H. apply (Permutation_in _ front_perm) in H. apply in_map_iff in H. destruct H as (y&<-&H). eauto. Qed.
  Lemma in_front y : In y chosen -> In (map Qopp y) P.
  Proof. intros H. apply (Permutation_in _ (Permutation_sym front_perm)). apply in_map. exact H. Qed.
  Lemma front_rect : rectangular m P.
  Proof. intros p H. apply front_in in H. destruct H as (y&H&->). rewrite map_length. apply chosen_rect, H. Qed.
  Lemma front_below p j : In p P -> j < m -> (nth j p 0 < - nth j ref 0)%Q.
  Proof.
    intros H Hj. apply front_in in H. destruct H as (y&H&->). rewrite opp_nth.
    rewrite (chosen_rect y H). destruct (Nat.ltb_spec j m); [|lia]. apply chosen_Y in H. destruct H as [_ H].
    unfold strictly_above in H. rewrite F2_nth with (da := 0%Q) (db := 0%Q) in H by (eapply F2_len; eauto). specialize (H j Hj). lra.
  Qed.

  (** a point is dominated by the front iff by the observations *)
  Lemma nd_dominated z : strictly_above ref z ->
    (nd m P (map Qopp z) = false <-> dominated_by Y z).
  Proof.
    intros Hz. assert (Lz : length z = m) by (symmetry; eapply F2_len; eauto). rewrite nd_false. split.
    - intros (p&Hp&K). apply front_in in Hp. destruct Hp as (y&Hy&->). exists y. split; [apply chosen_Y, Hy|].
      unfold covers. assert (Ly := chosen_rect y Hy). rewrite F2_nth with (da := 0%Q) (db := 0%Q) by congruence.
      intros j Hj. rewrite Lz in Hj. specialize (K j Hj). rewrite !opp_nth, Lz, Ly in K. destruct (Nat.ltb_spec j m); [lra|lia].
    - intros (y&Hy&C).
      assert (Ha : strictly_above ref y).
      { unfold strictly_above, covers in *. rewrite F2_nth with (da := 0%Q) (db := 0%Q) in Hz by congruence.
        rewrite F2_nth with (da := 0%Q) (db := 0%Q) in C by (eapply F2_len; eauto).
        rewrite F2_nth with (da := 0%Q) (db := 0%Q) by (symmetry; apply HR; exact Hy).
        intros j Hj. specialize (Hz j Hj). specialize (C j ltac:(lia)). lra. }
      destruct (chosen_covers y Hy Ha) as (x&Hx&Cx). exists (map Qopp x). split; [apply in_front, Hx|].
      assert (Ly := chosen_rect x Hx). assert (K := wb_trans _ _ _ C Cx). unfold weakly_better in K.
      rewrite F2_nth with (da := 0%Q) (db := 0%Q) in K by congruence.
      intros j Hj. specialize (K j ltac:(lia)). rewrite !opp_nth, Lz, Ly. destruct (Nat.ltb_spec j m); [lra|lia].
  Qed.
End Front.

(** *** inside and the boolean test *)
Lemma inside_inidx P ref z c : length c = length z ->
  (inside z (cell_bounds P ref c) <-> inidx P ref (map Qopp z) c = true).
Proof.
  intros L. unfold inidx. rewrite forallb_indexed. unfold inside, cell_bounds. cbn [fst snd].
  rewrite F2_nth with (da := NInf) (db := 0%Q) by (rewrite map_length, indexed_len; exact L).
  rewrite F2_nth with (da := 0%Q) (db := NInf) by (rewrite map_length, indexed_len; symmetry; exact L).
  rewrite map_length, indexed_len.
  assert (E1 : forall j lu, nth_error c j = Some lu ->
    nth j (map (fun jc => eopp (bound_at P ref (snd (snd jc)) (fst jc))) (indexed c)) NInf = eopp (bound_at P ref (snd lu) j)).
  { intros j lu E. apply nth_error_nth. rewrite nth_error_map, nth_error_indexed, E. reflexivity. }
  assert (E2 : forall j lu, nth_error c j = Some lu ->
    nth j (map (fun jc => eopp (bound_at P ref (fst (snd jc)) (fst jc))) (indexed c)) NInf = eopp (bound_at P ref (fst lu) j)).
  { intros j lu E. apply nth_error_nth. rewrite nth_error_map, nth_error_indexed, E. reflexivity. }
  assert (A1 : forall e q, above (eopp e) q <-> ltE (- q) e = true).
  { intros [|a|] q; simpl; [split; [tauto|discriminate]| |split; auto]. rewrite Qltb_iff. split; intros; lra. }
  assert (A2 : forall e q, upto q (eopp e) <-> leE e (- q) = true).
  { intros [|a|] q; simpl; [split; auto| |split; [tauto|discriminate]]. rewrite Qle_bool_spec. split; intros; lra. }
  split.
  - intros [H1 H2] j lu E. assert (Hj : j < length c) by (eapply nth_error_lt; eauto). cbn [fst snd].
    specialize (H1 j Hj). specialize (H2 j ltac:(lia)). rewrite (E1 j lu E), A1 in H1. rewrite (E2 j lu E), A2 in H2.
    rewrite opp_nth. destruct (Nat.ltb_spec j (length z)); [|lia]. rewrite H1, H2. reflexivity.
  - intros H. split; intros j Hj; destruct (lt_nth_error c j ltac:(lia)) as (lu&E); specialize (H j lu E); cbn [fst snd] in H;
      apply andb_true_iff in H; destruct H as [H1 H2]; rewrite opp_nth in H1, H2; destruct (Nat.ltb_spec j (length z)); try lia.
    + rewrite (E1 j lu E), A1. exact H2.
    + rewrite (E2 j lu E), A2. exact H1.
Qed.

Lemma inside_occ P ref z cs : (forall c, In c cs -> length c = length z) ->
  (occ (inidx P ref (map Qopp z)) cs = 1 -> in_exactly_one z (map (cell_bounds P ref) cs)) /\
  (occ (inidx P ref (map Qopp z)) cs = 0 -> in_none z (map (cell_bounds P ref) cs)).
Proof.
  intros L. split.
  - intros H. apply occ_one in H. destruct H as (a&c&b&->&Hc&Hd). exists (map (cell_bounds P ref) a), (cell_bounds P ref c), (map (cell_bounds P ref) b).
    split; [rewrite map_app; reflexivity|]. split.
    + apply inside_inidx; [|exact Hc]. apply L, in_or_app. right; left; reflexivity.
    + intros d Hd'. rewrite <- map_app in Hd'. apply in_map_iff in Hd'. destruct Hd' as (d'&<-&K). intros I.
      apply inside_inidx in I; [rewrite (Hd d' K) in I; discriminate|]. apply L. apply in_app_or in K. apply in_or_app. simpl. tauto.
  - intros H d Hd'. apply in_map_iff in Hd'. destruct Hd' as (d'&<-&K). intros I.
    apply inside_inidx in I; [rewrite (occ_zero _ _ H d' K) in I; discriminate|]. apply L, K.
Qed.

(** *** binary partitioning, put together *)
Lemma loop_len argsort argmax alpha P m : forall fuel stack acc res,
  (forall c, In c stack -> length c = m) -> (forall c, In c acc -> length c = m) ->
  bp_loop argsort argmax fuel m alpha P stack acc = Some res -> forall c, In c res -> length c = m.
Proof.
  induction fuel as [|fuel IH]; intros [|c stack] acc res HSt HA; cbn [bp_loop]; try discriminate.
  - intros E. injection E as <-. exact HA.
  - intros E. injection E as <-. exact HA.
  - assert (HSt' : forall c, In c stack -> length c = m) by (intros d Hd; apply HSt; right; exact Hd).
    assert (Lc := HSt c (or_introl eq_refl)).
    destruct (forallb _ P); [|destruct (forallb _ P); [destruct (_ && _)|]]; intros E.
    + refine (IH _ _ _ _ _ E); auto. intros d Hd. apply in_app_or in Hd. destruct Hd as [Hd|[<-|[]]]; auto.
      unfold cell_idx. rewrite map_length, indexed_len. exact Lc.
    + refine (IH _ _ _ _ _ E); auto. intros d [<-|[<-|Hd]]; auto; rewrite update_length; exact Lc.
    + refine (IH _ _ _ _ _ E); auto.
    + refine (IH _ _ _ _ _ E); auto.
Qed.

Lemma repeat_nth_error {A} (a : A) k j : nth_error (repeat a k) j = if j <? k then Some a else None.
Proof.
  revert j. induction k as [|k IH]; intros [|j]; try reflexivity. simpl repeat. cbn [nth_error]. rewrite IH. reflexivity.
Qed.

Lemma map_repeat' {A B} (f : A -> B) a k : map f (repeat a k) = repeat (f a) k.
Proof. induction k as [|k IH]; simpl; [reflexivity|]. rewrite IH. reflexivity. Qed.

Section Binary.
  Variables (argsort : list Q -> list nat) (argmax : list nat -> nat).
  Hypothesis HS : sorts argsort.
  Hypothesis HM : finds_max argmax.
  Variables (ref : vec) (Y : list vec).
  Notation m := (length ref).
  Notation P := (neg_front argsort true ref Y).
  Hypothesis HR : rectangular m Y.

  Lemma init_in z : length z = m -> (inpos argsort P ref (map Qopp z) (repeat (0, S (length P)) m) = true <-> strictly_above ref z).
  Proof.
    intros L. rewrite inpos_iff. unfold strictly_above. rewrite F2_nth with (da := 0%Q) (db := 0%Q) by (symmetry; exact L). split.
    - intros H j Hj. specialize (H j (0, S (length P))). rewrite repeat_nth_error in H. destruct (Nat.ltb_spec j m); [|lia].
      destruct (H eq_refl) as [_ K]. cbn [snd] in K. rewrite (proj2 (top_val argsort HS m P ref j Hj)) in K. simpl in K.
      apply Qltb_iff in K. rewrite opp_nth in K. destruct (Nat.ltb_spec j (length z)); [lra|lia].
    - intros H j lu E. rewrite repeat_nth_error in E. destruct (Nat.ltb_spec j m) as [Hj|]; [|discriminate]. injection E as <-.
      cbn [fst snd]. split; [reflexivity|]. rewrite (proj2 (top_val argsort HS m P ref j Hj)). simpl. apply Qltb_iff.
      rewrite opp_nth. destruct (Nat.ltb_spec j (length z)); [|lia]. specialize (H j Hj). lra.
  Qed.

  Lemma nprod_repeat x k : nprod (repeat x k) = x ^ k.
  Proof. induction k; simpl; [reflexivity|]. fold (nprod (repeat x k)). rewrite IHk. reflexivity. Qed.

  Lemma partition_spec alpha fuel : 2 * (S (length P)) ^ m <= fuel ->
    exists cells, partition_space argsort argmax fuel m alpha P = Some cells /\
      (forall c, In c cells -> length c = m) /\
      forall z, length z = m ->
        (strictly_above ref z -> dominated_by Y z -> occ (inidx P ref (map Qopp z)) cells = 0) /\
        (strictly_above ref z -> ~ dominated_by Y z -> occ (inidx P ref (map Qopp z)) cells <= 1 /\
           ((alpha <= 0)%Q -> occ (inidx P ref (map Qopp z)) cells = 1)) /\
        (~ strictly_above ref z -> occ (inidx P ref (map Qopp z)) cells = 0).
  Proof.
    intros HF.
    set (c0 := repeat (0, S (length P)) m).
    assert (Lc0 : length c0 = m) by apply repeat_length.
    assert (V0 : valid m P c0).
    { split; [exact Lc0|]. intros j lu E. unfold c0 in E. rewrite repeat_nth_error in E. destruct (j <? m); [|discriminate].
      injection E as <-. cbn [fst snd]. lia. }
    assert (FIN : forall cells, (forall z, occ (inidx P ref (map Qopp z)) cells <= (if nd m P (map Qopp z) then occ (inpos argsort P ref (map Qopp z)) [c0] else 0) /\
        ((alpha <= 0)%Q -> occ (inidx P ref (map Qopp z)) cells = (if nd m P (map Qopp z) then occ (inpos argsort P ref (map Qopp z)) [c0] else 0))) ->
      forall z, length z = m ->
        (strictly_above ref z -> dominated_by Y z -> occ (inidx P ref (map Qopp z)) cells = 0) /\
        (strictly_above ref z -> ~ dominated_by Y z -> occ (inidx P ref (map Qopp z)) cells <= 1 /\
           ((alpha <= 0)%Q -> occ (inidx P ref (map Qopp z)) cells = 1)) /\
        (~ strictly_above ref z -> occ (inidx P ref (map Qopp z)) cells = 0)).
    { intros cells H z Lz. destruct (H z) as [H1 H2]. rewrite occ_cons in H1, H2.
      assert (Z : occ (inpos argsort P ref (map Qopp z)) [] = 0) by reflexivity. rewrite Z in *.
      split; [|split].
      - intros A D. apply (nd_dominated argsort HS ref Y HR z A) in D. rewrite D in H1. lia.
      - intros A D. assert (E : nd m P (map Qopp z) = true).
        { destruct (nd m P (map Qopp z)) eqn:E; [reflexivity|]. exfalso. apply D. apply (nd_dominated argsort HS ref Y HR z A). exact E. }
        assert (I : inpos argsort P ref (map Qopp z) c0 = true) by exact (proj2 (init_in z Lz) A).
        rewrite E, I in H1, H2. split; [lia|]. intros HA. specialize (H2 HA). lia.
      - intros A. assert (E : inpos argsort P ref (map Qopp z) c0 = false).
        { destruct (inpos argsort P ref (map Qopp z) c0) eqn:E; [|reflexivity]. exfalso. apply A. apply (init_in z Lz). exact E. }
        rewrite E in H1. destruct (nd m P (map Qopp z)); lia. }
    unfold partition_space. fold c0.
    destruct P as [|p0 P0] eqn:EP.
    - exists [cell_idx argsort [] c0]. split; [reflexivity|]. split.
      + intros c [<-|[]]. unfold cell_idx. rewrite map_length, indexed_len. exact Lc0.
      + apply FIN. intros z. rewrite !occ_cons. rewrite inidx_pos.
        assert (Z : occ (inpos argsort [] ref (map Qopp z)) [] = 0) by reflexivity.
        assert (Z' : occ (inidx [] ref (map Qopp z)) [] = 0) by reflexivity. rewrite Z, Z'. simpl nd. unfold nd. simpl. split; lia.
    - rewrite <- EP in *.
      assert (HP : rectangular m P) by (apply front_rect; assumption).
      assert (HB : forall p j, In p P -> j < m -> (nth j p 0 < - nth j ref 0)%Q) by (intros; apply (front_below argsort HS ref Y HR); assumption).
      destruct (loop_spec argsort argmax HS HM m P ref HP HB alpha fuel [c0] []) as (res&E&H).
      + intros c [<-|[]]. exact V0.
      + unfold mu. cbn [map list_sum fold_right]. assert (Dc : dist c0 = repeat (S (length P)) m).
        { unfold dist, c0. rewrite map_repeat'. cbn [fst snd]. rewrite Nat.sub_0_r, EP. reflexivity. }
        rewrite Dc, nprod_repeat. lia.
      + exists res. split; [exact E|]. split.
        * refine (loop_len _ _ _ _ _ _ _ _ _ _ _ E); [intros c [<-|[]]; exact Lc0|intros c []].
        * apply FIN. intros z. apply H.
  Qed.
End Binary.
