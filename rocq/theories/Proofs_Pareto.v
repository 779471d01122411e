(** Lemmas about Model_Pareto.v. *)
From Coq Require Import List Bool Arith ZArith QArith Lia Lqa Sorted Permutation.
From Verif Require Import Lib_List Model_Pareto Spec_Pareto.
Import ListNotations.
Open Scope nat_scope.

(** * Rows *)
Lemma Qltb_iff a b : Qltb a b = true <-> (a < b)%Q.
Proof.
  unfold Qltb. rewrite negb_true_iff. split; intro H.
  - apply Qnot_le_lt. intro L. apply Qle_bool_iff in L. congruence.
  - destruct (Qle_bool b a) eqn:E; auto. apply Qle_bool_iff in E. lra.
Qed.
Lemma Qltb_false a b : Qltb a b = false <-> (b <= a)%Q.
Proof.
  unfold Qltb. rewrite negb_false_iff. apply Qle_bool_iff.
Qed.

Lemma all2_iff r p q : length p = length q ->
  all2 r p q = true <-> Forall2 (fun a b => r a b = true) p q.
Proof.
  revert q; induction p as [|a p IH]; intros [|b q] L; try discriminate; unfold all2; simpl.
  - split; auto.
  - rewrite andb_true_iff. unfold all2 in IH. rewrite IH by (simpl in L; lia). split.
    + intros [H1 H2]. constructor; auto.
    + intro H. inversion H; subst. auto.
Qed.
Lemma any2_iff r p q :
  any2 r p q = true <-> exists i a b, nth_error p i = Some a /\ nth_error q i = Some b /\ r a b = true.
Proof.
  unfold any2. rewrite existsb_exists. split.
  - intros ([a b]&H&E). apply In_nth_error in H. destruct H as [i H]. rewrite nth_error_combine in H.
    exists i. destruct (nth_error p i), (nth_error q i); try discriminate. injection H as -> ->. eauto.
  - intros (i&a&b&Ha&Hb&E). exists (a, b). split; auto. apply nth_error_In with i.
    rewrite nth_error_combine, Ha, Hb. reflexivity.
Qed.
Lemma any2_false r p q : length p = length q ->
  any2 r p q = false <-> Forall2 (fun a b => r a b = false) p q.
Proof.
  revert q; induction p as [|a p IH]; intros [|b q] L; try discriminate; unfold any2; simpl.
  - split; auto.
  - rewrite orb_false_iff. unfold any2 in IH. rewrite IH by (simpl in L; lia). split.
    + intros [H1 H2]. constructor; auto.
    + intro H. inversion H; subst. auto.
Qed.

Lemma Forall2_iff {A B} (P Q : A -> B -> Prop) l m :
  (forall a b, P a b <-> Q a b) -> Forall2 P l m <-> Forall2 Q l m.
Proof. intro H. split; induction 1; constructor; auto; apply H; auto. Qed.

Lemma wb_any p q : length p = length q -> (any2 Qltb q p = false <-> weakly_better p q).
Proof.
  intro L. rewrite any2_false by auto. unfold weakly_better. split.
  - intro H. apply Forall2_flip in H. eapply Forall2_iff; [|exact H]. intros. symmetry. apply Qltb_false.
  - intro H. apply Forall2_flip in H. eapply Forall2_iff; [|exact H]. intros. apply Qltb_false.
Qed.

Lemma wb_refl p : weakly_better p p.
Proof. induction p; constructor; auto. apply Qle_refl. Qed.
Lemma wb_trans p q r : weakly_better p q -> weakly_better q r -> weakly_better p r.
Proof.
  intro H. revert r. induction H; intros r0 H1; inversion H1; subst; constructor; auto.
  - eapply Qle_trans; eauto.
  - apply IHForall2; auto.
Qed.
Lemma wb_length p q : weakly_better p q -> length p = length q.
Proof. induction 1; simpl; congruence. Qed.
Lemma wb_same p q : weakly_better p q -> weakly_better q p -> same_values p q.
Proof.
  intro H. induction H; intro H1; inversion H1; subst; constructor; auto.
  - apply Qle_antisym; auto.
  - apply IHForall2; auto.
Qed.
Lemma same_wb p q : same_values p q -> weakly_better p q /\ weakly_better q p.
Proof.
  induction 1; split; constructor; try tauto.
  - rewrite H. apply Qle_refl.
  - rewrite H. apply Qle_refl.
Qed.
Lemma wb_nth p q i a b : weakly_better p q -> nth_error p i = Some a -> nth_error q i = Some b -> (a <= b)%Q.
Proof.
  intro H. revert i. induction H; intros [|i] Ha Hb; simpl in *; try discriminate.
  - congruence.
  - eauto.
Qed.
Lemma dominates_iff p q : dominates p q <-> weakly_better p q /\ ~ weakly_better q p.
Proof.
  unfold dominates. split.
  - intros [H (i&a&b&Ha&Hb&L)]. split; auto. intro H1. pose proof (wb_nth _ _ _ _ _ H1 Hb Ha). lra.
  - intros [H N]. split; auto.
    assert (L : length p = length q) by (apply wb_length; auto).
    destruct (any2 Qltb p q) eqn:E.
    + apply any2_iff in E. destruct E as (i&a&b&Ha&Hb&E). apply Qltb_iff in E. eauto 10.
    + apply wb_any in E; [|auto]. contradiction.
Qed.
Lemma wb_dec p q : weakly_better p q \/ ~ weakly_better p q.
Proof.
  destruct (Nat.eq_dec (length p) (length q)) as [L|L].
  - destruct (any2 Qltb q p) eqn:E.
    + right. intro H. apply wb_any in H; congruence.
    + left. apply wb_any; auto.
  - right. intro H. apply L. apply wb_length; auto.
Qed.
Lemma dominates_irrefl p : ~ dominates p p.
Proof. rewrite dominates_iff. tauto. Qed.
Lemma dominates_trans p q r : dominates p q -> dominates q r -> dominates p r.
Proof.
  rewrite !dominates_iff. intros [A B] [C D]. split; [eapply wb_trans; eauto|].
  intro E. apply D. eapply wb_trans; eauto.
Qed.
Lemma dominates_dec p q : dominates p q \/ ~ dominates p q.
Proof. rewrite dominates_iff. destruct (wb_dec p q), (wb_dec q p); tauto. Qed.

(** * is_pareto_efficient *)
Lemma indexed_split {A} (D T : list A) x k :
  combine (seq k (length (D ++ x :: T))) (D ++ x :: T) =
  combine (seq k (length D)) D ++ (k + length D, x) :: combine (seq (S (k + length D)) (length T)) T.
Proof.
  revert k; induction D as [|d D IH]; intro k; simpl.
  - rewrite Nat.add_0_r. reflexivity.
  - rewrite IH. simpl. rewrite Nat.add_succ_r. reflexivity.
Qed.

Lemma filter_off {A} (f : A -> bool) k (L : list A) : forall a,
  (k < a \/ a + length L <= k) ->
  map snd (filter (fun jr => (fst jr =? k) || f (snd jr)) (combine (seq a (length L)) L)) = filter f L /\
  map (fun jr => (fst jr =? k) || f (snd jr)) (combine (seq a (length L)) L) = map f L.
Proof.
  induction L as [|x L IH]; intros a H; simpl; [auto|].
  assert (E : (a =? k) = false) by (apply Nat.eqb_neq; simpl in H; lia).
  rewrite E. simpl. destruct (IH (S a)) as [H1 H2]; [simpl in H; lia|].
  split; [|rewrite H2; reflexivity]. destruct (f x); simpl; rewrite H1; reflexivity.
Qed.

Lemma filter_id_map {A} (f : A -> bool) l : length (filter (fun b => b) (map f l)) = length (filter f l).
Proof. induction l as [|a l IH]; simpl; [reflexivity|]. destruct (f a); simpl; auto. Qed.

Lemma pareto_step fuel D i p T :
  let f := fun r : nat * vec => any2 Qltb (snd r) p in
  pareto_loop (S fuel) (length D) (D ++ (i, p) :: T) =
  pareto_loop fuel (S (length (filter f D))) (filter f D ++ (i, p) :: filter f T).
Proof.
  intro f. cbn [pareto_loop]. rewrite nth_error_app2, Nat.sub_diag by lia. cbn [nth_error].
  unfold indexed. rewrite indexed_split. cbn [Nat.add].
  rewrite !map_app, filter_app', map_app. cbn [map filter fst].
  rewrite Nat.eqb_refl. cbn [orb map snd].
  destruct (filter_off f (length D) D 0 (or_intror (le_n _))) as [H1 H2].
  destruct (filter_off f (length D) T (S (length D)) (or_introl (Nat.lt_succ_diag_r _))) as [H3 H4].
  subst f; cbv beta in *. rewrite H1, H2, H3. set (f := fun r : nat * vec => any2 Qltb (snd r) p).
  rewrite firstn_app, map_length, Nat.sub_diag, firstn_O, app_nil_r.
  rewrite firstn_all2 by (rewrite map_length; lia). rewrite filter_id_map. reflexivity.
Qed.

Definition wbr (r s : nat * vec) := weakly_better (snd r) (snd s).
Definition better (r s : nat * vec) := wbr r s /\ (~ wbr s r \/ fst r < fst s).
Lemma better_trans r s t : better r s -> better s t -> better r t.
Proof.
  intros [A B] [C D]. split; [eapply wb_trans; eauto|].
  destruct (wb_dec (snd t) (snd r)) as [E|E]; [|left; exact E].
  right. destruct B as [B|B]; [exfalso; apply B; eapply wb_trans; eauto|].
  destruct D as [D|D]; [exfalso; apply D; eapply wb_trans; eauto|]. lia.
Qed.
Lemma better_irrefl r : ~ better r r.
Proof. intros [A [B|B]]; [contradiction|lia]. Qed.

Section Loop.
  Variable m : nat.
  Variable all : list (nat * vec).
  Hypothesis Hrect : forall r, In r all -> length (snd r) = m.

  Record Inv (D T : list (nat * vec)) : Prop := {
    inv_incl : forall r, In r (D ++ T) -> In r all;
    inv_cover : forall r, In r all -> In r (D ++ T) \/ exists s, In s (D ++ T) /\ better s r;
    inv_DT : forall d t, In d D -> In t T -> ~ wbr d t;
    inv_DD : forall d d', In d D -> In d' D -> d <> d' -> ~ wbr d d';
    inv_sorted : StronglySorted (fun r s => fst r < fst s) (D ++ T)
  }.

  Lemma sorted_mid (D T : list (nat * vec)) x :
    StronglySorted (fun r s => fst r < fst s) (D ++ x :: T) ->
    (forall d, In d D -> fst d < fst x) /\ (forall t, In t T -> fst x < fst t).
  Proof.
    induction D as [|d D IH]; simpl; intro H; inversion H; subst.
    - split; [intros _ []|]. intros t Ht. rewrite Forall_forall in H3. auto.
    - destruct (IH H2) as [A B]. split; auto. intros d' [<-|Hd]; auto.
      rewrite Forall_forall in H3. apply H3. apply in_or_app. right; left; reflexivity.
  Qed.
  Lemma sorted_filter f (L : list (nat * vec)) :
    StronglySorted (fun r s => fst r < fst s) L -> StronglySorted (fun r s => fst r < fst s) (filter f L).
  Proof.
    induction 1 as [|a L H IH HF]; simpl; [constructor|]. destruct (f a); auto. constructor; auto.
    rewrite Forall_forall in *. intros x Hx. apply filter_In in Hx. apply HF, Hx.
  Qed.

  Lemma Inv_step D x T :
    Inv D (x :: T) ->
    let f := fun r : nat * vec => any2 Qltb (snd r) (snd x) in
    Inv (filter f D ++ [x]) (filter f T).
  Proof.
    intros [I1 I2 I3 I4 I5] f.
    assert (Hx : In x all) by (apply I1, in_or_app; right; left; reflexivity).
    assert (Hf : forall r, In r all -> (f r = false <-> wbr x r)).
    { intros r Hr. unfold f, wbr. apply wb_any. rewrite (Hrect _ Hx), (Hrect _ Hr). reflexivity. }
    destruct (sorted_mid _ _ _ I5) as [S1 S2].
    assert (Hsub : forall r, In r ((filter f D ++ [x]) ++ filter f T) -> In r (D ++ x :: T)).
    { intros r Hr. rewrite <- app_assoc in Hr. apply in_app_or in Hr. apply in_or_app. destruct Hr as [Hr|[Hr|Hr]].
      - left. apply filter_In in Hr. tauto.
      - right; left; exact Hr.
      - right; right. apply filter_In in Hr. tauto. }
    assert (Hkeep : forall r, In r (D ++ x :: T) -> In r ((filter f D ++ [x]) ++ filter f T) \/ better x r).
    { intros r Hr. pose proof (I1 r Hr) as Hr'. apply in_app_or in Hr. destruct Hr as [Hr|[Hr|Hr]].
      - destruct (f r) eqn:E.
        + left. apply in_or_app; left; apply in_or_app; left. apply filter_In; auto.
        + right. apply Hf in E; auto. split; auto. left. apply I3; auto. left; reflexivity.
      - subst r. left. apply in_or_app; left; apply in_or_app; right; left; reflexivity.
      - destruct (f r) eqn:E.
        + left. apply in_or_app; right. apply filter_In; auto.
        + right. apply Hf in E; auto. split; auto. }
    assert (Hxin : In x ((filter f D ++ [x]) ++ filter f T)) by (apply in_or_app; left; apply in_or_app; right; left; reflexivity).
    constructor.
    - intros r Hr. apply I1, Hsub, Hr.
    - intros r Hr. destruct (I2 r Hr) as [H|(s&Hs&B)].
      + destruct (Hkeep r H) as [K|K]; eauto.
      + destruct (Hkeep s Hs) as [K|K]; [eauto|]. right. exists x. split; auto. eapply better_trans; eauto.
    - intros d t Hd Ht W. apply filter_In in Ht. destruct Ht as [Ht Eft].
      apply in_app_or in Hd. destruct Hd as [Hd|[<-|[]]].
      + apply filter_In in Hd. destruct Hd as [Hd _]. exact (I3 d t Hd (or_intror Ht) W).
      + assert (In t all) by (apply I1, in_or_app; right; right; exact Ht).
        apply Hf in W; auto. congruence.
    - intros d d' Hd Hd' N W.
      apply in_app_or in Hd. apply in_app_or in Hd'.
      destruct Hd as [Hd|[<-|[]]]; destruct Hd' as [Hd'|[<-|[]]].
      + apply filter_In in Hd, Hd'. destruct Hd as [Hd _], Hd' as [Hd' _]. exact (I4 d d' Hd Hd' N W).
      + apply filter_In in Hd. apply (I3 d x); [tauto|left; reflexivity|exact W].
      + apply filter_In in Hd'. destruct Hd' as [Hd' E].
        assert (In d' all) by (apply I1, in_or_app; left; exact Hd'). apply Hf in W; auto. congruence.
      + congruence.
    - rewrite <- app_assoc. replace (filter f D ++ [x] ++ filter f T) with (filter (fun r => (fst r =? fst x) || f r) (D ++ x :: T)).
      + apply sorted_filter; auto.
      + rewrite filter_app'. cbn [filter]. rewrite Nat.eqb_refl. cbn [orb app]. f_equal; [|f_equal].
        * apply filter_ext_in. intros a Ha. specialize (S1 a Ha).
          replace (fst a =? fst x) with false by (symmetry; apply Nat.eqb_neq; lia). reflexivity.
        * apply filter_ext_in. intros a Ha. specialize (S2 a Ha).
          replace (fst a =? fst x) with false by (symmetry; apply Nat.eqb_neq; lia). reflexivity.
  Qed.

  Lemma loop_ok : forall fuel D T, length T <= fuel -> Inv D T ->
    exists R, pareto_loop fuel (length D) (D ++ T) = Some R /\ Inv R [].
  Proof.
    induction fuel as [|fuel IH]; intros D T L I.
    - destruct T; [|simpl in L; lia]. exists (D ++ []). rewrite app_nil_r in *. split; auto.
      cbn [pareto_loop]. replace (nth_error D (length D)) with (@None (nat * vec)); auto.
      symmetry. apply nth_error_None. lia.
    - destruct T as [|[i p] T].
      + exists D. rewrite app_nil_r in *. split; auto.
        cbn [pareto_loop]. replace (nth_error D (length D)) with (@None (nat * vec)); auto.
        symmetry. apply nth_error_None. lia.
      + rewrite pareto_step. set (f := fun r : nat * vec => any2 Qltb (snd r) p).
        destruct (IH (filter f D ++ [(i, p)]) (filter f T)) as (R&HR&IR).
        * pose proof (filter_length_le' f T). simpl in L. lia.
        * exact (Inv_step _ _ _ I).
        * exists R. split; auto. rewrite app_length in HR. simpl in HR. rewrite Nat.add_1_r, <- app_assoc in HR. exact HR.
  Qed.

  Lemma Inv_final R : Inv R [] -> forall r, In r all -> (In r R <-> forall s, In s all -> ~ better s r).
  Proof.
    intros [I1 I2 _ I4 _] r Hr. rewrite app_nil_r in *. split.
    - intros H s Hs B.
      assert (exists t, In t R /\ better t r) as (t&Ht&Bt).
      { destruct (I2 s Hs) as [K|(t&Ht&Bt)]; [eauto|]. exists t. split; auto. eapply better_trans; eauto. }
      apply (I4 t r); auto; [|apply Bt]. intros ->. exact (better_irrefl _ Bt).
    - intro H. destruct (I2 r Hr) as [K|(s&Hs&B)]; auto. exfalso. apply (H s); auto.
  Qed.
End Loop.

Lemma indexed_sorted {A} (X : list A) k :
  StronglySorted (fun r s => fst r < fst s) (combine (seq k (length X)) X).
Proof.
  revert k; induction X as [|a X IH]; intro k; simpl; constructor; auto.
  rewrite Forall_forall. intros [i x] H. apply in_combine_seq in H. simpl. lia.
Qed.

Lemma pareto_spec m X :
  rectangular m X ->
  exists idx, is_pareto_efficient_index X = Some idx /\ StronglySorted lt idx /\
    forall i, In i idx <->
      exists p, nth_error X i = Some p /\
        (forall j q, nth_error X j = Some q -> ~ dominates q p) /\
        (forall j q, j < i -> nth_error X j = Some q -> ~ same_values q p).
Proof.
  intro HR.
  assert (Hrect : forall r, In r (indexed X) -> length (snd r) = m).
  { intros [i p] H. apply in_indexed in H. apply HR. simpl. eapply nth_error_In; eauto. }
  assert (I0 : Inv (indexed X) [] (indexed X)).
  { constructor; simpl; auto; try contradiction. apply indexed_sorted. }
  destruct (loop_ok m _ Hrect (length X) [] (indexed X)) as (R&HL&IR).
  { unfold indexed. rewrite combine_length, seq_length. lia. }
  { exact I0. }
  exists (map fst R). split; [|split].
  - unfold is_pareto_efficient_index. simpl in HL. rewrite HL. reflexivity.
  - pose proof (inv_sorted _ _ _ IR) as HS. rewrite app_nil_r in HS. clear -HS.
    induction HS; simpl; constructor; auto. rewrite Forall_forall in *. intros x Hx.
    apply in_map_iff in Hx. destruct Hx as (r&<-&Hr). auto.
  - intro i. split.
    + intro H. apply in_map_iff in H. destruct H as ([i' p]&<-&H).
      pose proof (inv_incl _ _ _ IR (i', p)) as HI. rewrite app_nil_r in HI. specialize (HI H).
      apply in_indexed in HI. exists p. simpl. split; auto.
      assert (HB : forall s, In s (indexed X) -> ~ better s (i', p)).
      { apply (Inv_final _ _ IR); auto. apply in_indexed; auto. }
      split.
      * intros j q Hq Hd. apply dominates_iff in Hd. apply (HB (j, q)).
        -- apply in_indexed; auto.
        -- split; [apply Hd|left; apply Hd].
      * intros j q L Hq Hs. apply same_wb in Hs. apply (HB (j, q)).
        -- apply in_indexed; auto.
        -- split; [apply Hs|right; exact L].
    + intros (p&Hp&H1&H2). apply in_map_iff. exists (i, p). split; auto.
      apply (Inv_final _ _ IR); [apply in_indexed; auto|].
      intros [j q] Hs [A B]. apply in_indexed in Hs. unfold wbr in *. simpl in *.
      destruct B as [B|B].
      * apply (H1 j q Hs). apply dominates_iff. auto.
      * destruct (wb_dec p q) as [C|C].
        -- apply (H2 j q B Hs). apply wb_same; auto.
        -- apply (H1 j q Hs). apply dominates_iff. auto.
Qed.

Lemma pareto_mask X idx : is_pareto_efficient_index X = Some idx ->
  exists msk, is_pareto_efficient_mask X = Some msk /\ length msk = length X /\
    forall i, i < length X -> (nth_error msk i = Some true <-> In i idx) /\ (nth_error msk i = Some false <-> ~ In i idx).
Proof.
  intro H. unfold is_pareto_efficient_mask. rewrite H. simpl. eexists. split; [reflexivity|].
  rewrite map_length, seq_length. split; auto. intros i L.
  rewrite nth_error_map, nth_error_seq. apply Nat.ltb_lt in L. rewrite L. simpl.
  rewrite <- existsb_eqb_In. destruct (existsb (Nat.eqb i) idx); split; split; intro; congruence.
Qed.

(** * fast_non_dominated_sort *)
Lemma indexed_filter {A} (P : nat * A -> bool) (L : list A) : forall k,
  map fst (filter P (combine (seq k (length L)) L)) =
  filter (fun i => match nth_error L (i - k) with Some q => P (i, q) | None => false end) (seq k (length L)).
Proof.
  induction L as [|a L IH]; intro k; simpl; [reflexivity|].
  rewrite Nat.sub_diag. simpl.
  assert (E : filter (fun i => match nth_error (a :: L) (i - k) with Some q => P (i, q) | None => false end) (seq (S k) (length L))
            = map fst (filter P (combine (seq (S k) (length L)) L))).
  { rewrite IH. apply filter_ext_in. intros i Hi. apply in_seq in Hi.
    replace (i - k) with (S (i - S k)) by lia. reflexivity. }
  rewrite E. destruct (P (k, a)); reflexivity.
Qed.

Lemma fnds_dom_iff p q : length p = length q -> (fnds_dom p q = true <-> dominates p q).
Proof.
  intro L. unfold fnds_dom. rewrite andb_true_iff, negb_true_iff, dominates_iff.
  assert (E1 : all2 Qle_bool p q = true <-> weakly_better p q).
  { rewrite all2_iff by auto. apply Forall2_iff. intros. apply Qle_bool_iff. }
  assert (E2 : all2 Qeq_bool p q = true <-> same_values p q).
  { rewrite all2_iff by auto. apply Forall2_iff. intros. apply Qeq_bool_iff. }
  rewrite E1. split.
  - intros [A B]. split; auto. intro C. assert (all2 Qeq_bool p q = true) by (apply E2, wb_same; auto). congruence.
  - intros [A B]. split; auto. destruct (all2 Qeq_bool p q); auto. exfalso. apply B.
    apply (same_wb p q), E2. reflexivity.
Qed.

Lemma fnds_dominated_iff p q : length p = length q -> (fnds_dominated p q = true <-> dominates q p).
Proof.
  intro L. unfold fnds_dominated. rewrite !andb_true_iff, !negb_true_iff.
  assert (E1 : all2 (fun a b => Qle_bool b a) p q = true <-> weakly_better q p).
  { rewrite all2_iff by auto. unfold weakly_better. split; intro H; apply Forall2_flip in H;
      (eapply Forall2_iff; [|exact H]); intros; [symmetry|]; apply Qle_bool_iff. }
  assert (E2 : all2 Qeq_bool p q = true <-> same_values p q).
  { rewrite all2_iff by auto. apply Forall2_iff. intros. apply Qeq_bool_iff. }
  rewrite E1. split.
  - intros [_ [A B]]. apply dominates_iff. split; auto. intro C.
    assert (all2 Qeq_bool p q = true) by (apply E2, wb_same; auto). congruence.
  - intro H. pose proof H as H'. apply dominates_iff in H'. destruct H' as [A B]. split; [|split; auto].
    + destruct (fnds_dom p q) eqn:E; auto. apply fnds_dom_iff in E; auto. exfalso.
      exact (dominates_irrefl p (dominates_trans _ _ _ E H)).
    + destruct (all2 Qeq_bool p q); auto. exfalso. apply B. apply (same_wb p q), E2. reflexivity.
Qed.

Section Sort.
  Variable m : nat.
  Variable pts : list vec.
  Hypothesis Hrect : rectangular m pts.
  Let mu := length pts.

  Definition db (i j : nat) : bool :=
    match nth_error pts i, nth_error pts j with Some p, Some q => fnds_dom p q | _, _ => false end.
  Definition isdom (i j : nat) : Prop :=
    exists p q, nth_error pts i = Some p /\ nth_error pts j = Some q /\ dominates p q.

  Lemma len_eq i j p q : nth_error pts i = Some p -> nth_error pts j = Some q -> length p = length q.
  Proof. intros H1 H2. rewrite (Hrect p), (Hrect q); auto; eapply nth_error_In; eauto. Qed.

  Lemma db_iff i j : db i j = true <-> isdom i j.
  Proof.
    unfold db, isdom. destruct (nth_error pts i) as [p|] eqn:E1, (nth_error pts j) as [q|] eqn:E2.
    - rewrite fnds_dom_iff by (eapply len_eq; eauto). split.
      + intro H. exists p, q. auto.
      + intros (p'&q'&H1&H2&H). congruence.
    - split; [discriminate|]. intros (p'&q'&H1&H2&H). discriminate.
    - split; [discriminate|]. intros (p'&q'&H1&H2&H). discriminate.
    - split; [discriminate|]. intros (p'&q'&H1&H2&H). discriminate.
  Qed.
  Lemma db_irrefl i : db i i = false.
  Proof.
    destruct (db i i) eqn:E; auto. apply db_iff in E. destruct E as (p&q&H1&H2&H).
    assert (p = q) by congruence. subst. exfalso. exact (dominates_irrefl _ H).
  Qed.
  Lemma db_trans i j k : db i j = true -> db j k = true -> db i k = true.
  Proof.
    rewrite !db_iff. intros (p&q&H1&H2&H) (q'&r&H3&H4&H'). assert (q = q') by congruence. subst.
    exists p, r. repeat split; try apply H1; try apply H4; eapply dominates_trans; eauto.
  Qed.

  Lemma dominated_set_in i p j :
    nth_error pts i = Some p -> (In j (dominated_set pts i p) <-> db i j = true).
  Proof.
    intro Hp. unfold dominated_set, indexed. rewrite indexed_filter, filter_In, in_seq, Nat.sub_0_r.
    unfold db. rewrite Hp. destruct (nth_error pts j) as [q|] eqn:E.
    - cbn [fst snd]. split.
      + intros [_ H]. apply andb_true_iff in H. tauto.
      + intro H. split; [apply nth_error_lt in E; lia|]. apply andb_true_iff. split; auto.
        apply negb_true_iff, Nat.eqb_neq. intros ->. assert (p = q) by congruence. subst q.
        apply fnds_dom_iff in H; auto. exact (dominates_irrefl _ H).
    - split; [intros [_ H]; discriminate|discriminate].
  Qed.

  Definition cnt (P : list nat) (j : nat) : nat :=
    length (filter (fun i => negb (existsb (Nat.eqb i) P) && db i j) (seq 0 mu)).

  Lemma n_dominated_cnt j q : nth_error pts j = Some q -> n_dominated pts j q = Z.of_nat (cnt [] j).
  Proof.
    intro Hq. unfold n_dominated, cnt, indexed. f_equal.
    rewrite <- (map_length fst), indexed_filter. f_equal. apply filter_ext_in.
    intros i Hi. rewrite Nat.sub_0_r. cbn [existsb negb andb fst snd]. unfold db. rewrite Hq.
    destruct (nth_error pts i) as [p|] eqn:E; [|reflexivity].
    destruct (fnds_dom p q) eqn:D.
    - apply andb_true_iff. apply fnds_dom_iff in D; [|eapply len_eq; eauto]. split.
      + apply negb_true_iff, Nat.eqb_neq. intros ->. assert (p = q) by congruence. subst. exact (dominates_irrefl _ D).
      + apply fnds_dominated_iff; auto. eapply len_eq; eauto.
    - apply andb_false_iff. right. destruct (fnds_dominated q p) eqn:D'; auto.
      apply fnds_dominated_iff in D'; [|eapply len_eq; eauto]. apply fnds_dom_iff in D'; [congruence|eapply len_eq; eauto].
  Qed.

  Lemma zeros_in n i : In i (zeros n) <-> nth_error n i = Some 0%Z.
  Proof.
    unfold zeros, indexed. rewrite indexed_filter, filter_In, in_seq, Nat.sub_0_r.
    destruct (nth_error n i) as [c|] eqn:E.
    - cbn [snd]. rewrite Z.eqb_eq. split; [intros [_ ->]; reflexivity|]. intros [= ->]. split; auto.
      apply nth_error_lt in E. lia.
    - split; [intros [_ H]; discriminate|discriminate].
  Qed.
  Lemma zeros_nodup n : NoDup (zeros n).
  Proof. unfold zeros, indexed. rewrite indexed_filter. apply NoDup_filter, seq_NoDup. Qed.

  Lemma decrement_nth n js i :
    nth_error (decrement n js) i = option_map (fun c => if existsb (Nat.eqb i) js then (c - 1)%Z else c) (nth_error n i).
  Proof.
    unfold decrement, indexed. rewrite nth_error_map, nth_error_indexed. destruct (nth_error n i); reflexivity.
  Qed.

  Let dom := map (fun ip => dominated_set pts (fst ip) (snd ip)) (indexed pts).
  Lemma dom_nth p : p < mu -> forall i, existsb (Nat.eqb i) (nth p dom []) = db p i.
  Proof.
    intros Hp i. destruct (lt_nth_error pts p Hp) as [x Hx].
    assert (E : nth_error dom p = Some (dominated_set pts p x)).
    { unfold dom, indexed. rewrite nth_error_map, nth_error_indexed, Hx. reflexivity. }
    rewrite (nth_error_nth _ _ [] E).
    pose proof (dominated_set_in p x i Hx) as H. rewrite <- existsb_eqb_In in H.
    destruct (existsb _ _), (db p i); auto; destruct H; auto. symmetry; auto.
  Qed.

  Lemma fold_decrement front : (forall p, In p front -> p < mu) -> forall n i,
    nth_error (fold_left (fun m p => decrement m (nth p dom [])) front n) i =
    option_map (fun c => (c - Z.of_nat (length (filter (fun p => db p i) front)))%Z) (nth_error n i).
  Proof.
    induction front as [|p front IH]; intros Hf n i; cbn [fold_left filter].
    - destruct (nth_error n i); simpl; [f_equal; lia|reflexivity].
    - rewrite IH by (intros; apply Hf; right; auto). rewrite decrement_nth, dom_nth by (apply Hf; left; auto).
      destruct (nth_error n i); [|reflexivity]. cbn [option_map]. f_equal.
      destruct (db p i); cbn [length]; lia.
  Qed.

  Lemma mark_nth n i : nth_error (mark n) i = option_map (fun c => if Z.eqb c 0 then (-1)%Z else c) (nth_error n i).
  Proof. unfold mark. apply nth_error_map. Qed.

  Lemma cnt_split P F j :
    NoDup F -> (forall p, In p F -> p < mu /\ ~ In p P) ->
    cnt P j = length (filter (fun p => db p j) F) + cnt (P ++ F) j.
  Proof.
    intros ND HF. unfold cnt. rewrite <- app_length. apply Permutation_length, NoDup_Permutation.
    - apply NoDup_filter, seq_NoDup.
    - apply NoDup_app_intro.
      + apply NoDup_filter, ND.
      + apply NoDup_filter, seq_NoDup.
      + intros x H1 H2. apply filter_In in H1. apply filter_In in H2. destruct H2 as [_ H2].
        apply andb_true_iff in H2. destruct H2 as [H2 _]. apply negb_true_iff in H2.
        assert (existsb (Nat.eqb x) (P ++ F) = true) by (apply existsb_eqb_In, in_or_app; right; apply H1). congruence.
    - intro x. rewrite in_app_iff, !filter_In, !andb_true_iff, !negb_true_iff, in_seq.
      assert (E : forall l, existsb (Nat.eqb x) l = false <-> ~ In x l).
      { intro l. rewrite <- existsb_eqb_In. destruct (existsb _ _); split; intro; congruence. }
      rewrite !E, in_app_iff. split.
      + intros (A&B&C). destruct (in_dec Nat.eq_dec x F) as [H|H]; [left; auto|right].
        repeat split; auto; try lia. tauto.
      + intros [[A B]|(A&B&C)].
        * destruct (HF x A). repeat split; auto; try lia.
        * repeat split; auto; try lia; tauto.
  Qed.

  (** The layers that remain once the points of A have been placed. *)
  Inductive layers : list nat -> list (list nat) -> Prop :=
  | layers_nil A : (forall i, i < mu -> In i A) -> layers A []
  | layers_cons A F fs :
      F <> [] -> NoDup F ->
      (forall i, In i F <-> i < mu /\ ~ In i A /\ forall j, j < mu -> ~ In j A -> ~ isdom j i) ->
      layers (A ++ F) fs -> layers A (F :: fs).

  Lemma cnt_zero P j : cnt P j = 0 <-> forall i, i < mu -> ~ In i P -> ~ isdom i j.
  Proof.
    unfold cnt. split.
    - intros H i Hi Hp Hd. apply length_zero_iff_nil in H.
      assert (In i []); [|contradiction]. rewrite <- H. apply filter_In. split; [apply in_seq; lia|].
      apply andb_true_iff. split; [|apply db_iff, Hd]. apply negb_true_iff. destruct (existsb _ _) eqn:E; auto.
      apply existsb_eqb_In in E. contradiction.
    - intro H. apply length_zero_iff_nil. destruct (filter _ _) as [|x l] eqn:E; auto. exfalso.
      assert (Hx : In x (x :: l)) by (left; auto). rewrite <- E in Hx. apply filter_In in Hx.
      destruct Hx as [Hx1 Hx2]. apply in_seq in Hx1. apply andb_true_iff in Hx2. destruct Hx2 as [Hx2 Hx3].
      apply negb_true_iff in Hx2. apply (H x); [lia| |apply db_iff, Hx3].
      intro HI. apply existsb_eqb_In in HI. congruence.
  Qed.

  Lemma fronts_loop_ok : forall fuel P front n,
    length n = mu -> NoDup front -> (forall p, In p front -> p < mu /\ ~ In p P) ->
    (forall j c, nth_error n j = Some c -> In j (P ++ front) -> (c < 0)%Z) ->
    (forall j c, nth_error n j = Some c -> ~ In j (P ++ front) -> c = Z.of_nat (cnt P j)) ->
    length (filter (fun i => negb (existsb (Nat.eqb i) (P ++ front))) (seq 0 mu)) < fuel ->
    exists fs, fronts_loop fuel dom n front = Some fs /\ layers (P ++ front) fs.
  Proof.
    induction fuel as [|fuel IH]; intros P front n Hn ND HF Hneg Hcnt Hfuel; [lia|].
    cbn [fronts_loop]. set (n1 := fold_left _ front n).
    assert (Hn1 : forall i, nth_error n1 i = option_map (fun c => (c - Z.of_nat (length (filter (fun p => db p i) front)))%Z) (nth_error n i)).
    { intro i. apply fold_decrement. intros p Hp. apply HF, Hp. }
    assert (Hlen1 : length n1 = mu).
    { rewrite <- Hn. apply Nat.le_antisymm; apply Nat.nlt_ge; intro L.
      - destruct (lt_nth_error _ _ L) as [c Hc]. rewrite Hn1 in Hc.
        assert (nth_error n (length n) = None) by (apply nth_error_None; lia). rewrite H in Hc. discriminate.
      - destruct (lt_nth_error _ _ L) as [c Hc].
        assert (nth_error n1 (length n1) = None) by (apply nth_error_None; lia). rewrite Hn1, Hc in H. discriminate. }
    assert (Hc1 : forall j c, nth_error n1 j = Some c -> ~ In j (P ++ front) -> c = Z.of_nat (cnt (P ++ front) j)).
    { intros j c Hc Hj. rewrite Hn1 in Hc. destruct (nth_error n j) as [c0|] eqn:E; [|discriminate].
      injection Hc as <-. rewrite (Hcnt j c0 E Hj), (cnt_split P front j ND HF). lia. }
    assert (Hneg1 : forall j c, nth_error n1 j = Some c -> In j (P ++ front) -> (c < 0)%Z).
    { intros j c Hc Hj. rewrite Hn1 in Hc. destruct (nth_error n j) as [c0|] eqn:E; [|discriminate].
      injection Hc as <-. specialize (Hneg j c0 E Hj). lia. }
    assert (HZ : forall i, In i (zeros n1) <-> i < mu /\ ~ In i (P ++ front) /\ forall j, j < mu -> ~ In j (P ++ front) -> ~ isdom j i).
    { intro i. rewrite zeros_in. split.
      - intro H. assert (L : i < mu) by (rewrite <- Hlen1; eapply nth_error_lt; eauto).
        assert (N : ~ In i (P ++ front)) by (intro K; specialize (Hneg1 _ _ H K); lia).
        repeat split; auto. apply cnt_zero. specialize (Hc1 _ _ H N). lia.
      - intros (L&N&H). rewrite <- Hlen1 in L. destruct (lt_nth_error _ _ L) as [c Hc]. rewrite Hc.
        rewrite (Hc1 _ _ Hc N). apply cnt_zero in H. rewrite H. reflexivity. }
    destruct (zeros n1) as [|z zs] eqn:EZ.
    - exists []. split; auto. constructor.
      intros i Hi. destruct (in_dec Nat.eq_dec i (P ++ front)) as [H|H]; auto. exfalso.
      set (U := filter (fun i => negb (existsb (Nat.eqb i) (P ++ front))) (seq 0 mu)).
      assert (HU : forall x, In x U <-> x < mu /\ ~ In x (P ++ front)).
      { intro x. unfold U. rewrite filter_In, in_seq, negb_true_iff.
        rewrite <- (existsb_eqb_In x (P ++ front)). destruct (existsb _ _); intuition (try lia; try congruence). }
      destruct (minimal_exists (fun a b => db a b = true) (fun a b => bool_or (db a b)) U) as (x&Hx&Hmin).
      + intros a _ K. rewrite db_irrefl in K. discriminate.
      + intros a b c _ _ _. apply db_trans.
      + intro E. assert (In i U) by (apply HU; auto). rewrite E in H0. contradiction.
      + assert (In x []); [|contradiction]. apply HZ. apply HU in Hx. destruct Hx as [Hx1 Hx2]. repeat split; auto.
        intros j Hj Hj' Hd. apply (Hmin j); [apply HU; auto|apply db_iff, Hd].
    - assert (NDZ : NoDup (zeros n1)) by apply zeros_nodup.
      assert (HI : forall i, In i (z :: zs) <-> nth_error n1 i = Some 0%Z) by (intro i; rewrite <- EZ; apply zeros_in).
      rewrite EZ in NDZ.
      assert (Hz : In z (z :: zs)) by (left; auto). apply HZ in Hz. destruct Hz as (Hz1&Hz2&_).
      destruct (IH (P ++ front) (z :: zs) (mark n1)) as (fs&E&L).
      + unfold mark. rewrite map_length. exact Hlen1.
      + exact NDZ.
      + intros p Hp. apply HZ in Hp. tauto.
      + intros j c Hc Hj. rewrite mark_nth in Hc. destruct (nth_error n1 j) as [c0|] eqn:E0; [|discriminate].
        cbn [option_map] in Hc. apply in_app_or in Hj. destruct Hj as [Hj|Hj].
        * specialize (Hneg1 _ _ E0 Hj). destruct (Z.eqb_spec c0 0); [lia|]. injection Hc as <-. lia.
        * apply HI in Hj. rewrite Hj in E0. injection E0 as <-. cbn in Hc. injection Hc as <-. lia.
      + intros j c Hc Hj. rewrite mark_nth in Hc. destruct (nth_error n1 j) as [c0|] eqn:E0; [|discriminate].
        cbn [option_map] in Hc. destruct (Z.eqb_spec c0 0) as [->|N].
        * exfalso. apply Hj, in_or_app. right. apply HI, E0.
        * injection Hc as <-. apply Hc1; auto. intro K. apply Hj, in_or_app. left; exact K.
      + apply Nat.lt_le_trans with (length (filter (fun i => negb (existsb (Nat.eqb i) (P ++ front))) (seq 0 mu))); [|lia].
        apply filter_strict with z.
        * intros x Hx. rewrite negb_true_iff in *. destruct (existsb (Nat.eqb x) (P ++ front)) eqn:E; auto.
          rewrite existsb_app, E in Hx. discriminate.
        * apply in_seq. lia.
        * rewrite negb_true_iff. destruct (existsb (Nat.eqb z) (P ++ front)) eqn:E; auto.
          apply existsb_eqb_In in E. contradiction.
        * apply negb_false_iff, existsb_eqb_In, in_or_app. right; left; auto.
      + exists ((z :: zs) :: fs). rewrite E. split; auto. constructor; auto. discriminate.
  Qed.

  Lemma layers_spec A fs : layers A fs -> NoDup A -> (forall i, In i A -> i < mu) ->
    NoDup (A ++ concat fs) /\ (forall i, In i (A ++ concat fs) <-> i < mu) /\
    (forall F, In F fs -> F <> []) /\
    forall k F, nth_error fs k = Some F ->
      forall i, In i F <-> i < mu /\ ~ In i (A ++ concat (firstn k fs)) /\
                forall j, j < mu -> ~ In j (A ++ concat (firstn k fs)) -> ~ isdom j i.
  Proof.
    induction 1 as [A HA|A F fs HF ND HI HL IH]; intros HN HL'.
    - simpl. rewrite app_nil_r. repeat split; auto; try contradiction; destruct k; discriminate.
    - destruct IH as (B1&B2&B3&B4).
      + apply NoDup_app_intro; auto. intros x H1 H2. apply HI in H2. tauto.
      + intros i Hi. apply in_app_or in Hi. destruct Hi as [Hi|Hi]; auto. apply HI in Hi. tauto.
      + cbn [concat]. rewrite app_assoc. split; [exact B1|]. split; [exact B2|]. split.
        * intros G [<-|HG]; auto.
        * intros [|k] G HG.
          -- cbn [nth_error firstn concat] in *. injection HG as <-. rewrite app_nil_r. exact HI.
          -- cbn [nth_error firstn concat] in *. rewrite app_assoc. exact (B4 k G HG).
  Qed.

  Lemma sort_spec :
    exists fronts, fast_non_dominated_sort pts = Some fronts /\
      NoDup (concat fronts) /\ (forall i, In i (concat fronts) <-> i < mu) /\
      (pts <> [] -> forall F, In F fronts -> F <> []) /\
      forall k F, nth_error fronts k = Some F ->
        forall i, In i F <-> i < mu /\ ~ In i (concat (firstn k fronts)) /\
                  forall j, j < mu -> ~ In j (concat (firstn k fronts)) -> ~ isdom j i.
  Proof.
    unfold fast_non_dominated_sort. fold dom.
    set (n := map (fun ip => n_dominated pts (fst ip) (snd ip)) (indexed pts)).
    assert (Hn : forall j, nth_error n j = if j <? mu then Some (Z.of_nat (cnt [] j)) else None).
    { intro j. unfold n, indexed. rewrite nth_error_map, nth_error_indexed.
      destruct (nth_error pts j) as [q|] eqn:E; simpl.
      - rewrite (n_dominated_cnt j q E). apply nth_error_lt in E. apply Nat.ltb_lt in E. fold mu in E. rewrite E. reflexivity.
      - apply nth_error_None in E. fold mu in E. replace (j <? mu) with false by (symmetry; apply Nat.ltb_ge; lia). reflexivity. }
    assert (HZ : forall i, In i (zeros n) <-> i < mu /\ forall j, j < mu -> ~ isdom j i).
    { intro i. rewrite zeros_in, Hn. destruct (Nat.ltb_spec i mu) as [L|L].
      - split.
        + intros [= H]. split; auto. intros j Hj. apply (proj1 (cnt_zero [] i)); auto; lia.
        + intros [_ H]. do 2 f_equal. assert (cnt [] i = 0) by (apply cnt_zero; auto). rewrite H0. reflexivity.
      - split; [discriminate|]. intros [H _]. lia. }
    destruct (fronts_loop_ok (S (length pts)) [] (zeros n) (mark n)) as (fs&E&HL).
    - unfold mark, n, indexed. rewrite !map_length, combine_length, seq_length. unfold mu. lia.
    - apply zeros_nodup.
    - intros p Hp. apply HZ in Hp. split; [tauto|intros []].
    - intros j c Hc Hj. rewrite mark_nth in Hc. simpl in Hj. apply zeros_in in Hj. rewrite Hj in Hc. cbn in Hc. injection Hc as <-. lia.
    - intros j c Hc Hj. rewrite mark_nth in Hc. destruct (nth_error n j) as [c0|] eqn:E0; [|discriminate].
      cbn [option_map] in Hc. destruct (Z.eqb_spec c0 0) as [->|N].
      + exfalso. apply Hj. simpl. apply zeros_in, E0.
      + injection Hc as <-. rewrite Hn in E0. destruct (j <? mu); [|discriminate]. injection E0 as <-. reflexivity.
    - eapply Nat.le_lt_trans; [apply filter_length_le'|]. rewrite seq_length. unfold mu. lia.
    - rewrite E. simpl in HL. exists (zeros n :: fs). split; auto.
      assert (HN : NoDup (zeros n)) by apply zeros_nodup.
      destruct (layers_spec _ _ HL HN) as (B1&B2&B3&B4).
      { intros i Hi. apply HZ in Hi. tauto. }
      cbn [concat]. split; [exact B1|]. split; [exact B2|]. split.
      + intros Hne F [<-|HF]; auto. intro EZ.
        set (U := seq 0 mu).
        destruct (minimal_exists (fun a b => db a b = true) (fun a b => bool_or (db a b)) U) as (x&Hx&Hmin).
        * intros a _ K. rewrite db_irrefl in K. discriminate.
        * intros a b c _ _ _. apply db_trans.
        * intro EU. apply Hne, length_zero_iff_nil. rewrite <- (seq_length (length pts) 0). unfold U, mu in EU. rewrite EU. reflexivity.
        * assert (In x []); [|contradiction]. rewrite <- EZ. apply HZ. apply in_seq in Hx. split; [lia|].
          intros j Hj Hd. apply (Hmin j); [apply in_seq; lia|apply db_iff, Hd].
      + intros [|k] F HF.
        * cbn [nth_error firstn concat] in *. injection HF as <-. intro i. rewrite HZ. split.
          -- intros [H1 H2]. repeat split; auto.
          -- intros (H1&_&H2). split; auto.
        * cbn [nth_error firstn concat] in *. exact (B4 k F HF).
  Qed.
End Sort.

(** * is_non_dominated *)
Lemma ge_dom_iff y1 y2 : length y1 = length y2 -> (ge_dom y1 y2 = true <-> dominates y2 y1).
Proof.
  intro L. unfold ge_dom, dominates. rewrite andb_true_iff, any2_iff.
  assert (E1 : all2 (fun a b => Qle_bool b a) y1 y2 = true <-> weakly_better y2 y1).
  { rewrite all2_iff by auto. unfold weakly_better. split; intro H; apply Forall2_flip in H;
      (eapply Forall2_iff; [|exact H]); intros; [symmetry|]; apply Qle_bool_iff. }
  rewrite E1. split.
  - intros [H (i&a&b&Ha&Hb&E)]. apply Qltb_iff in E. split; auto. exists i, b, a. auto.
  - intros [H (i&a&b&Ha&Hb&E)]. apply Qltb_iff in E. split; auto. exists i, b, a. auto.
Qed.

Lemma argmax_first l i : nth_error l i = Some true -> (forall j, j < i -> nth_error l j = Some false) -> argmax_bool l = i.
Proof.
  revert i; induction l as [|b l IH]; intros [|i] H1 H2; simpl in *; try discriminate.
  - injection H1 as ->. reflexivity.
  - assert (b = false) by (specialize (H2 0); simpl in H2; assert (Some b = Some false) by (apply H2; lia); congruence).
    subst b. assert (E : existsb (fun b => b) l = true) by (apply existsb_exists; exists true; split; auto; eapply nth_error_In; eauto).
    rewrite E. f_equal. apply IH; auto. intros j Hj. apply (H2 (S j)). lia.
Qed.
Lemma argmax_spec l : existsb (fun b => b) l = true ->
  nth_error l (argmax_bool l) = Some true /\ forall j, j < argmax_bool l -> nth_error l j = Some false.
Proof.
  induction l as [|b l IH]; simpl; [discriminate|]. destruct b; simpl.
  - intros _. split; auto. intros j Hj; lia.
  - intro E. rewrite E. destruct (IH E) as [H1 H2]. split; auto. intros [|j] Hj; auto. apply H2. lia.
Qed.

Section ND.
  Variable m : nat.
  Variable Y : list vec.
  Hypothesis Hrect : rectangular m Y.

  Lemma eq_iff y1 y : In y1 Y -> In y Y -> (all2 Qeq_bool y1 y = true <-> same_values y1 y).
  Proof.
    intros H1 H2. rewrite all2_iff by (rewrite (Hrect y1), (Hrect y); auto). apply Forall2_iff. intros. apply Qeq_bool_iff.
  Qed.

  Lemma same_refl p : same_values p p.
  Proof. induction p; constructor; auto. reflexivity. Qed.
  Lemma same_sym p q : same_values p q -> same_values q p.
  Proof. induction 1; constructor; auto. symmetry; auto. Qed.
  Lemma same_trans p q r : same_values p q -> same_values q r -> same_values p r.
  Proof. intro H. revert r. induction H; intros r0 H1; inversion H1; subst; constructor; auto. - rewrite H; auto. - apply IHForall2; auto. Qed.

  Lemma first_index_spec y : In y Y ->
    exists y0, nth_error Y (first_index Y y) = Some y0 /\ same_values y0 y /\
      forall j z, j < first_index Y y -> nth_error Y j = Some z -> ~ same_values z y.
  Proof.
    intro Hy. unfold first_index.
    destruct (argmax_spec (map (fun y1 => all2 Qeq_bool y1 y) Y)) as [H1 H2].
    - apply existsb_exists. exists true. split; auto. apply in_map_iff. exists y. split; auto.
      apply eq_iff; auto. apply same_refl.
    - set (k := argmax_bool _) in *. rewrite nth_error_map in H1. destruct (nth_error Y k) as [y0|] eqn:E; [|discriminate].
      exists y0. split; auto. injection H1 as H1. split.
      + apply eq_iff; auto. eapply nth_error_In; eauto.
      + intros j z Hj Hz Hs. specialize (H2 j Hj). rewrite nth_error_map, Hz in H2. injection H2 as H2.
        apply eq_iff in Hs; auto; [congruence|eapply nth_error_In; eauto].
  Qed.

  Lemma nd_mask_nth i : nth_error (nd_mask Y) i = option_map (fun y => negb (existsb (fun y1 => ge_dom y1 y) Y)) (nth_error Y i).
  Proof. unfold nd_mask. apply nth_error_map. Qed.

  Lemma nd_iff y : In y Y -> (negb (existsb (fun y1 => ge_dom y1 y) Y) = true <-> forall z, In z Y -> ~ dominates_max z y).
  Proof.
    intro Hy. rewrite negb_true_iff. split.
    - intros H z Hz Hd. assert (existsb (fun y1 => ge_dom y1 y) Y = true); [|congruence].
      apply existsb_exists. exists z. split; auto. apply ge_dom_iff; auto. rewrite (Hrect z), (Hrect y); auto.
    - intro H. destruct (existsb _ Y) eqn:E; auto. apply existsb_exists in E. destruct E as (z&Hz&E).
      apply ge_dom_iff in E; [|rewrite (Hrect z), (Hrect y); auto]. exfalso. exact (H z Hz E).
  Qed.

  Lemma is_nd_false : length (is_non_dominated Y false) = length Y /\
    forall i y, nth_error Y i = Some y ->
      (nth_error (is_non_dominated Y false) i = Some true <-> forall z, In z Y -> ~ dominates_max z y).
  Proof.
    assert (E : is_non_dominated Y false = nd_mask Y) by (destruct Y; reflexivity). rewrite E. split.
    - unfold nd_mask. apply map_length.
    - intros i y Hy. rewrite nd_mask_nth, Hy. cbn [option_map]. rewrite <- (nd_iff y) by (eapply nth_error_In; eauto).
      split; congruence.
  Qed.

  Lemma is_nd_true : length (is_non_dominated Y true) = length Y /\
    forall i y, nth_error Y i = Some y ->
      (nth_error (is_non_dominated Y true) i = Some true <->
       (forall z, In z Y -> ~ dominates_max z y) /\ forall j z, j < i -> nth_error Y j = Some z -> ~ same_values z y).
  Proof.
    assert (E : is_non_dominated Y true =
      map (fun ab => fst ab && snd ab) (combine (nd_mask Y) (map (fun i => existsb (Nat.eqb i) (map (first_index Y) Y)) (seq 0 (length Y)))))
      by (destruct Y; reflexivity). rewrite E. split.
    - unfold nd_mask. rewrite map_length, combine_length, !map_length, seq_length. lia.
    - intros i y Hy. rewrite nth_error_map, nth_error_combine, nd_mask_nth, Hy, nth_error_map, nth_error_seq.
      assert (L : i <? length Y = true) by (apply Nat.ltb_lt; eapply nth_error_lt; eauto). rewrite L. cbn [option_map fst snd Nat.add].
      rewrite <- (nd_iff y) by (eapply nth_error_In; eauto).
      assert (K : existsb (Nat.eqb i) (map (first_index Y) Y) = true <-> forall j z, j < i -> nth_error Y j = Some z -> ~ same_values z y).
      { rewrite existsb_eqb_In, in_map_iff. split.
        - intros (w&Hw&HI). destruct (first_index_spec w HI) as (y0&H1&H2&H3). rewrite Hw in *.
          assert (y0 = y) by congruence. subst y0. intros j z Hj Hz Hs. apply (H3 j z Hj Hz). eapply same_trans; eauto.
        - intro H. exists y. split; [|eapply nth_error_In; eauto].
          destruct (first_index_spec y) as (y0&H1&H2&H3); [eapply nth_error_In; eauto|].
          destruct (Nat.lt_trichotomy (first_index Y y) i) as [A|[A|A]]; auto; exfalso.
          + exact (H _ _ A H1 H2).
          + exact (H3 _ _ A Hy (same_refl y)). }
      rewrite <- K. split.
      + intros [= H]. apply andb_true_iff in H. exact H.
      + intros [-> ->]. reflexivity.
  Qed.
End ND.

(** * non_dominated_set_2d *)
Lemma scan_inv y2 : forall k, k <= length y2 ->
  let ND := fold_left (fun ND i =>
                 let v := nth i y2 0%Q in
                 if negb (existsb (fun j => Qle_bool v (nth j y2 0%Q)) ND) then ND ++ [i] else ND)
              (seq 0 k) [] in
  NoDup ND /\
  (forall i, In i ND <-> i < k /\ forall j, j < i -> (nth j y2 0 < nth i y2 0)%Q) /\
  (forall j, j < k -> exists i, In i ND /\ i <= j /\ (nth j y2 0 <= nth i y2 0)%Q).
Proof.
  induction k as [|k IH]; intro L.
  - simpl. repeat split; try constructor; try contradiction; try lia. all: intros; lia.
  - rewrite seq_S, fold_left_app. cbn [fold_left Nat.add].
    destruct (IH ltac:(lia)) as (N0&H1&H2). clear IH. set (ND := fold_left _ _ _) in *. cbv zeta.
    destruct (existsb (fun j => Qle_bool (nth k y2 0%Q) (nth j y2 0%Q)) ND) eqn:E; cbn [negb].
    + apply existsb_exists in E. destruct E as (j&Hj&E). apply Qle_bool_iff in E.
      split; auto. split.
      * intro i. rewrite H1. split.
        -- intros [A B]. split; auto.
        -- intros [A B]. split; auto. assert (i <> k); [|lia]. intros ->.
           apply H1 in Hj. destruct Hj as [Hj _]. specialize (B j Hj). lra.
      * intros i Hi. destruct (Nat.eq_dec i k) as [->|Hne]; [|apply H2; lia].
        exists j. split; auto. split; auto. apply H1 in Hj. lia.
    + assert (E' : forall j, In j ND -> (nth j y2 0 < nth k y2 0)%Q).
      { intros j Hj. apply Qnot_le_lt. intro K. apply Qle_bool_iff in K.
        assert (existsb (fun j => Qle_bool (nth k y2 0%Q) (nth j y2 0%Q)) ND = true) by (apply existsb_exists; eauto). congruence. }
      split; [|split].
      * apply NoDup_app_intro; auto; [constructor; [intros []|constructor]|]. intros x Hx [<-|[]]. apply H1 in Hx. lia.
      * intro i. rewrite in_app_iff, H1. split.
        -- intros [[A B]|[<-|[]]]; [split; auto|]. split; auto. intros j Hj.
           destruct (H2 j Hj) as (i&Hi&_&HL). specialize (E' i Hi). lra.
        -- intros [A B]. destruct (Nat.eq_dec i k) as [->|Hne]; [right; left; auto|left; split; auto; lia].
      * intros j Hj. destruct (Nat.eq_dec j k) as [->|Hne].
        -- exists k. split; [apply in_or_app; right; left; auto|]. split; auto. apply Qle_refl.
        -- destruct (H2 j ltac:(lia)) as (i&Hi&HL). exists i. split; auto. apply in_or_app; auto.
Qed.

Section ND2.
  Variable argsort : list Q -> list nat.
  Hypothesis Hsort : sorts argsort.
  Variable y' : list (Q * Q).
  Let order := rev (argsort (map fst y')).
  Let y2 := map (fun i => snd (nth i y' (0%Q, 0%Q))) order.
  Let out := map (fun i => nth i order 0) (nd2_scan y2).
  Let X i := fst (nth i y' (0%Q, 0%Q)).
  Let Z i := snd (nth i y' (0%Q, 0%Q)).

  Lemma order_perm : Permutation order (seq 0 (length y')).
  Proof.
    unfold order. rewrite <- Permutation_rev. rewrite <- (map_length fst y'). apply Hsort.
  Qed.
  Lemma order_length : length order = length y'.
  Proof. rewrite (Permutation_length order_perm), seq_length. reflexivity. Qed.
  Lemma nth_fst i : nth i (map fst y') 0%Q = X i.
  Proof. unfold X. change 0%Q with (fst (0%Q, 0%Q)) at 1. apply map_nth. Qed.
  Lemma order_desc a b i j : a < b -> nth_error order a = Some i -> nth_error order b = Some j -> (X j <= X i)%Q.
  Proof.
    intros L Ha Hb. rewrite <- !nth_fst. set (l := argsort (map fst y')) in *.
    assert (R : forall k x, nth_error (rev l) k = Some x -> nth_error l (length l - S k) = Some x /\ k < length l).
    { intros k x H. assert (K : k < length l) by (rewrite <- rev_length; eapply nth_error_lt; eauto).
      split; auto. apply nth_error_nth with (d := 0) in H. rewrite rev_nth in H by auto.
      rewrite <- H. apply nth_error_nth'. lia. }
    apply R in Ha, Hb. destruct Ha as [Ha La], Hb as [Hb Lb].
    eapply (proj2 (Hsort (map fst y'))); [|exact Hb|exact Ha]. fold l. lia.
  Qed.
  Lemma y2_nth a i : nth_error order a = Some i -> nth a y2 0%Q = Z i.
  Proof.
    intro H. unfold y2, Z. apply nth_error_nth. rewrite nth_error_map, H. reflexivity.
  Qed.
  Lemma order_in i : i < length y' -> exists a, nth_error order a = Some i.
  Proof.
    intro H. apply In_nth_error. eapply Permutation_in; [apply Permutation_sym, order_perm|]. apply in_seq. lia.
  Qed.
  Lemma order_nodup : NoDup order.
  Proof. eapply Permutation_NoDup; [apply Permutation_sym, order_perm|apply seq_NoDup]. Qed.
  Lemma out_in i : In i out <-> exists a, nth_error order a = Some i /\ forall b j, b < a -> nth_error order b = Some j -> (Z j < Z i)%Q.
  Proof.
    unfold out. rewrite in_map_iff. unfold nd2_scan.
    destruct (scan_inv y2 (length y2) (le_n _)) as (_&H1&_). cbv zeta in H1. split.
    - intros (a&E&Ha). apply H1 in Ha. destruct Ha as [La Ha]. exists a.
      unfold y2 in La. rewrite map_length in La. destruct (lt_nth_error _ _ La) as [x Hx].
      pose proof (nth_error_nth _ _ 0 Hx) as Hx0. rewrite E in Hx0. rewrite <- Hx0 in Hx. split; auto.
      intros b j Hb Hj. specialize (Ha b Hb). rewrite (y2_nth _ _ Hj), (y2_nth _ _ Hx) in Ha. exact Ha.
    - intros (a&Ha&H). exists a. split; [apply nth_error_nth, Ha|]. apply H1. split.
      + unfold y2. rewrite map_length. eapply nth_error_lt; eauto.
      + intros b Hb. assert (Lb : b < length order) by (apply nth_error_lt in Ha; lia).
        destruct (lt_nth_error _ _ Lb) as [j Hj]. rewrite (y2_nth _ _ Hj), (y2_nth _ _ Ha). eauto.
  Qed.
  Lemma out_nodup : NoDup out.
  Proof.
    unfold out, nd2_scan. destruct (scan_inv y2 (length y2) (le_n _)) as (H0&H1&_). cbv zeta in *.
    set (ND := fold_left _ _ _) in *.
    assert (HB : forall a, In a ND -> a < length order).
    { intros a Ha. apply H1 in Ha. unfold y2 in Ha. rewrite map_length in Ha. tauto. }
    clear H1. induction ND as [|a ND IH]; simpl; constructor.
    - rewrite in_map_iff. intros (b&E&Hb). inversion H0; subst.
      assert (a = b); [|congruence]. apply (proj1 (NoDup_nth order 0) order_nodup); auto; apply HB; simpl; auto.
    - inversion H0; subst. apply IH; auto. intros; apply HB; right; auto.
  Qed.

  (** For maximisation of y'. *)
  Definition dmax (i j : nat) : Prop := (X j <= X i)%Q /\ (Z j <= Z i)%Q /\ ((X j < X i)%Q \/ (Z j < Z i)%Q).

  Lemma nd2_complete i : i < length y' -> (forall j, j < length y' -> ~ dmax j i) ->
    exists j, In j out /\ (X j == X i)%Q /\ (Z j == Z i)%Q.
  Proof.
    intros Hi H. destruct (order_in i Hi) as [a Ha].
    unfold out, nd2_scan. destruct (scan_inv y2 (length y2) (le_n _)) as (_&H1&H2). cbv zeta in *.
    assert (La : a < length y2) by (unfold y2; rewrite map_length; eapply nth_error_lt; eauto).
    destruct (H2 a La) as (b&Hb&Lb&HL). pose proof Hb as Hb'. apply H1 in Hb'. destruct Hb' as [Lb' _].
    unfold y2 in Lb'. rewrite map_length in Lb'. destruct (lt_nth_error _ _ Lb') as [j Hj].
    assert (Hjn : j < length y').
    { assert (In j (seq 0 (length y'))) by (eapply Permutation_in; [apply order_perm|eapply nth_error_In; eauto]). apply in_seq in H0. lia. }
    exists j. split.
    - apply in_map_iff. exists b. split; auto. apply nth_error_nth, Hj.
    - rewrite (y2_nth _ _ Ha), (y2_nth _ _ Hj) in HL.
      assert (HX : (X i <= X j)%Q).
      { destruct (Nat.eq_dec b a) as [->|Hne]; [assert (i = j) by congruence; subst; apply Qle_refl|].
        eapply order_desc; [|exact Hj|exact Ha]. lia. }
      specialize (H j Hjn). unfold dmax in H.
      destruct (Qlt_le_dec (X i) (X j)); [exfalso; apply H; auto|].
      destruct (Qlt_le_dec (Z i) (Z j)); [exfalso; apply H; auto|]. split; lra.
  Qed.

  Lemma nd2_sound i : (forall i j, i < length y' -> j < length y' -> i <> j -> ~ (X i == X j)%Q) ->
    (In i out <-> i < length y' /\ forall j, j < length y' -> ~ dmax j i).
  Proof.
    intro Hd. assert (HB : forall k a, nth_error order a = Some k -> k < length y').
    { intros k a H. assert (In k (seq 0 (length y'))) by (eapply Permutation_in; [apply order_perm|eapply nth_error_In; eauto]). apply in_seq in H0. lia. }
    split.
    - intro H. apply out_in in H. destruct H as (a&Ha&H). split; [eapply HB; eauto|].
      intros j Hj D. unfold dmax in D. destruct D as (D1&D2&D3). destruct (order_in j Hj) as [b Hb].
      destruct (Nat.lt_trichotomy b a) as [L|[L|L]].
      + specialize (H b j L Hb). lra.
      + subst b. assert (i = j) by congruence. subst. lra.
      + assert (N : i <> j).
        { intros ->. assert (a = b); [|lia]. apply (proj1 (NoDup_nth_error order) order_nodup); [eapply nth_error_lt; eauto|congruence]. }
        pose proof (order_desc _ _ _ _ L Ha Hb) as HX. apply (Hd i j); eauto. lra.
    - intros [Hi H]. destruct (nd2_complete i Hi H) as (j&Hj&E1&E2).
      destruct (Nat.eq_dec i j) as [->|N]; auto. exfalso.
      apply out_in in Hj. destruct Hj as (b&Hb&_). apply (Hd i j); eauto. symmetry; auto.
  Qed.
End ND2.

(** The stable insertion sort is an argsort. *)
Definition key_sorted (key : nat -> Q) := StronglySorted (fun i j => (key i <= key j)%Q).
Lemma insert_perm key i l : Permutation (insert_by key i l) (i :: l).
Proof.
  induction l as [|j l IH]; simpl; auto. destruct (Qltb (key i) (key j)); auto.
  rewrite IH. apply perm_swap.
Qed.
Lemma insert_sorted key i l : key_sorted key l -> key_sorted key (insert_by key i l).
Proof.
  unfold key_sorted. induction 1 as [|j l H IH HF]; simpl; [repeat constructor|].
  destruct (Qltb (key i) (key j)) eqn:E.
  - apply Qltb_iff in E. constructor; [constructor; auto|]. constructor; [lra|].
    rewrite Forall_forall in *. intros x Hx. specialize (HF x Hx). lra.
  - apply Qltb_false in E. constructor; auto. rewrite Forall_forall in *. intros x Hx.
    apply (Permutation_in _ (insert_perm key i l)) in Hx. destruct Hx as [<-|Hx]; auto.
Qed.
Lemma argsort_stable_sorts : sorts argsort_stable.
Proof.
  intro l. unfold argsort_stable. set (key := fun k => nth k l 0%Q).
  assert (H : forall n m acc, key_sorted key acc ->
     let r := fold_left (fun acc i => insert_by key i acc) (seq n m) acc in
     Permutation r (acc ++ seq n m) /\ key_sorted key r).
  { intros n m; revert n. induction m as [|m IH]; intros n acc HA; cbn [seq fold_left].
    - rewrite app_nil_r. auto.
    - destruct (IH (S n) (insert_by key n acc) (insert_sorted _ _ _ HA)) as [P1 P2]. split; auto.
      rewrite P1, insert_perm. apply Permutation_middle. }
  destruct (H 0 (length l) [] ltac:(constructor)) as [P1 P2]. cbv zeta in P2. split; [exact P1|].
  set (r := fold_left _ _ _) in *. clear -P2. intros a b i j L Ha Hb.
  revert a b L Ha Hb. induction P2 as [|x r H IH HF]; intros a b L Ha Hb; [destruct a; discriminate|].
  destruct b as [|b]; [lia|]. destruct a as [|a]; simpl in *.
  - injection Ha as ->. rewrite Forall_forall in HF. apply HF. eapply nth_error_In; eauto.
  - apply (IH a b); auto. lia.
Qed.
