(** Lemmas about Model_Lacour.v: what a pass of the algorithm over a list of points yields, in terms of the numbers only. *)
From Coq Require Import List Bool Arith ZArith QArith Lia Lqa.
From Verif Require Import Lib_List Model_Boxes Model_Lacour Proofs_Lacour Proofs_LacourTag.
Import ListNotations.
Open Scope nat_scope.

Lemma max_of_spec l : l <> [] -> exists M, max_of ext eleb l = Some M /\ In M l /\ forall a, In a l -> eleb a M = true.
Proof.
  intros N. assert (H : exists M, max_of ext eleb l = Some M /\ In M l).
  { destruct l as [|a l]; [congruence|]. eexists. split; [reflexivity|]. clear N. revert a. induction l as [|b l IH]; intros a; [now left|].
    cbn [fold_left]. destruct (eleb a b); [right; apply IH|]. destruct (IH a) as [X|X]; [now left|right; now right]. }
  destruct H as (M & E0 & I). exists M. split; [exact E0|]. split; [exact I|].
  assert (X := proj1 (max_of_le ext eleb eleb_total eleb_trans l M N)). rewrite E0 in X. apply X. destruct (eleb_total M M); auto.
Qed.

(** x lies in the cell of the zone (open below, closed above). *)
Definition vcell (m : nat) (x : list ext) (c : list ext * list (list ext)) : Prop :=
  eleb (nth 0 x NInf) (nth 0 (nth 0 (snd c) []) NInf) = false /\
  forall j, 1 <= j < m -> (forall k, k < j -> eleb (nth j x NInf) (nth j (nth k (snd c) []) NInf) = false) /\ eleb (nth j x NInf) (nth j (fst c) NInf) = true.

Section Stage.
  Variable m : nat.
  Hypothesis Hm : 2 <= m.
  Variables (low top : list ext).
  Hypothesis Llow : length low = m.
  Hypothesis Ltop : length top = m.
  Hypothesis low_top : forall l, l < m -> eleb (nth l top NInf) (nth l low NInf) = false.
  Variables (zs : list (list ext)) (L : list (list tg * list (list tg))).
  Hypothesis HB : forall z, In z zs -> between m low top z.
  Hypothesis HG : good tg tleb td m (tlow low) (ttop top) (rev (tags 2 zs)) L.
  Hypothesis HT : timed m (1 + length zs) L.
  Notation Lv := (map untagz L).
  Let WN : Forall (wfp tg tleb td m (tlow low) (ttop top)) (rev (tags 2 zs)).
  Proof. apply Forall_rev. apply tags_wfp; auto. Qed.
  Let GP : gp tg tleb td m (rev (tags 2 zs)).
  Proof. intros p q l Hp Hq. apply tags_gp with (zs := zs) (t := 2); auto; try (apply in_rev; assumption). intros z Hz. apply HB, Hz. Qed.

  (** Entries of the defining points. *)
  Lemma def_entry u Z k j : In (u, Z) L -> k < m -> j < m ->
    (1 <= snd (nth j (nth k Z []) td)) /\
    (fst (nth j (nth k Z []) td) = nth j low NInf \/ (k = j /\ fst (nth j (nth k Z []) td) = nth j top NInf) \/ exists z, In z zs /\ fst (nth j (nth k Z []) td) = nth j z NInf).
  Proof.
    intros I Hk Hj. apply (proj2 HG) in I. destruct (lub_def _ _ _ _ _ _ _ _ _ I k Hk) as [D|D].
    - rewrite D. destruct (Nat.eq_dec j k) as [->|].
      + unfold dummy. rewrite replace_same by (unfold tlow; rewrite tag_len; lia). unfold ttop. rewrite tag_nth by lia. simpl. auto.
      + unfold dummy. rewrite replace_other by auto. unfold tlow. rewrite tag_nth by lia. simpl. auto.
    - apply in_rev in D. apply (in_tags m Hm) in D as (i & z & A & D). apply nth_error_In in A. destruct (HB z A) as [Lz _]. rewrite D, tag_nth by lia. simpl. split; [lia|]. right. right. exists z. auto.
  Qed.
  Lemma bound_entry u Z j : In (u, Z) L -> j < m -> 1 <= snd (nth j u td) /\ (fst (nth j u td) = nth j top NInf \/ exists z, In z zs /\ fst (nth j u td) = nth j z NInf).
  Proof.
    intros I Hj. assert (I' := proj1 (proj2 HG u Z) I). rewrite (lub_u _ _ _ _ _ _ _ _ _ I' j Hj).
    destruct (def_entry u Z j j I Hj Hj) as [A B]. split; [exact A|].
    destruct (lub_def _ _ _ _ _ _ _ _ _ I' j Hj) as [D|D].
    - left. rewrite D. unfold dummy. rewrite replace_same by (unfold tlow; rewrite tag_len; lia). unfold ttop. now rewrite tag_nth by lia.
    - right. apply in_rev in D. apply (in_tags m Hm) in D as (i & z & A' & D). apply nth_error_In in A'. destruct (HB z A') as [Lz _]. exists z. split; auto. now rewrite D, tag_nth by lia.
  Qed.
  Lemma stage_bounds u Z : In (u, Z) Lv -> length u = m /\ forall l, l < m -> nth l u NInf = nth l top NInf \/ exists z, In z zs /\ nth l u NInf = nth l z NInf.
  Proof.
    intros I. apply in_map_iff in I as ([u' Z'] & E0 & I). injection E0 as <- <-. split.
    - unfold untag. rewrite map_length. apply (HT u' Z' I).
    - intros l Hl. rewrite untag_nth. apply (bound_entry u' Z' l I Hl).
  Qed.
  Lemma stage_def u Z k j : In (u, Z) Lv -> k < m -> j < m ->
    nth j (nth k Z []) NInf = nth j low NInf \/ nth j (nth k Z []) NInf = nth j top NInf \/ exists z, In z zs /\ nth j (nth k Z []) NInf = nth j z NInf.
  Proof.
    intros I Hk Hj. apply in_map_iff in I as ([u' Z'] & E0 & I). injection E0 as <- <-. rewrite untagz_nth, untag_nth.
    destruct (def_entry u' Z' k j I Hk Hj) as [_ [A|[[_ A]|A]]]; auto.
  Qed.
  Lemma stage_low u Z k j : In (u, Z) Lv -> k < m -> j < m -> eleb (nth j low NInf) (nth j (nth k Z []) NInf) = true.
  Proof.
    intros I Hk Hj. apply in_map_iff in I as ([u' Z'] & E0 & I). injection E0 as <- <-. rewrite untagz_nth, untag_nth.
    destruct (def_entry u' Z' k j I Hk Hj) as [_ [->|[[-> ->]|(z & Hz & ->)]]].
    - destruct (eleb_total (nth j low NInf) (nth j low NInf)); auto.
    - apply elt_le. auto.
    - apply HB; auto.
  Qed.

  Lemma stage_zone x : length x = m -> (forall l, l < m -> eleb (nth l low NInf) (nth l x NInf) = true /\ eleb (nth l top NInf) (nth l x NInf) = false) ->
    ((exists u Z, In (u, Z) Lv /\ forall l, l < m -> eleb (nth l u NInf) (nth l x NInf) = false) <->
     ~ exists z, In z zs /\ forall l, l < m -> eleb (nth l z NInf) (nth l x NInf) = true).
  Proof.
    intros Lx Hx. set (T := 1 + length zs). set (X := tag T x).
    assert (XN : forall l, l < m -> nth l X td = (nth l x NInf, T)) by (intros l Hl; apply tag_nth; lia).
    assert (HX : forall l, l < m -> le tg tleb (nth l (tlow low) td) (nth l X td) /\ lt tg tleb (nth l X td) (nth l (ttop top) td)).
    { intros l Hl. rewrite XN by auto. unfold le, lt, tlow, ttop. rewrite !tag_nth by lia. rewrite !tle_later by (unfold T; lia). now apply Hx. }
    assert (CV : covered tg tleb td m (rev (tags 2 zs)) X <-> exists z, In z zs /\ forall l, l < m -> eleb (nth l z NInf) (nth l x NInf) = true).
    { split.
      - intros (p & Hp & A). apply in_rev in Hp. apply (in_tags m Hm) in Hp as (i & z & B & ->). assert (Hi := nth_error_lt _ _ _ B). apply nth_error_In in B. exists z. split; auto. intros l Hl.
        destruct (HB z B) as [Lz _]. specialize (A l Hl). unfold le in A. rewrite XN, tag_nth in A by lia. rewrite tle_later in A by (unfold T; lia). exact A.
      - intros (z & B & A). destruct (HB z B) as [Lz _]. apply In_nth_error in B as (i & B). assert (Hi := nth_error_lt _ _ _ B). exists (tag (2 + i) z). split; [apply -> in_rev; apply (in_tags m Hm); eauto|].
        intros l Hl. unfold le. rewrite XN, tag_nth by lia. rewrite tle_later by (unfold T; lia). auto. }
    assert (UX : forall u Z l, In (u, Z) L -> l < m -> tleb (nth l u td) (nth l X td) = eleb (fst (nth l u td)) (nth l x NInf)).
    { intros u Z l I Hl. rewrite XN by auto. destruct (HT u Z I) as (_ & _ & C & _). specialize (C l Hl). destruct (nth l u td) as [a s]. simpl in *. apply tle_later. exact C. }
    rewrite <- CV. split.
    - intros (u & Z & I & A). apply in_map_iff in I as ([u' Z'] & E0 & I). injection E0 as <- <-. assert (I' := proj1 (proj2 HG u' Z') I).
      apply (zone_free tg tleb td tleb_trans m (tlow low) (ttop top) (rev (tags 2 zs)) X u' Z' I'). intros l Hl. unfold lt. rewrite (UX u' Z') by auto. specialize (A l Hl). now rewrite untag_nth in A.
    - intros NC. destruct (in_zone tg tleb td tleb_total tleb_trans m Hm (tlow low) (ttop top) (tlow_len m low Llow) (ttop_len m top Ltop) (tlow_top m Hm low top Llow Ltop low_top) (rev (tags 2 zs)) X WN HX NC) as (u & Z & I & A).
      apply (proj2 HG) in I. exists (untag u), (map untag Z). split; [apply (in_map untagz) in I; exact I|]. intros l Hl. specialize (A l Hl). unfold lt in A. rewrite (UX u Z) in A by auto. now rewrite untag_nth.
  Qed.

  Lemma stage_cell x : length x = m -> (forall l, l < m -> eleb (nth l x NInf) (nth l low NInf) = false /\ eleb (nth l x NInf) (nth l top NInf) = true) ->
    ((exists z, In z zs /\ forall l, l < m -> eleb (nth l x NInf) (nth l z NInf) = false) -> exists l c r, Lv = l ++ c :: r /\ vcell m x c /\ forall d, In d (l ++ r) -> ~ vcell m x d) /\
    (~ (exists z, In z zs /\ forall l, l < m -> eleb (nth l x NInf) (nth l z NInf) = false) -> forall c, In c Lv -> ~ vcell m x c).
  Proof.
    intros Lx Hx. set (X := tag 0 x).
    assert (XN : forall l, l < m -> nth l X td = (nth l x NInf, 0)) by (intros l Hl; apply tag_nth; lia).
    assert (HX : forall l, l < m -> le tg tleb (nth l (tlow low) td) (nth l X td) /\ lt tg tleb (nth l X td) (nth l (ttop top) td)).
    { intros l Hl. rewrite XN by auto. unfold le, lt, tlow, ttop. rewrite !tag_nth by lia. rewrite !tle_earlier by lia. destruct (Hx l Hl) as [-> ->]. auto. }
    assert (CV : covered tg tleb td m (rev (tags 2 zs)) X <-> exists z, In z zs /\ forall l, l < m -> eleb (nth l x NInf) (nth l z NInf) = false).
    { split.
      - intros (p & Hp & A). apply in_rev in Hp. apply (in_tags m Hm) in Hp as (i & z & B & ->). apply nth_error_In in B. exists z. split; auto. intros l Hl.
        destruct (HB z B) as [Lz _]. specialize (A l Hl). unfold le in A. rewrite XN, tag_nth in A by lia. rewrite tle_earlier in A by lia. now apply negb_true_iff in A.
      - intros (z & B & A). destruct (HB z B) as [Lz _]. apply In_nth_error in B as (i & B). exists (tag (2 + i) z). split; [apply -> in_rev; apply (in_tags m Hm); eauto|].
        intros l Hl. unfold le. rewrite XN, tag_nth by lia. rewrite tle_earlier by lia. now rewrite A. }
    assert (CE : forall u Z, In (u, Z) L -> (cell tg tleb td m (ttop top) X u Z <-> vcell m x (untagz (u, Z)))).
    { intros u Z I. unfold cell, vcell, untagz. simpl fst. simpl snd.
      assert (E1 : forall k j, k < m -> j < m -> (le tg tleb (nth j (nth k Z []) td) (nth j X td) <-> eleb (nth j x NInf) (nth j (nth k (map untag Z) []) NInf) = false)).
      { intros k j Hk Hj. rewrite untagz_nth, untag_nth, XN by auto. destruct (def_entry u Z k j I Hk Hj) as [C _]. unfold le. destruct (nth j (nth k Z []) td) as [a s]. simpl in *. rewrite tle_earlier by lia. apply negb_true_iff. }
      assert (E2 : forall j, j < m -> (lt tg tleb (nth j X td) (nth j u td) <-> eleb (nth j x NInf) (nth j (untag u) NInf) = true)).
      { intros j Hj. rewrite untag_nth, XN by auto. destruct (bound_entry u Z j I Hj) as [C _]. unfold lt. destruct (nth j u td) as [a s]. simpl in *. rewrite tle_earlier by lia. apply negb_false_iff. }
      split.
      - intros (A & _ & C). split; [apply E1; auto; lia|]. intros j Hj. destruct (C j Hj) as [C1 C2]. split; [intros k Hk; apply E1; auto; lia|apply E2; auto; lia].
      - intros (A & C). split; [apply E1; auto; lia|]. split; [apply HX; lia|]. intros j Hj. destruct (C j Hj) as [C1 C2]. split; [intros k Hk; apply E1; auto; lia|apply E2; auto; lia]. }
    rewrite <- CV. split.
    - intros C. destruct (in_cell tg tleb td tleb_total tleb_trans m Hm (tlow low) (ttop top) (tlow_len m low Llow) (ttop_len m top Ltop) (tlow_top m Hm low top Llow Ltop low_top) (rev (tags 2 zs)) X WN HX C) as (u & Z & I & A).
      assert (I' := proj2 (proj2 HG u Z) I). destruct (in_split _ _ I') as (l & r & E0). exists (map untagz l), (untagz (u, Z)), (map untagz r). split; [now rewrite E0, map_app|]. split; [now apply CE|].
      intros d Hd V. rewrite <- map_app in Hd. apply in_map_iff in Hd as ([u2 Z2] & <- & I2). assert (I3 : In (u2, Z2) L) by (rewrite E0; apply in_app_iff in I2; apply in_app_iff; simpl; tauto).
      apply (CE u2 Z2 I3) in V. assert (I4 := proj1 (proj2 HG u2 Z2) I3).
      assert (Q1 := cell_unique tg tleb td tleb_total tleb_trans m Hm (tlow low) (ttop top) (tlow_len m low Llow) (ttop_len m top Ltop) (tlow_top m Hm low top Llow Ltop low_top) (rev (tags 2 zs)) X WN GP u2 Z2 u Z I4 I V A).
      destruct HG as [ND _]. rewrite E0 in ND. apply NoDup_remove_2 in ND. apply ND. rewrite <- Q1. exact I2.
    - intros NC c Hc V. apply in_map_iff in Hc as ([u Z] & <- & I). apply (CE u Z I) in V. apply NC. assert (I' := proj1 (proj2 HG u Z) I).
      exact (cell_covered tg tleb td m Hm (tlow low) (ttop top) (tlow_len m low Llow) (ttop_len m top Ltop) (rev (tags 2 zs)) X u Z I' V).
  Qed.
End Stage.
