(** Lemmas about Model_Lacour.v: ties.  The algorithm treats a point as if it were larger, by an infinitesimal amount, than the
    points before it that agree with it in a coordinate: numbers tagged with the time of their point are in general position, and
    the algorithm does the same with them. *)
From Coq Require Import List Bool Arith ZArith QArith Lia Lqa.
From Verif Require Import Lib_List Model_Boxes Model_Lacour Proofs_Lacour.
Import ListNotations.
Open Scope nat_scope.

Lemma eleb_total a b : eleb a b = true \/ eleb b a = true.
Proof. destruct a as [|a|], b as [|b|]; simpl; auto. rewrite !Qle_bool_iff. destruct (Qlt_le_dec a b); [left; lra|right; lra]. Qed.
Lemma eleb_trans a b c : eleb a b = true -> eleb b c = true -> eleb a c = true.
Proof. destruct a as [|a|], b as [|b|], c as [|c|]; simpl; auto; try discriminate. rewrite !Qle_bool_iff. lra. Qed.
Notation ele := (fun a b => eleb a b = true).
Notation elt := (fun a b => eleb b a = false).
Lemma elt_le a b : eleb b a = false -> eleb a b = true.
Proof. destruct (eleb_total a b); congruence. Qed.

Definition tg : Type := (ext * nat)%type.
Definition tleb (a b : tg) : bool := eleb (fst a) (fst b) && (negb (eleb (fst b) (fst a)) || (snd a <=? snd b)).
Lemma tleb_total a b : tleb a b = true \/ tleb b a = true.
Proof.
  unfold tleb. destruct a as [a s], b as [b t]; simpl. destruct (eleb a b) eqn:E1, (eleb b a) eqn:E2; simpl; auto.
  - destruct (Nat.leb_spec s t); auto. right. apply Nat.leb_le. lia.
  - destruct (eleb_total a b); congruence.
Qed.
Lemma tleb_trans a b c : tleb a b = true -> tleb b c = true -> tleb a c = true.
Proof.
  unfold tleb. destruct a as [a s], b as [b t], c as [c w]; simpl. intros H1 H2. apply andb_true_iff in H1 as [A1 A2]. apply andb_true_iff in H2 as [B1 B2].
  apply andb_true_iff. split; [now apply (eleb_trans a b c)|]. apply orb_true_iff in A2. apply orb_true_iff in B2. apply orb_true_iff.
  destruct (eleb c a) eqn:E; [right|now left]. assert (eleb b a = true) by now apply (eleb_trans b c a). assert (eleb c b = true) by now apply (eleb_trans c a b).
  destruct A2 as [A2|A2]; [rewrite H in A2; discriminate|]. destruct B2 as [B2|B2]; [rewrite H0 in B2; discriminate|].
  apply Nat.leb_le in A2. apply Nat.leb_le in B2. apply Nat.leb_le. lia.
Qed.
Definition td : tg := (NInf, 0).
Definition tag (t : nat) (r : list ext) : list tg := map (fun a => (a, t)) r.
Definition untag (r : list tg) : list ext := map fst r.
Definition untagz (uZ : list tg * list (list tg)) : list ext * list (list ext) := (untag (fst uZ), map untag (snd uZ)).
Lemma untag_nth r j : nth j (untag r) NInf = fst (nth j r td).
Proof. unfold untag. change NInf with (fst td). apply map_nth. Qed.
Lemma untagz_nth Z k : nth k (map untag Z) [] = untag (nth k Z []).
Proof. change (@nil ext) with (untag []). apply map_nth. Qed.
Lemma untag_tag t r : untag (tag t r) = r.
Proof. unfold untag, tag. rewrite map_map. simpl. apply map_id. Qed.
Lemma tag_len t r : length (tag t r) = length r. Proof. apply map_length. Qed.
Lemma tag_nth t r j : j < length r -> nth j (tag t r) td = (nth j r NInf, t).
Proof. intros H. unfold tag. rewrite (nth_indep _ td ((fun a => (a, t)) NInf)) by now rewrite map_length. exact (map_nth (fun a => (a, t)) r NInf j). Qed.
Lemma untag_replace j a r : untag (replace_at j a r) = replace_at j (fst a) (untag r).
Proof. revert j. induction r as [|b r IH]; intros [|j]; simpl; f_equal; auto. Qed.
Lemma untagz_replace j a Z : map untag (replace_at j a Z) = replace_at j (untag a) (map untag Z).
Proof. revert j. induction Z as [|b Z IH]; intros [|j]; simpl; f_equal; auto. Qed.

(** A tag of a later time. *)
Lemma tle_later a s b t : s <= t -> tleb (a, s) (b, t) = eleb a b.
Proof. intros H. unfold tleb. simpl. apply Nat.leb_le in H. rewrite H, orb_true_r. apply andb_true_r. Qed.
Lemma tle_earlier a s b t : t < s -> tleb (a, s) (b, t) = negb (eleb b a).
Proof.
  intros H. unfold tleb. simpl. destruct (Nat.leb_spec s t); [lia|]. rewrite orb_false_r. destruct (eleb a b) eqn:E1, (eleb b a) eqn:E2; simpl; auto.
  destruct (eleb_total a b); congruence.
Qed.

Section Sim.
  Variable m : nat.
  Hypothesis Hm : 2 <= m.
  Definition timed (t : nat) (L : list (list tg * list (list tg))) : Prop := forall u Z, In (u, Z) L ->
    length u = m /\ length Z = m /\ (forall j, j < m -> snd (nth j u td) <= t) /\ (forall k j, k < m -> j < m -> snd (nth j (nth k Z []) td) <= t).

  Lemma sim_contains t u Z z : length z = m -> (forall j, j < m -> snd (nth j u td) <= t) ->
    contains ext eleb NInf m z (untagz (u, Z)) = contains tg tleb td m (tag (S t) z) (u, Z).
  Proof.
    intros Lz H. unfold contains, gtb, entry. simpl. apply eq_true_iff_eq. rewrite !forallb_forall. split; intros A j Hj; specialize (A j Hj); apply in_seq in Hj.
    - rewrite tag_nth by lia. rewrite untag_nth in A. specialize (H j ltac:(lia)). destruct (nth j u td) as [a s]. simpl in *. rewrite tle_later by lia. exact A.
    - rewrite tag_nth in A by lia. rewrite untag_nth. specialize (H j ltac:(lia)). destruct (nth j u td) as [a s]. simpl in *. rewrite tle_later in A by lia. exact A.
  Qed.
  Lemma sim_add t u Z z j : length z = m -> j < m -> (forall k j, k < m -> j < m -> snd (nth j (nth k Z []) td) <= t) ->
    add_z ext eleb NInf m z j (untagz (u, Z)) = add_z tg tleb td m (tag (S t) z) j (u, Z).
  Proof.
    intros Lz Hj H. apply eq_true_iff_eq. unfold untagz. simpl.
    rewrite (add_iff ext eleb NInf eleb_total eleb_trans m Hm _ _ (repeat_length NInf m) (repeat_length NInf m)), (add_iff tg tleb td tleb_total tleb_trans m Hm _ _ (repeat_length td m) (repeat_length td m)). unfold le.
    split; intros A k Hk Hkj; specialize (A k Hk Hkj).
    - rewrite tag_nth by lia. rewrite untagz_nth, untag_nth in A. specialize (H k j Hk Hj). destruct (nth j (nth k Z []) td) as [a s]. simpl in *. rewrite tle_later by lia. exact A.
    - rewrite tag_nth in A by lia. rewrite untagz_nth, untag_nth. specialize (H k j Hk Hj). destruct (nth j (nth k Z []) td) as [a s]. simpl in *. rewrite tle_later in A by lia. exact A.
  Qed.
  Lemma filter_map_comm {A B} (f : A -> B) (p : B -> bool) (q : A -> bool) l : (forall a, In a l -> p (f a) = q a) -> filter p (map f l) = map f (filter q l).
  Proof.
    induction l as [|a l IH]; simpl; intros H; [reflexivity|]. rewrite (H a) by now left. rewrite IH by (intros; apply H; now right). destruct (q a); reflexivity.
  Qed.
  Lemma flat_map_ext_in {A B} (f g : A -> list B) l : (forall a, In a l -> f a = g a) -> flat_map f l = flat_map g l.
  Proof. induction l as [|a l IH]; simpl; intros H; [reflexivity|]. rewrite (H a) by now left. rewrite IH; auto. Qed.
  Lemma map_flat_map {A B C} (g : B -> C) (f : A -> list B) l : map g (flat_map f l) = flat_map (fun a => map g (f a)) l.
  Proof. induction l as [|a l IH]; simpl; [reflexivity|]. now rewrite map_app, IH. Qed.
  Lemma sim_step t L z : length z = m -> timed t L ->
    compute_local_upper_bounds ext eleb NInf m (map untagz L) z = option_map (map untagz) (compute_local_upper_bounds tg tleb td m L (tag (S t) z)).
  Proof.
    intros Lz HT. unfold compute_local_upper_bounds.
    assert (FC : forall uZ, In uZ L -> contains ext eleb NInf m z (untagz uZ) = contains tg tleb td m (tag (S t) z) uZ).
    { intros [u Z] I. apply sim_contains; auto. apply (HT u Z I). }
    rewrite (filter_map_comm untagz _ _ L FC).
    rewrite (filter_map_comm untagz (fun uZ => negb (contains ext eleb NInf m z uZ)) (fun uZ => negb (contains tg tleb td m (tag (S t) z) uZ)) L) by (intros a Ia; now rewrite FC).
    set (A := filter (contains tg tleb td m (tag (S t) z)) L).
    assert (HA : forall uZ, In uZ A -> In uZ L) by (intros uZ I; apply filter_In in I; tauto).
    assert (FM : flat_map (fun j => map (child ext NInf z j) (filter (add_z ext eleb NInf m z j) (map untagz A))) (seq 0 m) =
      map untagz (flat_map (fun j => map (child tg td (tag (S t) z) j) (filter (add_z tg tleb td m (tag (S t) z) j) A)) (seq 0 m))).
    { rewrite map_flat_map. apply flat_map_ext_in. intros j Hj. apply in_seq in Hj.
      rewrite (filter_map_comm untagz _ (add_z tg tleb td m (tag (S t) z) j)).
      - rewrite !map_map. apply map_ext. intros [u Z]. unfold child, untagz, entry. simpl. rewrite untag_replace, untagz_replace, untag_tag, tag_nth by lia. reflexivity.
      - intros [u Z] I. apply sim_add; auto; [lia|]. apply (HT u Z). auto. }
    rewrite FM. destruct A as [|a A']; simpl; [reflexivity|]. destruct (m <? 2); [reflexivity|]. simpl. now rewrite map_app.
  Qed.
  Lemma timed_step t L z L' : length z = m -> timed t L -> compute_local_upper_bounds tg tleb td m L (tag (S t) z) = Some L' -> timed (S t) L'.
  Proof.
    intros Lz HT H u Z I. unfold compute_local_upper_bounds in H.
    assert (Old : forall u Z, In (u, Z) L -> length u = m /\ length Z = m /\ (forall j, j < m -> snd (nth j u td) <= S t) /\ (forall k j, k < m -> j < m -> snd (nth j (nth k Z []) td) <= S t)).
    { intros u' Z' I'. destruct (HT u' Z' I') as (A & B & C & D). repeat split; auto. }
    destruct (filter (contains tg tleb td m (tag (S t) z)) L) as [|a A'] eqn:EA; [injection H as <-; auto|].
    destruct (m <? 2); [discriminate|]. injection H as <-. apply in_app_iff in I as [I|I]; [apply filter_In in I as [I _]; auto|].
    apply in_flat_map in I as (j & Ij & I). apply in_seq in Ij. apply in_map_iff in I as ([u' Z'] & E0 & I). assert (I1 : In (u', Z') (a :: A')) by (exact (proj1 (proj1 (filter_In (add_z tg tleb td m (tag (S t) z) j) (u', Z') (a :: A')) I))).
    assert (I' : In (u', Z') L). { rewrite <- EA in I1. apply filter_In in I1. tauto. }
    unfold child, entry in E0. simpl in E0. injection E0 as <- <-. destruct (Old u' Z' I') as (A & B & C & D).
    rewrite !replace_length. split; auto. split; auto. split.
    - intros i Hi. destruct (Nat.eq_dec i j) as [->|]; [rewrite replace_same by lia; rewrite tag_nth by lia; simpl; lia|]. rewrite replace_other by auto. auto.
    - intros k i Hk Hi. destruct (Nat.eq_dec k j) as [->|]; [rewrite replace_same by lia; rewrite tag_nth by lia; simpl; lia|]. rewrite replace_other by auto. auto.
  Qed.
  Fixpoint tags (t : nat) (zs : list (list ext)) : list (list tg) :=
    match zs with [] => [] | z :: zs => tag t z :: tags (S t) zs end.
  Lemma sim_update zs : forall t L, (forall z, In z zs -> length z = m) -> timed t L ->
    update_bounds ext eleb NInf m (map untagz L) zs = option_map (map untagz) (update_bounds tg tleb td m L (tags (S t) zs)).
  Proof.
    induction zs as [|z zs IH]; intros t L HL HT; simpl; [reflexivity|]. rewrite (sim_step t) by (auto; apply HL; now left).
    destruct (compute_local_upper_bounds tg tleb td m L (tag (S t) z)) as [L'|] eqn:E0; simpl; [|reflexivity].
    apply IH; [intros; apply HL; now right|]. apply (timed_step t L z); auto. apply HL. now left.
  Qed.
  Lemma in_tags p : forall zs t, In p (tags t zs) <-> exists i z, nth_error zs i = Some z /\ p = tag (t + i) z.
  Proof.
    induction zs as [|z zs IH]; intros t; simpl.
    - split; [intros []|intros (i & z & H & _); destruct i; discriminate].
    - rewrite IH. split.
      + intros [<-|(i & w & A & ->)]; [exists 0, z; split; [reflexivity|now rewrite Nat.add_0_r]|]. exists (S i), w. split; [exact A|]. f_equal. lia.
      + intros ([|i] & w & A & ->); simpl in A; [injection A as ->; left; now rewrite Nat.add_0_r|]. right. exists i, w. split; [exact A|]. f_equal. lia.
  Qed.
  Lemma tag_inj t t' z z' : length z = m -> length z' = m -> tag t z = tag t' z' -> t = t' /\ z = z'.
  Proof.
    intros L1 L2 H. split; [|rewrite <- (untag_tag t z), H; apply untag_tag]. assert (X : nth 0 (tag t z) td = nth 0 (tag t' z') td) by now rewrite H.
    rewrite !tag_nth in X by lia. congruence.
  Qed.
  Lemma tags_NoDup zs : forall t, (forall z, In z zs -> length z = m) -> NoDup (tags t zs).
  Proof.
    induction zs as [|z zs IH]; intros t HL; simpl; constructor.
    - intros I. apply in_tags in I as (i & w & A & B). apply tag_inj in B as [B _]; [lia|apply HL; now left|]. apply HL. right. now apply nth_error_In in A.
    - apply IH. intros; apply HL; now right.
  Qed.
  Lemma tags_gp zs t : (forall z, In z zs -> length z = m) -> gp tg tleb td m (tags t zs).
  Proof.
    intros HL p q l Hp Hq Hl. apply in_tags in Hp as (i & z & A & ->). apply in_tags in Hq as (j & w & B & ->).
    assert (Lz : length z = m) by (apply HL; now apply nth_error_In in A). assert (Lw : length w = m) by (apply HL; now apply nth_error_In in B).
    unfold lt. rewrite !tag_nth by lia. destruct (Nat.lt_trichotomy i j) as [C|[<-|C]].
    - right. rewrite (tle_later _ (t + i)) by lia. rewrite (tle_earlier _ (t + j)) by lia. destruct (eleb (nth l z NInf) (nth l w NInf)); auto.
    - left. congruence.
    - right. rewrite (tle_earlier _ (t + i)) by lia. rewrite (tle_later _ (t + j)) by lia. destruct (eleb (nth l w NInf) (nth l z NInf)); auto.
  Qed.

  (** ** Points between two rows *)
  Variables (low top : list ext).
  Hypothesis Llow : length low = m.
  Hypothesis Ltop : length top = m.
  Hypothesis low_top : forall l, l < m -> eleb (nth l top NInf) (nth l low NInf) = false.
  Definition between (z : list ext) : Prop := length z = m /\ forall l, l < m -> eleb (nth l low NInf) (nth l z NInf) = true /\ eleb (nth l top NInf) (nth l z NInf) = false.
  Definition tlow := tag 1 low.
  Definition ttop := tag 1 top.
  Lemma tlow_len : length tlow = m. Proof. unfold tlow. now rewrite tag_len. Qed.
  Lemma ttop_len : length ttop = m. Proof. unfold ttop. now rewrite tag_len. Qed.
  Lemma tlow_top l : l < m -> lt tg tleb (nth l tlow td) (nth l ttop td).
  Proof. intros Hl. unfold lt, tlow, ttop. rewrite !tag_nth by lia. rewrite tle_later by lia. auto. Qed.
  Lemma tags_wfp zs : (forall z, In z zs -> between z) -> Forall (wfp tg tleb td m tlow ttop) (tags 2 zs).
  Proof.
    intros H. apply Forall_forall. intros p Hp. apply in_tags in Hp as (i & z & A & ->). destruct (H z) as [Lz B]; [now apply nth_error_In in A|].
    split; [now rewrite tag_len|]. intros l Hl. destruct (B l Hl) as [B1 B2]. unfold lt, tlow, ttop. rewrite !tag_nth by lia. split.
    - rewrite tle_earlier by lia. now rewrite B1.
    - rewrite tle_later by lia. exact B2.
  Qed.
  Lemma initial_timed : timed 1 (initial tg td m tlow ttop).
  Proof.
    intros u Z [[= <- <-]|[]]. split; [apply ttop_len|]. split; [now rewrite map_length, seq_length|]. split.
    - intros j Hj. unfold ttop. rewrite tag_nth by lia. simpl. lia.
    - intros k j Hk Hj. rewrite nth_seq_map by assumption. unfold entry. destruct (Nat.eq_dec j k) as [->|].
      + rewrite replace_same by (rewrite tlow_len; lia). unfold ttop. rewrite tag_nth by lia. simpl. lia.
      + rewrite replace_other by auto. unfold tlow. rewrite tag_nth by lia. simpl. lia.
  Qed.
  Lemma initial_untag : map untagz (initial tg td m tlow ttop) = initial ext NInf m low top.
  Proof.
    unfold initial, untagz. simpl. f_equal. f_equal; [apply untag_tag|]. rewrite map_map. apply map_ext_in. intros j Hj. apply in_seq in Hj. unfold entry.
    rewrite untag_replace. unfold tlow, ttop. rewrite untag_tag, tag_nth by lia. reflexivity.
  Qed.
  (** The zones after inserting [zs], and their tagged form. *)
  Lemma zones_tagged zs : (forall z, In z zs -> between z) ->
    exists L, update_bounds ext eleb NInf m (initial ext NInf m low top) zs = Some (map untagz L) /\
      timed (1 + length zs) L /\ good tg tleb td m tlow ttop (rev (tags 2 zs)) L.
  Proof.
    intros H. assert (HL : forall z, In z zs -> length z = m) by (intros z Iz; apply H; auto).
    destruct (update_good tg tleb td tleb_total tleb_trans m Hm tlow ttop tlow_len ttop_len tlow_top (tags 2 zs) [] (initial tg td m tlow ttop)) as (L & E0 & G).
    - apply initial_good; auto using tlow_len, ttop_len, tlow_top.
    - constructor.
    - apply tags_wfp, H.
    - rewrite app_nil_r. intros p q l Hp Hq. apply tags_gp with (zs := zs) (t := 2); auto; apply in_rev; assumption.
    - rewrite app_nil_r. apply NoDup_rev, tags_NoDup, HL.
    - rewrite app_nil_r in G. exists L. split; [|split; [|exact G]].
      + rewrite <- initial_untag. rewrite (sim_update zs 1) by (auto using initial_timed). rewrite E0. reflexivity.
      + assert (T : forall zs t L0 L, (forall z, In z zs -> length z = m) -> timed t L0 -> update_bounds tg tleb td m L0 (tags (S t) zs) = Some L -> timed (t + length zs) L).
        { clear - Hm. induction zs as [|z zs IH]; intros t L0 L HL HT HU; simpl in *; [injection HU as <-; now rewrite Nat.add_0_r|].
          destruct (compute_local_upper_bounds tg tleb td m L0 (tag (S t) z)) as [L1|] eqn:E1; [|discriminate].
          replace (t + S (length zs)) with (S t + length zs) by lia. apply (IH (S t) L1); auto. apply (timed_step t L0 z); auto. }
        apply (T zs 1 (initial tg td m tlow ttop)); auto using initial_timed.
  Qed.
End Sim.
