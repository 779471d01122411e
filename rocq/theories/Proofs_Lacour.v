(** Lemmas about Model_Lacour.v: the local upper bounds of points in general position, for any total preorder. *)
From Coq Require Import List Bool Arith Lia.
From Verif Require Import Lib_List Model_Lacour.
Import ListNotations.

Lemma replace_length {T} j (a : T) l : length (replace_at j a l) = length l.
Proof. revert j; induction l as [|b l IH]; intros [|j]; simpl; auto. Qed.
Lemma replace_same {T} j (a d : T) l : j < length l -> nth j (replace_at j a l) d = a.
Proof. revert j; induction l as [|b l IH]; intros [|j]; simpl; intros H; try lia; auto. apply IH. lia. Qed.
Lemma replace_other {T} j k (a d : T) l : k <> j -> nth k (replace_at j a l) d = nth k l d.
Proof. revert j k; induction l as [|b l IH]; intros [|j] [|k]; simpl; intros H; try lia; auto. Qed.

Lemma forallb_false {T} (f : T -> bool) l : forallb f l = false -> exists a, In a l /\ f a = false.
Proof.
  induction l as [|a l IH]; simpl; intros F; [discriminate|]. apply andb_false_iff in F as [F|F]; [exists a; split; [now left|exact F]|].
  destruct (IH F) as (x & X1 & X2). exists x. split; [now right|exact X2].
Qed.
Lemma nth_seq_map {T} (f : nat -> T) d n j : j < n -> nth j (map f (seq 0 n)) d = f j.
Proof.
  intros H. rewrite (nth_indep _ d (f 0)) by now rewrite map_length, seq_length. rewrite map_nth, seq_nth by assumption. reflexivity.
Qed.

Section Order.
  Variable E : Type.
  Variable leb : E -> E -> bool.
  Variable d : E.
  Hypothesis total : forall a b, leb a b = true \/ leb b a = true.
  Hypothesis trans : forall a b c, leb a b = true -> leb b c = true -> leb a c = true.
  Notation row := (list E).
  Notation zone := (row * list row)%type.
  Definition le a b := leb a b = true.
  Definition lt a b := leb b a = false.
  Notation "v @ j" := (nth j v d) (at level 9, format "v @ j").
  Notation "Z @@ j" := (nth j Z nil) (at level 9, format "Z @@ j").

  Lemma refl a : le a a. Proof. destruct (total a a); auto. Qed.
  Lemma lt_le a b : lt a b -> le a b.
  Proof. unfold lt, le. destruct (total a b); congruence. Qed.
  Lemma le_or_lt a b : le a b \/ lt b a.
  Proof. unfold lt, le. destruct (leb a b); auto. Qed.
  Lemma lt_not_le a b : lt a b -> ~ le b a.
  Proof. unfold lt, le. congruence. Qed.
  Lemma lt_le_trans a b c : lt a b -> le b c -> lt a c.
  Proof. intros H1 H2. destruct (le_or_lt c a) as [H|H]; auto. exfalso. apply (lt_not_le _ _ H1). exact (trans _ _ _ H2 H). Qed.
  Lemma le_lt_trans a b c : le a b -> lt b c -> lt a c.
  Proof. intros H1 H2. destruct (le_or_lt c a) as [H|H]; auto. exfalso. apply (lt_not_le _ _ H2). exact (trans _ _ _ H H1). Qed.
  Lemma lt_irrefl a : ~ lt a a.
  Proof. intros H. apply (lt_not_le _ _ H), refl. Qed.
  Lemma gtb_lt a b : gtb E leb a b = true <-> lt b a.
  Proof. unfold gtb, lt. destruct (leb a b); simpl; intuition congruence. Qed.

  Lemma max_of_le l b : l <> [] -> (match max_of E leb l with Some M => leb M b | None => false end = true <-> forall a, In a l -> le a b).
  Proof.
    destruct l as [|a l]; [congruence|]. intros _. simpl. revert a. induction l as [|c l IH]; intros a; simpl.
    - split; [intros H x [<-|[]]; exact H|intros H; apply H; now left].
    - rewrite IH. destruct (leb a c) eqn:Eac; split; intros H x Hx.
      + destruct Hx as [<-|[<-|Hx]]; [|apply H; now left|apply H; now right]. apply (trans _ c); auto. apply H; now left.
      + destruct Hx as [<-|Hx]; apply H; [right; now left|right; now right].
      + destruct Hx as [<-|[<-|Hx]]; [apply H; now left| |apply H; now right]. apply (trans _ a); [|apply H; now left]. destruct (total a c); congruence.
      + destruct Hx as [<-|Hx]; apply H; [now left|right; now right].
  Qed.

  (** A least row in column j. *)
  Lemma argmin j (p0 : row) l : exists p, In p (p0 :: l) /\ forall q, In q (p0 :: l) -> le p@j q@j.
  Proof.
    revert p0. induction l as [|a l IH]; intros p0.
    - exists p0. split; [now left|]. intros q [<-|[]]. apply refl.
    - destruct (IH p0) as (p & Hp & Mp). destruct (le_or_lt p@j a@j) as [H|H].
      + exists p. split; [destruct Hp as [<-|Hp]; [now left|right; now right]|]. intros q [<-|[<-|Hq]]; [apply Mp; now left|exact H|apply Mp; now right].
      + exists a. split; [right; now left|]. intros q [<-|[<-|Hq]]; [|apply refl|]; apply (trans _ p@j); try (apply lt_le; exact H); apply Mp; [now left|now right].
  Qed.

  Variable m : nat.
  Hypothesis Hm : 2 <= m.
  Variables (low top : row).
  Hypothesis Llow : length low = m.
  Hypothesis Ltop : length top = m.
  Hypothesis low_top : forall l, l < m -> lt low@l top@l.
  Definition dummy (j : nat) : row := replace_at j (top@j) low.
  Lemma dummy_len j : length (dummy j) = m. Proof. unfold dummy. now rewrite replace_length. Qed.
  Lemma dummy_same j : j < m -> (dummy j)@j = top@j. Proof. intros. unfold dummy. apply replace_same. lia. Qed.
  Lemma dummy_other j l : l <> j -> (dummy j)@l = low@l. Proof. intros. unfold dummy. now apply replace_other. Qed.

  Definition wfp (p : row) : Prop := length p = m /\ forall l, l < m -> lt low@l p@l /\ lt p@l top@l.
  (** General position: no two points agree in a coordinate. *)
  Definition gp (N : list row) : Prop := forall p q l, In p N -> In q N -> l < m -> p = q \/ lt p@l q@l \/ lt q@l p@l.
  Record is_lub (N : list row) (u : row) (Z : list row) : Prop := Lub {
    lub_len : length u = m; lub_Zlen : length Z = m;
    lub_def : forall j, j < m -> Z@@j = dummy j \/ In (Z@@j) N;
    lub_u : forall j, j < m -> u@j = (Z@@j)@j;
    lub_lt : forall k l, k < m -> l < m -> k <> l -> lt (Z@@k)@l u@l;
    lub_free : forall p, In p N -> exists l, l < m /\ le u@l p@l }.
  Definition good (N : list row) (L : list zone) : Prop := NoDup L /\ forall u Z, In (u, Z) L <-> is_lub N u Z.

  Lemma free_not N u Z p : is_lub N u Z -> In p N -> (forall l, l < m -> lt p@l u@l) -> False.
  Proof. intros H Hp A. destruct (lub_free _ _ _ H p Hp) as (l & Hl & B). apply (lt_not_le _ _ (A l Hl)), B. Qed.
  Lemma lub_ext N u Z u' Z' : is_lub N u Z -> is_lub N u' Z' -> (forall j, j < m -> Z@@j = Z'@@j) -> u = u' /\ Z = Z'.
  Proof.
    intros H H' A. split.
    - apply (nth_ext _ _ d d); [rewrite (lub_len _ _ _ H), (lub_len _ _ _ H'); reflexivity|]. intros n Hn. rewrite (lub_len _ _ _ H) in Hn.
      rewrite (lub_u _ _ _ H), (lub_u _ _ _ H'), A; auto.
    - apply (nth_ext _ _ nil nil); [rewrite (lub_Zlen _ _ _ H), (lub_Zlen _ _ _ H'); reflexivity|]. intros n Hn. rewrite (lub_Zlen _ _ _ H) in Hn. auto.
  Qed.
  Lemma lub_low N u Z : Forall wfp N -> is_lub N u Z -> forall l, l < m -> lt low@l u@l /\ le u@l top@l.
  Proof.
    intros W H l Hl. rewrite (lub_u _ _ _ H l Hl). destruct (lub_def _ _ _ H l Hl) as [->|Hp].
    - rewrite dummy_same by assumption. split; [auto|apply refl].
    - rewrite Forall_forall in W. destruct (W _ Hp) as [_ A]. destruct (A l Hl). split; [auto|now apply lt_le].
  Qed.

  Lemma initial_good : good [] (initial E d m low top).
  Proof.
    unfold initial, entry. set (Z0 := map (fun j => replace_at j top@j low) (seq 0 m)).
    assert (NZ : forall j, j < m -> Z0@@j = dummy j).
    { intros j Hj. unfold Z0. rewrite (nth_indep _ _ (dummy 0)) by now rewrite map_length, seq_length.
      change (dummy 0) with ((fun j => replace_at j top@j low) 0). rewrite map_nth, seq_nth by assumption. reflexivity. }
    assert (G : is_lub [] top Z0).
    { split; auto.
      - unfold Z0. now rewrite map_length, seq_length.
      - intros j Hj. rewrite NZ, dummy_same by assumption. reflexivity.
      - intros k l Hk Hl Hkl. rewrite NZ, dummy_other by auto. auto.
      - intros p []. }
    split; [constructor; [intros []|constructor]|]. intros u Z. split.
    - intros [[= <- <-]|[]]. exact G.
    - intros H. left. destruct (lub_ext [] top Z0 u Z G H) as [-> ->]; [|reflexivity].
      intros j Hj. rewrite NZ by assumption. destruct (lub_def _ _ _ H j Hj) as [->|[]]. reflexivity.
  Qed.

  Lemma contains_iff z u Z : contains E leb d m z (u, Z) = true <-> forall l, l < m -> lt z@l u@l.
  Proof.
    unfold contains, entry. rewrite forallb_forall. simpl. split.
    - intros H l Hl. apply gtb_lt, H, in_seq. lia.
    - intros H l Hl. apply in_seq in Hl. apply gtb_lt, H. lia.
  Qed.
  Lemma add_iff z j u Z : add_z E leb d m z j (u, Z) = true <-> forall k, k < m -> k <> j -> le (Z@@k)@j z@j.
  Proof.
    unfold add_z, entry. rewrite max_of_le.
    - simpl. split.
      + intros H k Hk Hkj. apply H. apply in_map_iff. exists k. split; auto. apply filter_In. split; [apply in_seq; lia|]. apply negb_true_iff, Nat.eqb_neq. auto.
      + intros H a Ha. apply in_map_iff in Ha. destruct Ha as (k & <- & Hk). apply filter_In in Hk. destruct Hk as [Hk1 Hk2]. apply in_seq in Hk1.
        apply negb_true_iff, Nat.eqb_neq in Hk2. apply H; auto. lia.
    - set (k := if Nat.eqb j 0 then 1 else 0). assert (I : In k (filter (fun k => negb (k =? j)) (seq 0 m))).
      { apply filter_In. split; [apply in_seq; unfold k; destruct (j =? 0); lia|]. unfold k. destruct (Nat.eqb_spec j 0); apply negb_true_iff, Nat.eqb_neq; lia. }
      intros C. destruct (filter _ _); [destruct I|discriminate].
  Qed.

  Section Step.
    Variables (N : list row) (z : row).
    Hypothesis WN : Forall wfp N.
    Hypothesis Wz : wfp z.
    Hypothesis G : gp (z :: N).
    Hypothesis Hz : ~ In z N.

    Lemma z_not_dummy j : j < m -> z <> dummy j.
    Proof. intros Hj C. destruct Wz as [_ A]. destruct (A j Hj) as [_ B]. rewrite C, dummy_same in B by assumption. exact (lt_irrefl _ B). Qed.
    Lemma def_neq u Z j k : is_lub N u Z -> k < m -> j < m -> k <> j -> le (Z@@k)@j z@j -> lt (Z@@k)@j z@j.
    Proof.
      intros H Hk Hj Hkj A. destruct (lub_def _ _ _ H k Hk) as [D|D].
      - rewrite D, dummy_other by auto. destruct Wz as [_ W]. apply W; auto.
      - destruct (G (Z@@k) z j) as [B|[B|B]]; [now right|now left|auto|exfalso; apply Hz; now rewrite <- B|exact B|]. exfalso. exact (lt_not_le _ _ B A).
    Qed.
    Lemma keep_lub u Z : is_lub N u Z -> ~ (forall l, l < m -> lt z@l u@l) -> is_lub (z :: N) u Z.
    Proof.
      intros H A. destruct H as [H1 H2 H3 H4 H5 H6]. split; auto.
      - intros j Hj. destruct (H3 j Hj); [now left|right; now right].
      - intros p [<-|Hp]; [|auto]. destruct (forallb (fun l => negb (leb u@l z@l)) (seq 0 m)) eqn:F.
        + exfalso. apply A. intros l Hl. rewrite forallb_forall in F. specialize (F l). unfold lt. destruct (leb u@l z@l); auto. discriminate F. apply in_seq. lia.
        + assert (X : exists l, In l (seq 0 m) /\ negb (leb u@l z@l) = false).
          { exact (forallb_false _ _ F). }
          destruct X as (l & X1 & X2). apply in_seq in X1. exists l. split; [lia|]. unfold le. destruct (leb u@l z@l); auto.
    Qed.
    Lemma child_lub u Z j : is_lub N u Z -> (forall l, l < m -> lt z@l u@l) -> j < m -> (forall k, k < m -> k <> j -> le (Z@@k)@j z@j) ->
      is_lub (z :: N) (replace_at j z@j u) (replace_at j z Z).
    Proof.
      intros H A Hj B. assert (H0 := H). destruct H as [H1 H2 H3 H4 H5 H6]. split.
      - now rewrite replace_length.
      - now rewrite replace_length.
      - intros k Hk. destruct (Nat.eq_dec k j) as [->|Hkj].
        + right. left. symmetry. apply replace_same. lia.
        + rewrite replace_other by auto. destruct (H3 k Hk); [now left|right; now right].
      - intros k Hk. destruct (Nat.eq_dec k j) as [->|Hkj].
        + rewrite !replace_same by lia. reflexivity.
        + rewrite !replace_other by auto. auto.
      - intros k l Hk Hl Hkl. destruct (Nat.eq_dec l j) as [->|Hlj].
        + rewrite (replace_same j (z@j)) by lia. rewrite replace_other by auto. apply (def_neq u Z j k); auto.
        + rewrite (replace_other j l) by auto. destruct (Nat.eq_dec k j) as [->|Hkj].
          * rewrite replace_same by lia. auto.
          * rewrite replace_other by auto. auto.
      - intros p [<-|Hp].
        + exists j. split; auto. rewrite replace_same by lia. apply refl.
        + destruct (H6 p Hp) as (l & Hl & C). exists l. split; auto. destruct (Nat.eq_dec l j) as [->|Hlj].
          * rewrite replace_same by lia. apply (trans _ u@j); auto. apply lt_le. auto.
          * rewrite replace_other by auto. auto.
    Qed.
    (** The zone of which a new one is a part. *)
    Lemma parent u Z j : is_lub (z :: N) u Z -> j < m -> Z@@j = z ->
      exists p, is_lub N (replace_at j p@j u) (replace_at j p Z) /\ lt z@j p@j.
    Proof.
      intros H Hj E0. destruct H as [H1 H2 H3 H4 H5 H6].
      set (cand := filter (fun p => forallb (fun l => (l =? j) || negb (leb u@l p@l)) (seq 0 m)) N).
      assert (C : forall p, In p cand <-> In p N /\ forall l, l < m -> l <> j -> lt p@l u@l).
      { intros p. unfold cand. rewrite filter_In, forallb_forall. split; intros [A B]; split; auto.
        - intros l Hl Hlj. specialize (B l ltac:(apply in_seq; lia)). apply orb_true_iff in B as [B|B]; [apply Nat.eqb_eq in B; contradiction|]. now apply negb_true_iff in B.
        - intros l Hl. apply in_seq in Hl. apply orb_true_iff. destruct (Nat.eq_dec l j) as [->|Hlj]; [left; apply Nat.eqb_refl|right]. apply negb_true_iff, B; auto. lia. }
      destruct (argmin j (dummy j) cand) as (p & Hp & Mp). exists p.
      assert (Uj : u@j = z@j) by (rewrite H4, E0; auto).
      assert (LP : length p = m) by (destruct Hp as [<-|Hp]; [apply dummy_len|]; apply C in Hp as [Hp _]; rewrite Forall_forall in WN; apply (WN p Hp)).
      assert (LT : lt z@j p@j).
      { destruct Hp as [<-|Hp]; [rewrite dummy_same by auto; apply Wz; auto|]. apply C in Hp as [Hp1 Hp2].
        destruct (H6 p (or_intror Hp1)) as (l & Hl & A). destruct (Nat.eq_dec l j) as [->|Hlj].
        - rewrite Uj in A. destruct (G p z j) as [B|[B|B]]; [now right|now left|auto|exfalso; apply Hz; now rewrite <- B|exfalso; exact (lt_not_le _ _ B A)|exact B].
        - exfalso. exact (lt_not_le _ _ (Hp2 l Hl Hlj) A). }
      assert (PL : forall l, l < m -> l <> j -> lt p@l u@l).
      { destruct Hp as [<-|Hp]; [|apply C in Hp as [_ Hp]; exact Hp]. intros l Hl Hlj. rewrite dummy_other by auto. rewrite H4 by auto.
        destruct (H3 l Hl) as [->|[<-|I]]; [rewrite dummy_same by auto; auto|apply Wz; auto|]. rewrite Forall_forall in WN. apply (WN _ I); auto. }
      split; [|exact LT]. split.
      - now rewrite replace_length.
      - now rewrite replace_length.
      - intros k Hk. destruct (Nat.eq_dec k j) as [->|Hkj].
        + rewrite replace_same by lia. destruct Hp as [<-|Hp]; [now left|]. apply C in Hp. right. tauto.
        + rewrite replace_other by auto. destruct (H3 k Hk) as [A|[A|A]]; auto. exfalso.
          assert (X := H5 j k Hj Hk (not_eq_sym Hkj)). rewrite E0, A, H4, <- A in X by auto. exact (lt_irrefl _ X).
      - intros k Hk. destruct (Nat.eq_dec k j) as [->|Hkj].
        + rewrite !replace_same by lia. reflexivity.
        + rewrite !replace_other by auto. auto.
      - intros k l Hk Hl Hkl. destruct (Nat.eq_dec l j) as [->|Hlj].
        + rewrite (replace_same j (p@j)) by lia. rewrite replace_other by auto. apply (lt_le_trans _ u@j); [auto|]. rewrite Uj. now apply lt_le.
        + rewrite (replace_other j l) by auto. destruct (Nat.eq_dec k j) as [->|Hkj].
          * rewrite replace_same by lia. auto.
          * rewrite replace_other by auto. auto.
      - intros q Hq. destruct (H6 q (or_intror Hq)) as (l & Hl & A). destruct (Nat.eq_dec l j) as [->|Hlj].
        + destruct (forallb (fun l => (l =? j) || negb (leb u@l q@l)) (seq 0 m)) eqn:F.
          * exists j. split; auto. rewrite replace_same by lia. apply Mp. right. unfold cand. apply filter_In. auto.
          * assert (X : exists l, l < m /\ l <> j /\ le u@l q@l).
            { assert (Y : exists l, In l (seq 0 m) /\ (l =? j) || negb (leb u@l q@l) = false).
              { exact (forallb_false _ _ F). }
              destruct Y as (l & Y1 & Y2). apply in_seq in Y1. apply orb_false_iff in Y2 as [Y2 Y3]. exists l. split; [lia|]. split; [now apply Nat.eqb_neq|].
              unfold le. destruct (leb u@l q@l); auto. }
            destruct X as (l & X1 & X2 & X3). exists l. split; auto. rewrite replace_other by auto. exact X3.
        + exists l. split; auto. rewrite replace_other by auto. exact A.
    Qed.
    Lemma replace_twice {T} j (a b : T) l : replace_at j a (replace_at j b l) = replace_at j a l.
    Proof. revert j; induction l as [|c l IH]; intros [|j]; simpl; f_equal; auto. Qed.
    Lemma replace_id {T} j (a d0 : T) l : nth j l d0 = a -> replace_at j a l = l.
    Proof. revert j; induction l as [|c l IH]; intros [|j]; simpl; intros H; f_equal; auto. Qed.
    Lemma replace_inj {T} j (a : T) l l' k (d0 : T) : k <> j -> replace_at j a l = replace_at j a l' -> nth k l d0 = nth k l' d0.
    Proof. intros Hk E0. rewrite <- (replace_other j k a d0 l Hk), E0. now apply replace_other. Qed.

    (** Two zones that differ in one defining point only are the same. *)
    Lemma same_zone u Z u' Z' j : is_lub N u Z -> is_lub N u' Z' -> j < m -> (forall k, k < m -> k <> j -> Z@@k = Z'@@k) -> (u, Z) = (u', Z').
    Proof.
      intros H H' Hj A.
      assert (Half : forall u Z u' Z', is_lub N u Z -> is_lub N u' Z' -> (forall k, k < m -> k <> j -> Z@@k = Z'@@k) -> le u'@j u@j).
      { clear u Z u' Z' H H' A. intros u Z u' Z' H H' A. destruct (le_or_lt u'@j u@j) as [X|X]; auto. exfalso.
        destruct (lub_def _ _ _ H j Hj) as [D|D].
        - rewrite (lub_u _ _ _ H j Hj), D, dummy_same in X by auto. exact (lt_not_le _ _ X (proj2 (lub_low _ _ _ WN H' j Hj))).
        - apply (free_not _ _ _ (Z@@j) H' D). intros l Hl. destruct (Nat.eq_dec l j) as [->|Hlj].
          + now rewrite <- (lub_u _ _ _ H j Hj).
          + rewrite (lub_u _ _ _ H' l Hl), <- A, <- (lub_u _ _ _ H l Hl) by auto. apply (lub_lt _ _ _ H); auto. }
      assert (Q1 := Half _ _ _ _ H H' A). assert (Q2 := Half _ _ _ _ H' H (fun k a b => eq_sym (A k a b))).
      assert (EZ : Z@@j = Z'@@j).
      { rewrite (lub_u _ _ _ H j Hj), (lub_u _ _ _ H' j Hj) in *. rewrite Forall_forall in WN.
        destruct (lub_def _ _ _ H j Hj) as [D|D], (lub_def _ _ _ H' j Hj) as [D'|D'].
        - congruence.
        - exfalso. rewrite D, dummy_same in Q2 by auto. apply (lt_not_le _ _ (proj2 (proj2 (WN _ D') j Hj)) Q2).
        - exfalso. rewrite D', dummy_same in Q1 by auto. apply (lt_not_le _ _ (proj2 (proj2 (WN _ D) j Hj)) Q1).
        - destruct (G _ _ j (or_intror D) (or_intror D') Hj) as [Y|[Y|Y]]; [exact Y|exfalso; exact (lt_not_le _ _ Y Q1)|exfalso; exact (lt_not_le _ _ Y Q2)]. }
      destruct (lub_ext _ _ _ _ _ H H') as [-> ->]; auto. intros k Hk. destruct (Nat.eq_dec k j) as [->|]; auto.
    Qed.

    Lemma step_good L : good N L -> exists L', compute_local_upper_bounds E leb d m L z = Some L' /\ good (z :: N) L'.
    Proof.
      intros [ND GL]. unfold compute_local_upper_bounds. set (A := filter (contains E leb d m z) L).
      assert (CA : forall u Z, In (u, Z) A <-> is_lub N u Z /\ forall l, l < m -> lt z@l u@l).
      { intros u Z. unfold A. rewrite filter_In, contains_iff, GL. tauto. }
      set (L' := filter (fun uZ => negb (contains E leb d m z uZ)) L ++ flat_map (fun j => map (child E d z j) (filter (add_z E leb d m z j) A)) (seq 0 m)).
      assert (KL : forall u Z, In (u, Z) (filter (fun uZ => negb (contains E leb d m z uZ)) L) <-> is_lub N u Z /\ ~ (forall l, l < m -> lt z@l u@l)).
      { intros u Z. rewrite filter_In, GL, negb_true_iff, <- (contains_iff z u Z). destruct (contains E leb d m z (u, Z)); intuition congruence. }
      assert (CL : forall j w Y, In (w, Y) (map (child E d z j) (filter (add_z E leb d m z j) A)) <->
        exists u Z, is_lub N u Z /\ (forall l, l < m -> lt z@l u@l) /\ (forall k, k < m -> k <> j -> le (Z@@k)@j z@j) /\ w = replace_at j z@j u /\ Y = replace_at j z Z).
      { intros j w Y. rewrite in_map_iff. split.
        - intros ((u & Z) & E0 & I). apply filter_In in I as [I1 I2]. apply CA in I1 as [I1 I3]. assert (I4 := proj1 (add_iff z j u Z) I2). injection E0 as <- <-. exists u, Z. auto.
        - intros (u & Z & B1 & B2 & B3 & -> & ->). exists (u, Z). split; [reflexivity|]. apply filter_In. split; [now apply CA|]. apply (proj2 (add_iff z j u Z)). exact B3. }
      assert (GL' : good (z :: N) L').
      { split.
        - apply NoDup_app_intro.
          + now apply NoDup_filter.
          + assert (Gen : forall js, NoDup js -> (forall j, In j js -> j < m) -> NoDup (flat_map (fun j => map (child E d z j) (filter (add_z E leb d m z j) A)) js)).
            { induction js as [|j js IH]; intros NJ HJ; simpl; [constructor|]. inversion NJ as [|? ? NJ1 NJ2]; subst. apply NoDup_app_intro.
              - assert (Hj : j < m) by (apply HJ; now left).
                assert (NF : NoDup (filter (add_z E leb d m z j) A)) by (apply NoDup_filter, NoDup_filter, ND).
                assert (IF : forall u Z, In (u, Z) (filter (add_z E leb d m z j) A) -> is_lub N u Z) by (intros u Z I; apply filter_In in I as [I _]; apply CA in I; tauto).
                revert NF IF. generalize (filter (add_z E leb d m z j) A) as F. induction F as [|[u Z] F IHF]; intros NF IF; simpl; [constructor|].
                inversion NF as [|? ? NF1 NF2]; subst. constructor; [|apply IHF; auto; intros; apply IF; now right].
                intros I. apply in_map_iff in I as ([u' Z'] & E0 & I). unfold child in E0. simpl in E0. injection E0 as E1 E2.
                assert (X : (u', Z') = (u, Z)); [|rewrite X in I; contradiction].
                apply (same_zone u' Z' u Z j); [apply IF; now right|apply IF; now left|exact Hj|].
                intros k Hk Hkj. apply (replace_inj j z Z' Z k nil Hkj E2).
              - apply IH; auto. intros; apply HJ; now right.
              - intros [w Y] I1 I2. apply CL in I1 as (u & Z & B1 & _ & _ & _ & ->). apply in_flat_map in I2 as (k & Ik & I2).
                apply CL in I2 as (u' & Z' & B1' & B2' & B3' & _ & E0).
                assert (Hj : j < m) by (apply HJ; now left). assert (Hk : k < m) by (apply HJ; now right). assert (Hjk : j <> k) by (intros ->; contradiction).
                assert (X : (replace_at j z Z)@@j = z) by (apply replace_same; rewrite (lub_Zlen _ _ _ B1); auto).
                rewrite E0, replace_other in X by auto. destruct (lub_def _ _ _ B1' j Hj) as [Y|Y]; [|rewrite X in Y; contradiction].
                rewrite X in Y. exact (z_not_dummy j Hj Y). }
            apply Gen; [apply seq_NoDup|]. intros j Hj. apply in_seq in Hj. lia.
          + intros [w Y] I1 I2. apply KL in I1 as [B1 _]. apply in_flat_map in I2 as (j & Ij & I2). apply in_seq in Ij. assert (Hj : j < m) by lia.
            apply CL in I2 as (u & Z & B2 & _ & _ & _ & ->).
            assert (X : (replace_at j z Z)@@j = z) by (apply replace_same; rewrite (lub_Zlen _ _ _ B2); auto).
            destruct (lub_def _ _ _ B1 j Hj) as [Y|Y]; rewrite X in Y; [exact (z_not_dummy j Hj Y)|contradiction].
        - intros w Y. unfold L'. rewrite in_app_iff, KL, in_flat_map. split.
          + intros [[B1 B2]|(j & Ij & I)]; [now apply keep_lub|]. apply in_seq in Ij. apply CL in I as (u & Z & B1 & B2 & B3 & -> & ->). apply child_lub; auto. lia.
          + intros H.
            assert (Cases : forall n, n <= m -> (exists j, j < n /\ Y@@j = z) \/ forall j, j < n -> Y@@j = dummy j \/ In (Y@@j) N).
            { induction n as [|n IHn]; intros Hn; [right; intros; lia|]. destruct IHn as [(j & B1 & B2)|B]; [lia|left; exists j; split; [lia|exact B2]|].
              destruct (lub_def _ _ _ H n ltac:(lia)) as [B1|[B1|B1]].
              - right. intros j Hj. destruct (Nat.eq_dec j n) as [->|]; [now left|apply B; lia].
              - left. exists n. split; [lia|now symmetry].
              - right. intros j Hj. destruct (Nat.eq_dec j n) as [->|]; [now right|apply B; lia]. }
            destruct (Cases m (le_n m)) as [(j & Hj & EJ)|NJ].
            * right. exists j. split; [apply in_seq; lia|]. apply CL. destruct (parent w Y j H Hj EJ) as (p & HP & HL).
              assert (LW := lub_len _ _ _ H). assert (LY := lub_Zlen _ _ _ H). assert (UJ := lub_u _ _ _ H j Hj). rewrite EJ in UJ.
              exists (replace_at j p@j w), (replace_at j p Y). split; [exact HP|]. split; [|split; [|split]].
              -- intros l Hl. destruct (Nat.eq_dec l j) as [->|Hlj]; [rewrite replace_same by lia; exact HL|].
                 rewrite replace_other by auto. rewrite <- EJ. apply (lub_lt _ _ _ H); auto.
              -- intros k Hk Hkj. rewrite replace_other by auto. apply lt_le. rewrite <- UJ. apply (lub_lt _ _ _ H); auto.
              -- rewrite replace_twice. symmetry. apply (replace_id j z@j d w). exact UJ.
              -- rewrite replace_twice. symmetry. apply (replace_id j z nil Y). exact EJ.
            * left. destruct H as [H1 H2 H3 H4 H5 H6]. split.
              -- split; auto. intros p Hp. apply H6. now right.
              -- intros B. destruct (H6 z (or_introl eq_refl)) as (l & Hl & C). exact (lt_not_le _ _ (B l Hl) C). }
      assert (EL : A = [] -> L' = L).
      { intros EA. unfold L'. rewrite EA. simpl.
        assert (X : forall l : list nat, flat_map (fun j => map (child E d z j) []) l = []) by (induction l; simpl; auto). rewrite X, app_nil_r.
        assert (Y : forall l, filter (contains E leb d m z) l = [] -> filter (fun uZ => negb (contains E leb d m z uZ)) l = l).
        { induction l as [|a l IH]; simpl; [reflexivity|]. destruct (contains E leb d m z a) eqn:EC; simpl; [discriminate|]. intros K. now rewrite IH. }
        apply Y. exact EA. }
      destruct A as [|a A'] eqn:EA.
      - exists L. split; [reflexivity|]. rewrite <- EL by reflexivity. exact GL'.
      - destruct (Nat.ltb_spec m 2); [lia|]. exists L'. split; [reflexivity|exact GL'].
    Qed.
  End Step.

  Lemma update_good zs : forall N L, good N L -> Forall wfp N -> Forall wfp zs -> gp (rev zs ++ N) -> NoDup (rev zs ++ N) ->
    exists L', update_bounds E leb d m L zs = Some L' /\ good (rev zs ++ N) L'.
  Proof.
    induction zs as [|z zs IH]; intros N L HG WN Wz G ND; simpl; [eauto|]. inversion Wz as [|? ? W1 W2]; subst. simpl in G, ND. rewrite <- app_assoc in G, ND. simpl in G, ND.
    destruct (step_good N z WN W1) with (L := L) as (L1 & E1 & G1).
    - intros p q l Hp Hq Hl. apply G; auto; apply in_app_iff; right; assumption.
    - apply NoDup_app_r in ND. now inversion ND.
    - exact HG.
    - rewrite E1. destruct (IH (z :: N) L1 G1) as (L' & E' & G'); auto. exists L'. split; auto. rewrite <- app_assoc. exact G'.
  Qed.

  (** ** Zones and cells of a point *)
  Section Point.
    Variables (N : list row) (x : row).
    Hypothesis WN : Forall wfp N.
    Hypothesis G : gp N.
    Hypothesis Hx : forall l, l < m -> le low@l x@l /\ lt x@l top@l.
    Definition covered : Prop := exists p, In p N /\ forall l, l < m -> le p@l x@l.

    Definition chain (n : nat) (Zs : list row) : Prop :=
      length Zs = n /\ (forall j, j < n -> Zs@@j = dummy j \/ In (Zs@@j) N) /\
      (forall j l, j < n -> l < j -> lt (Zs@@j)@l (Zs@@l)@l) /\
      (forall j l, j < n -> j < l < m -> le (Zs@@j)@l x@l) /\
      (forall j q, j < n -> In q N -> (forall l, l < j -> lt q@l (Zs@@l)@l) -> (forall l, j < l < m -> le q@l x@l) -> le (Zs@@j)@j q@j).
    Lemma chain_exists n : n <= m -> exists Zs, chain n Zs.
    Proof.
      induction n as [|n IH]; intros Hn.
      - exists []. repeat split; intros; lia.
      - destruct IH as (Zs & C1 & C2 & C3 & C4 & C5); [lia|].
        set (ok := fun q : row => forallb (fun l => if l <? n then negb (leb (Zs@@l)@l q@l) else (l =? n) || leb q@l x@l) (seq 0 m)).
        assert (OK : forall q, ok q = true <-> (forall l, l < n -> lt q@l (Zs@@l)@l) /\ (forall l, n < l < m -> le q@l x@l)).
        { intros q. unfold ok. rewrite forallb_forall. split.
          - intros H. split; intros l Hl; specialize (H l ltac:(apply in_seq; lia)); destruct (Nat.ltb_spec l n); try lia.
            + now apply negb_true_iff in H.
            + apply orb_true_iff in H as [H|H]; [apply Nat.eqb_eq in H; lia|exact H].
          - intros [A B] l Hl. apply in_seq in Hl. destruct (Nat.ltb_spec l n); [apply negb_true_iff, A; lia|]. apply orb_true_iff.
            destruct (Nat.eq_dec l n) as [->|]; [left; apply Nat.eqb_refl|right; apply B; lia]. }
        destruct (argmin n (dummy n) (filter ok N)) as (p & Hp & Mp). exists (Zs ++ [p]).
        assert (OKP : ok p = true).
        { destruct Hp as [<-|Hp]; [|apply filter_In in Hp; tauto]. apply OK. split; intros l Hl; rewrite dummy_other by lia; [|apply Hx; lia].
          destruct (C2 l Hl) as [->|I]; [rewrite dummy_same by lia; apply low_top; lia|]. rewrite Forall_forall in WN. apply (WN _ I). lia. }
        apply OK in OKP as [OKP1 OKP2].
        assert (A1 : forall j, j < n -> (Zs ++ [p])@@j = Zs@@j) by (intros j Hj; apply app_nth1; lia).
        assert (A2 : (Zs ++ [p])@@n = p) by (rewrite app_nth2 by lia; rewrite C1, Nat.sub_diag; reflexivity).
        split; [rewrite app_length; simpl; lia|]. split; [|split; [|split]].
        + intros j Hj. destruct (Nat.eq_dec j n) as [->|]; [rewrite A2|rewrite A1 by lia; apply C2; lia].
          destruct Hp as [<-|Hp]; [now left|right; apply filter_In in Hp; tauto].
        + intros j l Hj Hl. rewrite (A1 l) by lia. destruct (Nat.eq_dec j n) as [->|]; [rewrite A2; auto|rewrite A1 by lia; apply C3; lia].
        + intros j l Hj Hl. destruct (Nat.eq_dec j n) as [->|]; [rewrite A2; auto|rewrite A1 by lia; apply C4; lia].
        + intros j q Hj Hq B1 B2. destruct (Nat.eq_dec j n) as [->|].
          * rewrite A2. apply Mp. right. apply filter_In. split; auto. apply OK. split; auto. intros l Hl. rewrite <- (A1 l) by lia. apply B1. lia.
          * rewrite A1 by lia. apply C5; auto; [lia|]. intros l Hl. rewrite <- (A1 l) by lia. apply B1. lia.
    Qed.
    (** From the second coordinate on, the chain lies above x; in the first if x is not covered. *)
    Lemma chain_above Zs : chain m Zs -> forall j, j < m -> (j <> 0 \/ ~ covered) -> lt x@j (Zs@@j)@j.
    Proof.
      intros (C1 & C2 & C3 & C4 & C5) j Hj Hc. destruct (le_or_lt (Zs@@j)@j x@j) as [A|A]; auto. exfalso.
      destruct (C2 j Hj) as [D|D].
      - rewrite D, dummy_same in A by auto. exact (lt_not_le _ _ (proj2 (Hx j Hj)) A).
      - destruct j as [|j].
        + destruct Hc as [Hc|Hc]; [lia|]. apply Hc. exists (Zs@@0). split; auto. intros l Hl. destruct l as [|l]; [exact A|apply C4; lia].
        + assert (X := C5 j (Zs@@(S j)) ltac:(lia) D). apply (lt_not_le _ _ (C3 (S j) j Hj ltac:(lia))). apply X.
          * intros l Hl. apply C3; lia.
          * intros l Hl. destruct (Nat.eq_dec l (S j)) as [->|]; [exact A|apply C4; lia].
    Qed.
    Lemma chain_lub Zs : chain m Zs -> is_lub N (map (fun j => (Zs@@j)@j) (seq 0 m)) Zs /\ forall j, j < m -> (map (fun j => (Zs@@j)@j) (seq 0 m))@j = (Zs@@j)@j.
    Proof.
      intros C. assert (C0 := C). destruct C as (C1 & C2 & C3 & C4 & C5). set (u := map (fun j => (Zs@@j)@j) (seq 0 m)).
      assert (U : forall j, j < m -> u@j = (Zs@@j)@j).
      { intros j Hj. unfold u. now rewrite nth_seq_map. }
      split; [|exact U]. split; auto.
      - unfold u. now rewrite map_length, seq_length.
      - intros k l Hk Hl Hkl. rewrite U by assumption. destruct (Nat.lt_ge_cases l k) as [A|A]; [now apply C3|].
        apply (le_lt_trans _ x@l); [apply C4; lia|]. apply chain_above; auto. left. lia.
      - intros p Hp. destruct (le_or_lt (Zs@@(m - 1))@(m - 1) p@(m - 1)) as [A|A]; [exists (m - 1); split; [lia|rewrite U by lia; exact A]|].
        destruct (forallb (fun l => negb (leb u@l p@l)) (seq 0 m)) eqn:F.
        + exfalso. apply (lt_not_le _ _ A). apply C5; auto; [lia| |intros; lia]. intros l Hl. rewrite <- U by lia. rewrite forallb_forall in F. specialize (F l ltac:(apply in_seq; lia)). now apply negb_true_iff in F.
        + assert (Y : exists l, In l (seq 0 m) /\ negb (leb u@l p@l) = false).
          { exact (forallb_false _ _ F). }
          destruct Y as (l & Y1 & Y2). apply in_seq in Y1. exists l. split; [lia|]. apply negb_false_iff in Y2. exact Y2.
    Qed.
    (** Every point that no point of N covers lies in a zone, and only such points. *)
    Lemma in_zone : ~ covered -> exists u Z, is_lub N u Z /\ forall l, l < m -> lt x@l u@l.
    Proof.
      intros NC. destruct (chain_exists m (le_n m)) as (Zs & C). destruct (chain_lub Zs C) as [A B].
      exists (map (fun j => (Zs@@j)@j) (seq 0 m)), Zs. split; [exact A|]. intros l Hl. rewrite B by assumption. apply chain_above; auto.
    Qed.
    Lemma zone_free u Z : is_lub N u Z -> (forall l, l < m -> lt x@l u@l) -> ~ covered.
    Proof.
      intros H A (p & Hp & B). apply (free_not N u Z p H Hp). intros l Hl. apply (le_lt_trans _ x@l); auto.
    Qed.
    (** The cell of a zone (Equation 2 of Lacour et al.). *)
    Definition cell (u : row) (Z : list row) : Prop :=
      le (Z@@0)@0 x@0 /\ lt x@0 top@0 /\ forall j, 1 <= j < m -> (forall k, k < j -> le (Z@@k)@j x@j) /\ lt x@j u@j.
    Lemma in_cell : covered -> exists u Z, is_lub N u Z /\ cell u Z.
    Proof.
      intros (p & Hp & A). destruct (chain_exists m (le_n m)) as (Zs & C). destruct (chain_lub Zs C) as [L B].
      exists (map (fun j => (Zs@@j)@j) (seq 0 m)), Zs. split; [exact L|]. assert (C0 := C). destruct C as (C1 & C2 & C3 & C4 & C5). split; [|split].
      - apply (trans _ p@0); [|apply A; lia]. apply C5; auto; [lia|intros; lia|]. intros l Hl. apply A. lia.
      - apply Hx. lia.
      - intros j Hj. split; [intros k Hk; apply C4; lia|]. rewrite B by lia. apply chain_above; auto; lia.
    Qed.
    Lemma cell_covered u Z : is_lub N u Z -> cell u Z -> covered.
    Proof.
      intros H (A & B & C). destruct (lub_def _ _ _ H 0 ltac:(lia)) as [D|D].
      - exfalso. rewrite D, dummy_same in A by lia. exact (lt_not_le _ _ B A).
      - exists (Z@@0). split; auto. intros l Hl. destruct l as [|l]; [exact A|]. apply (C (S l)); lia.
    Qed.
    Lemma cell_unique u Z u' Z' : is_lub N u Z -> is_lub N u' Z' -> cell u Z -> cell u' Z' -> (u, Z) = (u', Z').
    Proof.
      intros H H' C C'.
      assert (Half : forall u Z u' Z' j, is_lub N u Z -> is_lub N u' Z' -> cell u Z -> cell u' Z' -> j < m -> (forall k, k < j -> Z@@k = Z'@@k) -> le u'@j u@j).
      { clear u Z u' Z' H H' C C'. intros u Z u' Z' j H H' C C' Hj A. destruct (le_or_lt u'@j u@j) as [X|X]; auto. exfalso.
        destruct (lub_def _ _ _ H j Hj) as [D|D].
        - rewrite (lub_u _ _ _ H j Hj), D, dummy_same in X by auto. exact (lt_not_le _ _ X (proj2 (lub_low _ _ _ WN H' j Hj))).
        - apply (free_not _ _ _ (Z@@j) H' D). intros l Hl. destruct (Nat.lt_trichotomy l j) as [B|[->|B]].
          + rewrite (lub_u _ _ _ H' l Hl), <- A, <- (lub_u _ _ _ H l Hl) by auto. apply (lub_lt _ _ _ H); auto. lia.
          + now rewrite <- (lub_u _ _ _ H j Hj).
          + destruct C as (_ & _ & C). destruct C' as (_ & _ & C'). apply (le_lt_trans _ x@l); [apply (C l); lia|apply (C' l); lia]. }
      assert (EQ : forall n, n <= m -> forall j, j < n -> Z@@j = Z'@@j).
      { induction n as [|n IH]; intros Hn j Hj; [lia|]. destruct (Nat.eq_dec j n) as [->|]; [|apply IH; lia].
        assert (A : forall k, k < n -> Z@@k = Z'@@k) by (intros k Hk; apply IH; lia). assert (Hj' : n < m) by lia.
        assert (Q1 := Half _ _ _ _ n H H' C C' Hj' A). assert (Q2 := Half _ _ _ _ n H' H C' C Hj' (fun k a => eq_sym (A k a))).
        rewrite (lub_u _ _ _ H n Hj'), (lub_u _ _ _ H' n Hj') in *. rewrite Forall_forall in WN.
        destruct (lub_def _ _ _ H n Hj') as [D|D], (lub_def _ _ _ H' n Hj') as [D'|D'].
        - congruence.
        - exfalso. rewrite D, dummy_same in Q2 by auto. apply (lt_not_le _ _ (proj2 (proj2 (WN _ D') n Hj')) Q2).
        - exfalso. rewrite D', dummy_same in Q1 by auto. apply (lt_not_le _ _ (proj2 (proj2 (WN _ D) n Hj')) Q1).
        - destruct (G _ _ n D D' Hj') as [Y|[Y|Y]]; [exact Y|exfalso; exact (lt_not_le _ _ Y Q1)|exfalso; exact (lt_not_le _ _ Y Q2)]. }
      destruct (lub_ext _ _ _ _ _ H H') as [-> ->]; auto. intros j Hj. apply (EQ m); auto.
    Qed.
  End Point.
End Order.
