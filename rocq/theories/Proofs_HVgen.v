(** The dimension sweep with any number of objectives: the cached areas and volumes that are read, and the nodes that are
    skipped (C220). *)
From Coq Require Import List Bool Arith ZArith QArith Permutation Sorted Lia Lqa Setoid.
From Verif Require Import Lib_List Model_Pareto Model_HV Spec_HV Proofs_HVmeasure Proofs_HVdom Proofs_HV Proofs_HVlevel.
Import ListNotations.
Open Scope nat_scope.

(** * Lists *)
Definition prec (l : list nat) (a b : nat) : Prop := exists U V, l = U ++ b :: V /\ In a U.
Lemma split_unique (x : nat) : forall A B A' B', NoDup (A ++ x :: B) -> A ++ x :: B = A' ++ x :: B' -> A = A' /\ B = B'.
Proof.
  induction A as [|a A IH]; intros B [|a' A'] B' ND E; simpl in *.
  - injection E as ->. auto.
  - injection E as <- ->. inversion ND as [|? ? N _]. exfalso. apply N, in_or_app. right. now left.
  - injection E as -> <-. inversion ND as [|? ? N _]. exfalso. apply N, in_or_app. right. now left.
  - injection E as <- E. inversion ND. destruct (IH B A' B') as [-> ->]; auto.
Qed.
Lemma split_app (x : nat) : forall A B U W, A ++ x :: B = U ++ W ->
  (exists B', U = A ++ x :: B' /\ B = B' ++ W) \/ (exists A', W = A' ++ x :: B /\ A = U ++ A').
Proof.
  induction A as [|a A IH]; intros B [|u U] W E; simpl in *.
  - right. exists []. auto.
  - injection E as <- E. left. exists U. auto.
  - right. exists (a :: A). auto.
  - injection E as <- E. destruct (IH B U W E) as [[B' [-> ->]]|[A' [-> ->]]]; [left|right]; eexists; split; reflexivity.
Qed.
Lemma prec_neq l a b : NoDup l -> prec l a b -> a <> b.
Proof. intros ND [U [V [-> I]]] ->. exact (NoDup_app_dis _ _ b ND I (or_introl eq_refl)). Qed.

Section Gen.
Variables (n m : nat) (data : nat -> nat -> Q).
Variables (G : nat -> list Q) (ref : nat -> Q) (y : nat -> nat -> Q).
Variable O : nat -> list nat.
Hypothesis HD : forall x k, data x k = (ref k - y x k)%Q.
Notation mes := (mes G ref y).
Notation remove := (remove m data).
Notation reinsert := (reinsert m data).
Notation linked := (linked n).
Notation before := (before data).
Notation act := (act O).
Notation nodes := (nodes n).
Notation links := (links n O).
Notation removes := (removes m data).
Hypothesis HO : forall k, k < m -> Permutation (O k) (seq 0 n) /\ StronglySorted (before k) (O k).
Hypothesis HG : forall k, k < m -> lines G ref k /\ forall x, x < n -> fine G ref y k x.
(** Every point is better than the reference point in every objective. *)
Hypothesis HS : forall x k, x < n -> k < m -> (ref k < y x k)%Q.
(** A point that is not better than another one in the first g objectives and comes after it in list g comes after it in the lists
    from 2 on, too. *)
Hypothesis HC : forall j g p x, 2 <= j -> j <= g -> g < m -> p < n -> x < n -> (forall k, k < g -> (data p k <= data x k)%Q) ->
  prec (O g) p x -> prec (O j) p x.

Lemma act_ext k T T' : (forall x, In x T <-> In x T') -> act k T = act k T'.
Proof.
  intros H. unfold Proofs_HVlevel.act. apply filter_ext. intros x. apply eq_true_iff_eq. rewrite !mem_In. apply H.
Qed.
Lemma act_act k j T : k < m -> nodes T -> act j (act k T) = act j T.
Proof. intros Hk HT. apply act_ext. intros x. now apply (act_In n m data O HO). Qed.
Lemma filter_all (p : nat -> bool) l : (forall x, In x l -> p x = true) -> filter p l = l.
Proof. induction l as [|a l IH]; intros H; [reflexivity|]. simpl. rewrite (H a (or_introl eq_refl)). f_equal. apply IH. intros; apply H; now right. Qed.
Lemma filter_none (p : nat -> bool) l : (forall x, In x l -> p x = false) -> filter p l = [].
Proof. induction l as [|a l IH]; intros H; [reflexivity|]. simpl. rewrite (H a (or_introl eq_refl)). apply IH. intros; apply H; now right. Qed.
Lemma act_prefix k T U W : k < m -> nodes T -> act k T = U ++ W -> act k U = U.
Proof.
  intros Hk HT E. transitivity (filter (fun x => existsb (Nat.eqb x) U) (act k T)).
  - unfold Proofs_HVlevel.act.
    assert (F : forall l, filter (fun x => existsb (Nat.eqb x) U) (filter (fun x => existsb (Nat.eqb x) T) l) = filter (fun x => existsb (Nat.eqb x) U) l).
    { induction l as [|a l IH]; [reflexivity|]. simpl. destruct (existsb (Nat.eqb a) T) eqn:Ea; simpl; [now rewrite IH|].
      destruct (existsb (Nat.eqb a) U) eqn:Eu; [|exact IH]. exfalso. apply mem_In in Eu.
      assert (Ia : In a (act k T)) by (rewrite E; apply in_or_app; now left). apply (act_In n m data O HO k T a Hk HT), mem_In in Ia. congruence. }
    symmetry. apply F.
  - rewrite E. pose proof (act_nodes n m data O HO k T Hk HT) as [ND _]. rewrite E in ND. rewrite filter_app.
    rewrite (filter_all _ U), (filter_none _ W), app_nil_r; [reflexivity| |].
    + intros x Hx. destruct (existsb _ U) eqn:Ex; [|reflexivity]. apply mem_In in Ex. exfalso. exact (NoDup_app_dis _ _ x ND Ex Hx).
    + intros x Hx. now apply mem_In.
Qed.
(** A node that comes before another one in list k. *)
Lemma prec_act k T U x W w : k < m -> nodes T -> act k T = U ++ x :: W -> prec (O k) w x -> In w T -> In w U.
Proof.
  intros Hk HT E [U' [V' [EO I]]] Hw. pose proof (act_nodes n m data O HO k T Hk HT) as [ND _].
  assert (Hx : In x T) by (apply (act_In n m data O HO k T x Hk HT); rewrite E; apply in_or_app; right; now left).
  assert (E' : act k T = filter (fun z => existsb (Nat.eqb z) T) U' ++ x :: filter (fun z => existsb (Nat.eqb z) T) V').
  { unfold Proofs_HVlevel.act. rewrite EO, filter_app. simpl filter. now rewrite (proj2 (mem_In x T) Hx). }
  rewrite E in ND. rewrite E in E'. destruct (split_unique _ _ _ _ _ ND E') as [-> _]. apply filter_In. split; [exact I|]. now apply mem_In.
Qed.
Lemma act_prec k T U x W w : k < m -> nodes T -> act k T = U ++ x :: W -> In w U -> prec (O k) w x.
Proof.
  intros Hk HT E Hw. assert (Hx : In x (O k)). { assert (I : In x (act k T)) by (rewrite E; apply in_or_app; right; now left). apply filter_In in I. apply I. }
  apply in_split in Hx. destruct Hx as [U' [V' EO]]. exists U', V'. split; [exact EO|].
  pose proof (act_nodes n m data O HO k T Hk HT) as [ND _].
  assert (Hx : In x T) by (apply (act_In n m data O HO k T x Hk HT); rewrite E; apply in_or_app; right; now left).
  assert (E' : act k T = filter (fun z => existsb (Nat.eqb z) T) U' ++ x :: filter (fun z => existsb (Nat.eqb z) T) V').
  { unfold Proofs_HVlevel.act. rewrite EO, filter_app. simpl filter. now rewrite (proj2 (mem_In x T) Hx). }
  rewrite E in ND. rewrite E in E'. destruct (split_unique _ _ _ _ _ ND E') as [-> _]. apply filter_In in Hw. apply Hw.
Qed.

(** * The invariants *)
(** The cached area and volume of node x in dimension k, when A is before x in list k. *)
Definition valid (st : mlist) (k : nat) (A : list nat) (x : nat) : Prop :=
  (ar st x k == mes k (A ++ [x]))%Q /\ (vol st x k == mes (S k) (A ++ [x]) + mes k (A ++ [x]) * data x k)%Q.
(** The nodes below the bound of dimension k are valid. *)
Definition cached (st : mlist) (k : nat) (T : list nat) : Prop :=
  forall A x B b, act k T = A ++ x :: B -> bd st k = Some b -> (data x k < b)%Q -> valid st k A x.
(** The nodes that are skipped from dimension i on are covered by another one. *)
Definition covers (g p x : nat) : Prop := (forall k, k < g -> (data p k <= data x k)%Q) /\ prec (O g) p x.
Definition skips (i : nat) (T : list nat) (st : mlist) : Prop :=
  forall x, In x T -> i <= ign st x -> ign st x < m /\ exists p, In p T /\ covers (ign st x) p x.

Lemma valid_eq st st' k A x : ar st' x k = ar st x k -> vol st' x k = vol st x k -> valid st k A x -> valid st' k A x.
Proof. unfold valid. intros -> ->. auto. Qed.
Lemma cached_eq st st' k T : bd st' k = bd st k -> (forall x, ar st' x k = ar st x k /\ vol st' x k = vol st x k) -> cached st k T -> cached st' k T.
Proof. intros E1 E2 H A x B b EA Eb L. rewrite E1 in Eb. apply (valid_eq st); [apply E2|apply E2|]. exact (H A x B b EA Eb L). Qed.
Lemma minb_some b q v : minb b q = Some v -> exists w, b = Some w /\ (v <= w)%Q /\ (v <= q)%Q.
Proof.
  destruct b as [w|]; [|discriminate]. simpl. destruct (Qle_bool w q) eqn:E; intros K; injection K as <-; exists w; (split; [reflexivity|]).
  - apply Qle_bool_iff in E. split; lra.
  - apply Qle_bool_false in E. split; lra.
Qed.
Lemma sorted_after k U x W z : StronglySorted (before k) (U ++ x :: W) -> In z W -> (data x k <= data z k)%Q.
Proof.
  induction U as [|u U IH]; simpl; intros H Hz; inversion H as [|? ? H1 H2]; subst; [|exact (IH H1 Hz)].
  rewrite Forall_forall in H2. exact (H2 z Hz).
Qed.
Lemma cached_remove st k T x i : k < m -> nodes (T ++ [x]) -> cached st k (T ++ [x]) -> cached (remove st x i) k T.
Proof.
  intros Hk HT H A z B b EA Eb L. destruct (remove_rest m data st x i) as [_ [E2 [E3 E4]]]. rewrite E4, (proj2 (Nat.ltb_lt k m) Hk) in Eb.
  apply minb_some in Eb. destruct Eb as [w [Ew [L1 L2]]]. apply (valid_eq st); [now rewrite E2|now rewrite E3|].
  destruct (act_snoc n m data O HO k T x Hk HT) as [U [W [F1 F2]]]. rewrite F2 in EA. symmetry in EA.
  destruct (split_app z A B U W EA) as [[B' [-> ->]]|[A' [-> ->]]].
  - apply (H A z (B' ++ x :: W) w); [rewrite F1, <- app_assoc; reflexivity|exact Ew|lra].
  - exfalso. pose proof (act_sorted n m data O HO k (T ++ [x]) Hk) as SS. rewrite F1 in SS.
    pose proof (sorted_after k U x _ z SS ltac:(apply in_or_app; right; now left)). lra.
Qed.
Lemma cached_reinsert st k T x i : k < m -> nodes (T ++ [x]) -> cached st k T -> cached (reinsert st x i) k (T ++ [x]).
Proof.
  intros Hk HT H A z B b EA Eb L. destruct (reinsert_rest m data st x i) as [_ [E2 [E3 E4]]]. rewrite E4, (proj2 (Nat.ltb_lt k m) Hk) in Eb.
  apply minb_some in Eb. destruct Eb as [w [Ew [L1 L2]]]. apply (valid_eq st); [now rewrite E2|now rewrite E3|].
  destruct (act_snoc n m data O HO k T x Hk HT) as [U [W [F1 F2]]]. pose proof EA as EA'. rewrite F1 in EA'. symmetry in EA'.
  destruct (split_app z A B U (x :: W) EA') as [[B' [-> ->]]|[A' [EW ->]]].
  - apply (H A z (B' ++ W) w); [rewrite F2, <- app_assoc; reflexivity|exact Ew|lra].
  - exfalso. pose proof (act_sorted n m data O HO k (T ++ [x]) Hk) as SS. rewrite F1 in SS.
    assert (Iz : In z (x :: W)) by (rewrite EW; apply in_or_app; right; now left). destruct Iz as [<-|Iz]; [lra|].
    pose proof (sorted_after k U x _ z SS Iz). lra.
Qed.
Lemma cached_removes B : forall st k T i, k < m -> nodes (T ++ B) -> cached st k (T ++ B) -> cached (removes st (rev B) i) k T.
Proof.
  induction B as [|x B IH] using rev_ind; intros st k T i Hk HT H; [now rewrite app_nil_r in H|].
  rewrite removes_snoc. rewrite app_assoc in HT, H. apply IH; [exact Hk|exact (nodes_app_l n _ _ HT)|]. now apply cached_remove.
Qed.
Lemma cached_ext st k T T' : (forall x, In x T <-> In x T') -> cached st k T -> cached st k T'.
Proof. intros H K A x B b EA. rewrite <- (act_ext k T T' H) in EA. exact (K A x B b EA). Qed.
Lemma skips_ext i T T' st : (forall x, In x T <-> In x T') -> skips i T st -> skips i T' st.
Proof. intros H K x Hx Hi. apply H in Hx. destruct (K x Hx Hi) as [L [p [Ip C]]]. split; [exact L|]. exists p. split; [now apply H|exact C]. Qed.

(** What a call in dimension j leaves behind. *)
Definition post (j : nat) (T : list nat) (st st' : mlist) : Prop :=
  leq st' st /\ skips j T st' /\ (forall k, 2 <= k <= j -> cached st' k T) /\
  (forall x k, j < k -> ar st' x k = ar st x k /\ vol st' x k = vol st x k) /\
  (forall z, ~ In z T -> ign st' z = ign st z) /\ (forall k, ar st' n k = ar st n k).

Lemma covered_eq k A p x : In p A -> (forall j, j < k -> (data p j <= data x j)%Q) -> (mes k (A ++ [x]) == mes k A)%Q.
Proof. intros Hp H. apply (mes_dominated G ref y k A p x Hp). intros j Hj. specialize (H j Hj). rewrite !HD in H. lra. Qed.
Lemma covered_le k A x : k <= m -> x < n -> (mes k (A ++ [x]) <= mes k A)%Q -> exists p, In p A /\ forall j, j < k -> (data p j <= data x j)%Q.
Proof.
  intros Hk Hx L. destruct (mes_covered G ref y k A x) as [p [Ip Hp]]; [|exact L|].
  - intros j Hj. destruct (HG j ltac:(lia)) as [K1 K2]. split; [exact K1|]. split; [apply K2, Hx|apply HS; lia].
  - exists p. split; [exact Ip|]. intros j Hj. specialize (Hp j Hj). rewrite !HD. lra.
Qed.

(** * One level *)
Section PutBack.
Variables (rec : nat -> mlist -> option (Q * mlist)) (i : nat) (L : list nat) (st0 : mlist).
Hypothesis Hi : 2 <= i < m.
Hypothesis HL : nodes L.
Hypothesis HLi : act i L = L.
Hypothesis Lk : linked st0 i L.
Hypothesis Lks : links st0 i L.
Hypothesis Hrec : forall st T, T <> [] -> nodes T -> links st i T -> skips (i - 1) T st ->
  (2 <= length T -> forall k, 2 <= k < i -> cached st k T) -> (forall k, ar st n k == 0)%Q ->
  exists v st', rec (length T) st = Some (v, st') /\ (v == mes i T)%Q /\ post (i - 1) T st st'.

Lemma L_sorted : StronglySorted (before i) L.
Proof. rewrite <- HLi. apply (act_sorted n m data O HO). lia. Qed.

Lemma area_gen st A q B : A ++ q :: B = L -> links st i (A ++ [q]) -> pv st i q = last (n :: A) n ->
  skips (i - 1) (A ++ [q]) st -> (A <> [] -> forall k, 2 <= k < i -> cached st k (A ++ [q])) ->
  (forall A0 r, A = A0 ++ [r] -> ar st r i == mes i A)%Q -> (forall k, ar st n k == 0)%Q ->
  exists st', area_of rec i (length (A ++ [q])) st q = Some st' /\ leq st' st /\ (ar st' q i == mes i (A ++ [q]))%Q /\
    skips (i - 1) (A ++ [q]) st' /\ (forall k, 2 <= k < i -> cached st' k (A ++ [q])) /\
    (forall x k, i <= k -> (x <> q \/ k <> i) -> ar st' x k = ar st x k) /\ (forall x k, i <= k -> vol st' x k = vol st x k) /\
    (forall z, ~ In z (A ++ [q]) -> ign st' z = ign st z) /\ (forall k, ar st' n k = ar st n k).
Proof.
  intros EL Ls Ep Hk Hc Ha Hn. unfold area_of.
  assert (EA : act i L = A ++ q :: B) by (rewrite HLi; now symmetry).
  assert (EL1 : (A ++ [q]) ++ B = L) by (rewrite <- app_assoc; exact EL).
  assert (NT : nodes (A ++ [q])) by (rewrite <- EL1 in HL; exact (nodes_app_l n _ _ HL)).
  assert (Iq : In q (A ++ [q])) by (apply in_or_app; right; now left).
  assert (Hq : q < n) by (now apply NT).
  destruct (Nat.leb_spec i (ign st q)) as [Lq|Lq].
  - destruct (Hk q Iq ltac:(lia)) as [Lm [p [Ip [C1 C2]]]].
    assert (IpA : In p A).
    { apply in_app_or in Ip. destruct Ip as [Ip|[<-|[]]]; [exact Ip|]. exfalso.
      exact (prec_neq _ q q (proj1 (proj1 (O_nodes n m data O HO _ Lm))) C2 eq_refl). }
    assert (NA : A <> []) by (intros ->; destruct IpA).
    destruct (exists_last NA) as [A0 [r Er]].
    eexists. split; [reflexivity|]. split; [intros k z; now split|]. split; [|split; [|split; [|split; [|split; [|split]]]]].
    + simpl. unfold upd2, upd. rewrite !Nat.eqb_refl. rewrite Ep, Er. change (n :: A0 ++ [r]) with ((n :: A0) ++ [r]). rewrite last_last.
      rewrite (Ha A0 r Er), <- Er. symmetry. apply (covered_eq i A p q IpA). intros j Hj. apply C1. lia.
    + exact Hk.
    + intros k Kk. apply (cached_eq st); [reflexivity| |exact (Hc NA k Kk)]. intros x. split; [|reflexivity]. simpl. unfold upd2, upd.
      destruct (x =? q) eqn:E; [|reflexivity]. rewrite (proj2 (Nat.eqb_neq k i)) by lia. apply Nat.eqb_eq in E. now rewrite E.
    + intros x k Kk [N|N]; simpl; unfold upd2, upd; [now rewrite (proj2 (Nat.eqb_neq x q) N)|].
      destruct (x =? q) eqn:E; [|reflexivity]. rewrite (proj2 (Nat.eqb_neq k i) N). apply Nat.eqb_eq in E. now rewrite E.
    + reflexivity.
    + reflexivity.
    + intros k. simpl. unfold upd2, upd. rewrite (proj2 (Nat.eqb_neq n q)) by lia. reflexivity.
  - destruct (Hrec st (A ++ [q])) as [v [st1 [R1 [R2 [P1 [P2 [P3 [P4 [P5 P6]]]]]]]]]; [destruct A; discriminate|exact NT|exact Ls|exact Hk| |exact Hn|].
    { intros Len. apply Hc. intros ->. simpl in Len. lia. }
    rewrite R1. set (st2 := set_ar st1 q i v).
    assert (Eq : ar st2 q i = v) by (simpl; unfold upd2, upd; now rewrite !Nat.eqb_refl).
    assert (Eo : forall x k, (x <> q \/ k <> i) -> ar st2 x k = ar st1 x k).
    { intros x k [N|N]; simpl; unfold upd2, upd; [now rewrite (proj2 (Nat.eqb_neq x q) N)|].
      destruct (x =? q) eqn:E; [|reflexivity]. rewrite (proj2 (Nat.eqb_neq k i) N). apply Nat.eqb_eq in E. now rewrite E. }
    assert (Epv : pv st2 i q = last (n :: A) n) by (change (pv st2 i q) with (pv st1 i q); rewrite (proj2 (P1 i q)); exact Ep).
    set (c := Qle_bool (ar st2 q i) (ar st2 (pv st2 i q) i)).
    eexists. split; [reflexivity|]. fold c.
    set (st3 := if c then set_ign st2 q i else st2).
    assert (S3 : nx st3 = nx st1 /\ pv st3 = pv st1 /\ ar st3 = ar st2 /\ vol st3 = vol st1 /\ bd st3 = bd st1) by (unfold st3; destruct c; repeat split).
    destruct S3 as [S1 [S2 [S4 [S5 S6]]]].
    split; [intros k z; rewrite S1, S2; apply P1|]. split; [rewrite S4, Eq; exact R2|].
    split; [|split; [|split; [|split; [|split]]]].
    + unfold st3. destruct c eqn:Ec; [|exact P2]. intros x Hx Lx.
      change (ign (set_ign st2 q i) x) with (upd (ign st1) q i x) in Lx |- *. unfold upd in *. destruct (Nat.eqb_spec x q) as [->|N]; [|exact (P2 x Hx Lx)].
      split; [lia|]. unfold c in Ec. apply Qle_bool_iff in Ec. rewrite Eq, Epv in Ec.
      assert (LE : (mes i (A ++ [q]) <= mes i A)%Q).
      { destruct A as [|a A'].
        - simpl last in Ec. rewrite Eo in Ec by (left; lia). rewrite P6, Hn in Ec. rewrite R2 in Ec. rewrite (mes_nil G ref y i). exact Ec.
        - assert (NA : a :: A' <> []) by discriminate. destruct (exists_last NA) as [A0 [r Er]]. rewrite Er in Ec.
          change (n :: A0 ++ [r]) with ((n :: A0) ++ [r]) in Ec. rewrite last_last in Ec.
          assert (rq : r <> q). { intros ->. destruct NT as [ND _]. rewrite Er in ND. apply (NoDup_app_dis _ _ q ND); [apply in_or_app; right|]; now left. }
          rewrite Eo in Ec by (now left). rewrite (proj1 (P4 r i ltac:(lia))), (Ha A0 r Er), R2 in Ec. exact Ec. }
      destruct (covered_le i A q ltac:(lia) Hq LE) as [p [Ip Cp]]. exists p. split; [apply in_or_app; now left|]. split; [exact Cp|].
      exact (act_prec i L A q B p ltac:(lia) HL EA Ip).
    + intros k Kk. apply (cached_eq st1); [now rewrite S6| |apply P3; lia]. intros x. rewrite S4, S5. split; [|reflexivity]. apply Eo. right. lia.
    + intros x k Kk N. rewrite S4, (Eo x k N). apply P4. lia.
    + intros x k Kk. rewrite S5. apply P4. lia.
    + intros z Hz. rewrite <- (P5 z Hz). unfold st3. destruct c; [|reflexivity]. simpl. unfold upd.
      destruct (Nat.eqb_spec z q) as [->|N]; [contradiction|reflexivity].
    + intros k. rewrite S4, Eo by (left; lia). apply P6.
Qed.

Definition waits (st : mlist) (z : nat) : Prop :=
  ign st z < i - 1 \/ (i <= ign st z < m /\ exists w, In w L /\ covers (ign st z) w z).

Lemma put_back_gen : forall B A q st fuel hvol, A ++ q :: B = L -> length B < fuel -> leq st (removes st0 (rev B) i) ->
  (forall A1 x A2, A ++ [q] = A1 ++ x :: A2 -> valid st i A1 x) ->
  (hvol == mes (S i) (A ++ [q]) + mes i (A ++ [q]) * data q i)%Q ->
  (forall k, 2 <= k < i -> cached st k (A ++ [q])) -> skips (i - 1) (A ++ [q]) st -> (forall z, In z B -> waits st z) ->
  (forall k, ar st n k == 0)%Q ->
  exists v q' st', put_back n m data rec fuel i st (hd n B) q (length A + 1) hvol = Some (v, q', st') /\ q' < n /\
    (v - ar st' q' i * data q' i == mes (S i) L)%Q /\ leq st' st0 /\ skips (i - 1) L st' /\
    (forall k, 2 <= k < i -> cached st' k L) /\ (forall A1 x A2, L = A1 ++ x :: A2 -> valid st' i A1 x) /\
    (forall x k, i < k -> ar st' x k = ar st x k /\ vol st' x k = vol st x k) /\
    (forall z, ~ In z L -> ign st' z = ign st z) /\ (forall k, ar st' n k = ar st n k).
Proof.
  induction B as [|p B IH]; intros A q st fuel hvol EL Hf El Hv EV Hc Hk Hw Hn; (destruct fuel as [|fuel]; [simpl in Hf; lia|]);
    assert (Hq : q < n) by (apply HL; rewrite <- EL; apply in_or_app; right; now left);
    destruct (Hv A q [] eq_refl) as [Ea _].
  - cbn [put_back hd]. rewrite Nat.eqb_refl. eexists _, _, _. split; [reflexivity|]. split; [exact Hq|].
    split; [rewrite EV, Ea, EL; ring|]. rewrite EL in *. split; [exact El|]. split; [exact Hk|]. split; [exact Hc|]. split; [exact Hv|]. auto.
  - assert (Hp : p < n) by (apply HL; rewrite <- EL; apply in_or_app; right; right; now left).
    cbn [put_back hd]. rewrite (proj2 (Nat.eqb_neq p n)) by lia. rewrite (get_ok n data p i Hp), (get_ok n data q i Hq).
    assert (EL' : (A ++ [q]) ++ p :: B = L) by (rewrite <- app_assoc; exact EL).
    assert (EL2 : (A ++ [q; p]) ++ B = L) by (rewrite <- app_assoc; exact EL).
    assert (NP : nodes (A ++ [q; p])) by (rewrite <- EL2 in HL; exact (nodes_app_l n _ _ HL)).
    assert (App : (A ++ [q]) ++ [p] = A ++ [q; p]) by (rewrite <- app_assoc; reflexivity).
    set (st1 := removes st0 (rev B) i) in *.
    assert (Lk1 : links st1 i (A ++ [q; p])).
    { apply (links_removes n m data O HO); [lia|now rewrite EL2|now rewrite EL2]. }
    rewrite removes_cons in El. fold st1 in El.
    set (st2 := set_bd st i (Some (data p i))).
    assert (E2 : leq (reinsert st2 p i) st1).
    { apply dance; [|exact El]. rewrite <- App in Lk1, NP. exact (proj2 (links_remove n m data O HO st1 i (A ++ [q]) p ltac:(lia) NP Lk1)). }
    destruct (reinsert_rest m data st2 p i) as [R1 [R2 [R3 R4]]].
    set (st3 := reinsert st2 p i) in *.
    assert (Enx : nx st3 i p = hd n B).
    { rewrite (proj1 (E2 i p)). unfold st1. rewrite (proj1 (removes_above m data st0 (rev B) i i (le_n i) p)). rewrite <- hd_snoc.
      pose proof (NoDup_sent n _ HL) as ND. rewrite <- EL' in ND. pose proof Lk as Lk'. rewrite <- EL' in Lk'. exact (proj2 (proj2 (linked_in n data st0 i (A ++ [q]) p B ND Lk'))). }
    assert (Epv : pv st3 i p = last (n :: A ++ [q]) n).
    { rewrite (proj2 (E2 i p)). unfold st1. rewrite (proj2 (removes_above m data st0 (rev B) i i (le_n i) p)).
      pose proof (NoDup_sent n _ HL) as ND. rewrite <- EL' in ND. pose proof Lk as Lk'. rewrite <- EL' in Lk'. exact (proj1 (proj2 (linked_in n data st0 i (A ++ [q]) p B ND Lk'))). }
    rewrite Enx. set (hv' := (hvol + ar st q i * (data p i - data q i))%Q). set (st4 := set_vol st3 p i hv').
    assert (I4 : ign st4 = ign st) by exact R1.
    assert (A4 : ar st4 = ar st) by exact R2.
    assert (V4 : forall x k, (x <> p \/ k <> i) -> vol st4 x k = vol st x k).
    { intros x k N. change (vol st) with (vol st2). rewrite <- R3. simpl. unfold upd2, upd. destruct N as [N|N]; [now rewrite (proj2 (Nat.eqb_neq x p) N)|].
      destruct (x =? p) eqn:E; [|reflexivity]. rewrite (proj2 (Nat.eqb_neq k i) N). apply Nat.eqb_eq in E. now rewrite E. }
    assert (V4p : vol st4 p i = hv') by (simpl; unfold upd2, upd; now rewrite !Nat.eqb_refl).
    assert (E4 : leq st4 st1) by (intros k z; exact (E2 k z)).
    assert (pA : ~ In p (A ++ [q])).
    { intros I. rewrite <- EL' in HL. destruct HL as [ND _]. exact (NoDup_app_dis _ _ p ND I (or_introl eq_refl)). }
    assert (EVp : (hv' == mes (S i) (A ++ [q; p]) + mes i (A ++ [q; p]) * data p i)%Q).
    { unfold hv'. rewrite (vol_step n m data G ref y HD HG i A q p ltac:(lia) NP), <- EV, Ea; [reflexivity|].
      intros z Hz. pose proof L_sorted as Hs. rewrite <- EL' in Hs. exact (sorted_split data i _ p B z Hs Hz). }
    assert (C4 : forall k, 2 <= k < i -> cached st4 k ((A ++ [q]) ++ [p])).
    { intros k Kk. apply (cached_eq st3); [reflexivity| |].
      - intros x. split; [reflexivity|]. rewrite V4 by (right; lia). now rewrite R3.
      - apply cached_reinsert; [lia|now rewrite App|]. apply (cached_eq st); [|intros x; now split|now apply Hc].
        simpl. unfold upd. now rewrite (proj2 (Nat.eqb_neq k i)) by lia. }
    assert (K4 : skips (i - 1) ((A ++ [q]) ++ [p]) st4).
    { intros x Hx Lx. rewrite I4 in *. apply in_app_or in Hx. destruct Hx as [Hx|[<-|[]]].
      - destruct (Hk x Hx Lx) as [Lm [w [Iw Cw]]]. split; [exact Lm|]. exists w. split; [apply in_or_app; now left|exact Cw].
      - destruct (Hw p (or_introl eq_refl)) as [Lw|[Lw [w [Iw Cw]]]]; [lia|]. split; [lia|]. exists w. split; [|exact Cw].
        apply in_or_app. left. apply (prec_act i L (A ++ [q]) p B w ltac:(lia) HL); [rewrite HLi; now symmetry| |exact Iw].
        destruct Cw as [C1 C2]. apply (HC i (ign st p) w p); auto; [lia|lia|lia|now apply HL]. }
    destruct (area_gen st4 (A ++ [q]) p B) as [st5 [F1 [F2 [F3 [F4 [F5 [F6 [F7 [F8 F9]]]]]]]]].
    { exact EL'. }
    { rewrite App. exact (links_leq n O st1 st4 i _ (leq_sym _ _ E4) Lk1). }
    { exact Epv. }
    { exact K4. }
    { intros _. exact C4. }
    { intros A0 r Er. apply app_inj_tail in Er. destruct Er as [<- <-]. rewrite A4. exact Ea. }
    { intros k. rewrite A4. apply Hn. }
    replace (length ((A ++ [q]) ++ [p])) with (length A + 1 + 1) in F1 by (rewrite !app_length; simpl; lia). rewrite F1.
    assert (El5 : leq st5 st1) by (exact (leq_trans _ _ _ F2 E4)).
    replace (length A + 1) with (length (A ++ [q])) by (rewrite app_length; reflexivity).
    destruct (IH (A ++ [q]) p st5 fuel hv') as [v [q' [st' [P1 [P2 [P3 [P4 [P5 [P6 [P7 [P8 [P9 P10]]]]]]]]]]]].
    + exact EL'.
    + simpl in Hf. lia.
    + exact El5.
    + intros A1 x A2 Ex. symmetry in Ex. destruct (split_app x A1 A2 (A ++ [q]) [p] Ex) as [[B' [Ex' ->]]|[A' [Ex' ->]]].
      * assert (Ix : In x (A ++ [q])) by (rewrite Ex'; apply in_or_app; right; now left). assert (xp : x <> p) by (intros ->; contradiction).
        apply (valid_eq st); [rewrite (F6 x i (le_n i) (or_introl xp)); now rewrite A4|rewrite F7 by lia; apply V4; now left|]. exact (Hv A1 x B' Ex').
      * destruct A' as [|a A']; [|destruct A'; discriminate]. injection Ex' as <- <-. rewrite app_nil_r. split; [exact F3|].
        rewrite F7 by lia. rewrite V4p, App. exact EVp.
    + rewrite App. exact EVp.
    + exact F5.
    + exact F4.
    + intros z Hz. assert (Nz : ~ In z ((A ++ [q]) ++ [p])).
      { intros I. rewrite <- EL2, <- App in HL. destruct HL as [ND _]. exact (NoDup_app_dis _ _ z ND I Hz). }
      unfold waits. rewrite (F8 z Nz), I4. exact (Hw z (or_intror Hz)).
    + intros k. rewrite F9, A4. apply Hn.
    + exists v, q', st'. split; [exact P1|]. split; [exact P2|]. split; [exact P3|]. split; [exact P4|]. split; [exact P5|]. split; [exact P6|].
      split; [exact P7|]. split; [|split].
      * intros x k Kk. destruct (P8 x k Kk) as [-> ->]. rewrite F6 by (lia || (right; lia)). rewrite F7 by lia. rewrite A4, V4 by (right; lia). now split.
      * intros z Hz. rewrite (P9 z Hz), F8, I4; [reflexivity|]. intros I. apply Hz. rewrite <- EL2, <- App. apply in_or_app. now left.
      * intros k. rewrite P10, F9, A4. reflexivity.
Qed.

(** The whole level. *)
Lemma level_gen fuel : L <> [] -> length L < fuel -> skips i L st0 -> (2 <= length L -> forall k, 2 <= k <= i -> cached st0 k L) ->
  (forall k, ar st0 n k == 0)%Q ->
  exists v st', level n m data rec fuel i (length L) st0 = Some (v, st') /\ (v == mes (S i) L)%Q /\ post i L st0 st'.
Proof.
  intros NL Hf Hk Hc Hn. unfold level.
  assert (El : pv st0 i n = last (n :: L) n).
  { destruct (exists_last NL) as [L' [x E]]. rewrite E. change (n :: L' ++ [x]) with ((n :: L') ++ [x]). rewrite last_last.
    pose proof Lk as K. unfold Proofs_HV.linked in K. rewrite E, <- app_assoc in K. simpl app in K. rewrite app_comm_cons in K. apply chain_app in K. destruct K as [_ [_ [K _]]]. exact K. }
  rewrite El.
  destruct (reset_ok n data i L [] st0 fuel) as [s1 [R1 [R2 R3]]].
  { now rewrite app_nil_r. } { now rewrite app_nil_r. } { exact Hf. }
  rewrite R1. destruct R2 as [RL [RA [RV RB]]].
  assert (W1 : forall z, In z L -> waits s1 z).
  { intros z Hz. unfold waits. rewrite R3, (proj2 (mem_In z L) Hz). simpl andb. destruct (Nat.ltb_spec (ign st0 z) i) as [Lz|Lz]; [left; lia|].
    destruct (Hk z Hz Lz) as [K1 K2]. right. split; [lia|exact K2]. }
  assert (C1 : 2 <= length L -> forall k, 2 <= k <= i -> cached s1 k L).
  { intros Len k Kk. apply (cached_eq st0); [now rewrite RB|intros x; now rewrite RA, RV|]. now apply Hc. }
  assert (Lk1 : linked s1 i L) by (exact (linked_leq n st0 s1 i L RL Lk)).
  destruct (exists_last NL) as [L' [x EL]].
  assert (El1 : pv s1 i n = x).
  { rewrite <- (proj2 (RL i n)), El, EL. change (n :: L' ++ [x]) with ((n :: L') ++ [x]). apply last_last. }
  rewrite El1.
  destruct (take_out_ok n m data i L HL L' x [] s1 fuel) as [A [q [B [T1 [T2 T3]]]]].
  { now symmetry. } { exact Lk1. } { rewrite EL, app_length in Hf. simpl in Hf. lia. }
  replace (length L) with (length L' + 1) by (rewrite EL, app_length; reflexivity).
  simpl hd in T2. rewrite T2. rewrite app_nil_r. clear T2. rewrite <- EL in T1.
  assert (T1' : (A ++ [q]) ++ B = L) by (rewrite <- app_assoc; exact T1).
  assert (Hq : q < n) by (apply HL; rewrite <- T1; apply in_or_app; right; now left).
  set (s2 := removes s1 (rev B) i) in *.
  destruct (removes_rest m data s1 (rev B) i) as [G1 [G2 G3]]. fold s2 in G1, G2, G3.
  assert (EAi : act i L = A ++ q :: B) by (rewrite HLi; now symmetry).
  assert (NT : nodes (A ++ [q])) by (rewrite <- T1' in HL; exact (nodes_app_l n _ _ HL)).
  assert (L2 : links s2 i (A ++ [q])).
  { apply (links_removes n m data O HO); [lia|now rewrite T1'|]. rewrite T1'. exact (links_leq n O _ _ _ _ RL Lks). }
  assert (Epv : pv s2 i q = last (n :: A) n).
  { unfold s2. rewrite (proj2 (removes_above m data s1 (rev B) i i (le_n i) q)).
    pose proof (NoDup_sent n _ HL) as ND. rewrite <- T1 in ND. pose proof Lk1 as K. rewrite <- T1 in K. exact (proj1 (proj2 (linked_in n data s1 i A q B ND K))). }
  assert (W2 : forall z, In z L -> waits s2 z) by (intros z Hz; unfold waits; rewrite G1; exact (W1 z Hz)).
  assert (K2 : skips (i - 1) (A ++ [q]) s2).
  { intros z Hz Lz. assert (IzL : In z L) by (rewrite <- T1'; apply in_or_app; now left).
    destruct (W2 z IzL) as [Lw|[Lw [w [Iw Cw]]]]; [lia|]. split; [lia|]. exists w. split; [|exact Cw].
    assert (Pw : prec (O i) w z).
    { destruct Cw as [D1 D2]. apply (HC i (ign s2 z) w z); auto; [lia|lia|lia|now apply HL|now apply HL]. }
    apply in_split in Hz. destruct Hz as [U [V EU]]. rewrite EU. apply in_or_app. left.
    apply (prec_act i L U z (V ++ B) w ltac:(lia) HL); [|exact Pw|exact Iw]. rewrite HLi, <- T1', EU, <- app_assoc. reflexivity. }
  assert (RL2 : leq s2 (removes st0 (rev B) i)).
  { unfold s2. clear -RL. revert s1 st0 RL. generalize (rev B). intros l. induction l as [|b l IH]; intros s1 s0 R.
    - exact (leq_sym _ _ R).
    - simpl. apply IH. now apply remove_leq. }
  rewrite Epv.
  (* the volume and the state with which the first area is computed *)
  assert (H3 : exists hvol s3,
    (if 1 <? length A + 1
     then match get n data q i with
          | Some qd => match get n data (last (n :: A) n) i with Some rd => Some ((vol s2 (last (n :: A) n) i + ar s2 (last (n :: A) n) i * (qd - rd))%Q, s2) | None => None end
          | None => None end
     else Some (0%Q, init_area data s2 q i)) = Some (hvol, s3) /\
    (hvol == mes (S i) (A ++ [q]) + mes i (A ++ [q]) * data q i)%Q /\ leq s3 s2 /\ ign s3 = ign s2 /\ vol s3 = vol s2 /\
    (A <> [] -> forall k, 2 <= k < i -> cached s3 k (A ++ [q])) /\ (forall A1 z A2, A = A1 ++ z :: A2 -> valid s3 i A1 z) /\
    (forall z k, i < k -> ar s3 z k = ar s2 z k) /\ (forall k, ar s3 n k = ar s2 n k)).
  { destruct T3 as [->|[A0 [r [EA [Tq Tr]]]]].
    - simpl length. simpl Nat.add. change (1 <? 1) with false. cbv iota. eexists _, _. split; [reflexivity|].
      split; [simpl app; rewrite (vol_first n m data G ref y HD HG i q ltac:(lia) Hq); reflexivity|].
      split; [intros k z; now split|]. split; [reflexivity|]. split; [reflexivity|]. split; [intros N; contradiction|].
      split; [intros [|? ?] z A2 E; discriminate|]. split.
      + intros z k Kk. simpl. unfold upd. destruct (Nat.eqb_spec z q) as [->|N]; [|reflexivity].
        rewrite (proj2 (Nat.leb_gt k i)) by lia. rewrite andb_false_r. rewrite (proj2 (Nat.eqb_neq k 0)) by lia. reflexivity.
      + intros k. simpl. unfold upd. now rewrite (proj2 (Nat.eqb_neq n q)) by lia.
    - assert (LA : 1 <= length A) by (rewrite EA, app_length; simpl; lia). rewrite (proj2 (Nat.ltb_lt 1 (length A + 1))) by lia.
      assert (Elast : last (n :: A) n = r) by (rewrite EA; change (n :: A0 ++ [r]) with ((n :: A0) ++ [r]); apply last_last).
      assert (Hr : r < n) by (apply HL; rewrite <- T1, EA; apply in_or_app; left; apply in_or_app; right; now left).
      rewrite Elast, (get_ok n data q i Hq), (get_ok n data r i Hr).
      assert (LL : 2 <= length L) by (rewrite <- T1, app_length; simpl; lia).
      assert (C2 : forall k, 2 <= k <= i -> cached s2 k (A ++ [q])).
      { intros k Kk. apply cached_removes; [lia|now rewrite T1'|]. rewrite T1'. now apply C1. }
      fold s2 in Tr. destruct (bd s2 i) as [b|] eqn:Eb; [|discriminate]. simpl in Tr. apply Qle_bool_false in Tr.
      assert (EAq : act i (A ++ [q]) = A ++ [q]) by (apply (act_prefix i L (A ++ [q]) B ltac:(lia) HL); rewrite HLi; now symmetry).
      assert (VA : forall A1 z A2, A = A1 ++ z :: A2 -> valid s2 i A1 z).
      { intros A1 z A2 EA1. apply (C2 i ltac:(lia) A1 z (A2 ++ [q]) b); [rewrite EAq, EA1, <- app_assoc; reflexivity|exact Eb|].
        assert (Lz : (data z i <= data r i)%Q); [|lra].
        pose proof L_sorted as SS. assert (Iz : In z A) by (rewrite EA1; apply in_or_app; right; now left). rewrite EA in Iz. apply in_app_or in Iz.
        destruct Iz as [Iz|[<-|[]]]; [|lra]. rewrite <- T1, EA, <- app_assoc in SS. exact (sorted_split data i A0 r _ z SS Iz). }
      eexists _, _. split; [reflexivity|]. split; [|split; [apply leq_refl|split; [reflexivity|split; [reflexivity|split; [|split; [exact VA|split; reflexivity]]]]]].
      + destruct (VA A0 r [] EA) as [V1 V2]. rewrite V1, V2, EA, <- app_assoc. simpl app.
        rewrite (vol_step n m data G ref y HD HG i A0 r q ltac:(lia)); [reflexivity| |].
        * rewrite EA, <- app_assoc in NT. exact NT.
        * intros z Hz. pose proof L_sorted as SS. rewrite <- T1, EA in SS. exact (sorted_split data i _ q B z SS Hz).
      + intros _ k Kk. apply C2. lia. }
  destruct H3 as [hvol [s3 [E3 [EV [L3 [I3 [V3 [C3 [VA [A3 N3]]]]]]]]]]. rewrite E3. clear E3.
  set (s4 := set_vol s3 q i hvol).
  assert (V4q : vol s4 q i = hvol) by (simpl; unfold upd2, upd; now rewrite !Nat.eqb_refl).
  assert (V4 : forall z k, (z <> q \/ k <> i) -> vol s4 z k = vol s3 z k).
  { intros z k [N|N]; simpl; unfold upd2, upd; [now rewrite (proj2 (Nat.eqb_neq z q) N)|].
    destruct (z =? q) eqn:E; [|reflexivity]. rewrite (proj2 (Nat.eqb_neq k i) N). apply Nat.eqb_eq in E. now rewrite E. }
  assert (L4 : leq s4 s2) by (intros k z; exact (L3 k z)).
  assert (qA : ~ In q A). { intros I. destruct NT as [ND _]. exact (NoDup_app_dis _ _ q ND I (or_introl eq_refl)). }
  destruct (area_gen s4 A q B) as [s5 [F1 [F2 [F3 [F4 [F5 [F6 [F7 [F8 F9]]]]]]]]].
  { exact T1. } { exact (links_leq n O _ _ _ _ (leq_sym _ _ L4) L2). } { rewrite (proj2 (L4 i q)). exact Epv. }
  { intros z Hz Lz. change (ign s4) with (ign s3) in *. rewrite I3 in *. exact (K2 z Hz Lz). }
  { intros NA k Kk. apply (cached_eq s3); [reflexivity| |now apply C3]. intros z. split; [reflexivity|]. apply V4. right. lia. }
  { intros A0 r Er. destruct (VA A0 r [] Er) as [V1 _]. rewrite Er. exact V1. }
  { intros k. change (ar s4) with (ar s3). rewrite N3, G2, <- RA. apply Hn. }
  replace (length (A ++ [q])) with (length A + 1) in F1 by (rewrite app_length; reflexivity). rewrite F1.
  destruct (put_back_gen B A q s5 fuel hvol) as [v [q' [st' [P1 [P2 [P3 [P4 [P5 [P6 [P7 [P8 [P9 P10]]]]]]]]]]]].
  { exact T1. } { rewrite <- T1, app_length in Hf. simpl in Hf. lia. }
  { exact (leq_trans _ _ _ F2 (leq_trans _ _ _ L4 RL2)). }
  { intros A1 z A2 Ez. symmetry in Ez. destruct (split_app z A1 A2 A [q] Ez) as [[B' [Ez' ->]]|[A' [Ez' ->]]].
    - assert (zq : z <> q) by (intros ->; apply qA; rewrite Ez'; apply in_or_app; right; now left).
      apply (valid_eq s3); [rewrite (F6 z i (le_n i) (or_introl zq)); reflexivity|rewrite F7 by lia; apply V4; now left|]. exact (VA A1 z B' Ez').
    - destruct A' as [|a A']; [|destruct A'; discriminate]. injection Ez' as <- <-. rewrite app_nil_r. split; [exact F3|].
      rewrite F7 by lia. rewrite V4q. exact EV. }
  { exact EV. } { exact F5. } { exact F4. }
  { intros z Hz. assert (Nz : ~ In z (A ++ [q])). { intros I. rewrite <- T1' in HL. destruct HL as [ND _]. exact (NoDup_app_dis _ _ z ND I Hz). }
    unfold waits. rewrite (F8 z Nz). change (ign s4) with (ign s3). rewrite I3. apply W2. rewrite <- T1'. apply in_or_app. now right. }
  { intros k. rewrite F9. change (ar s4) with (ar s3). rewrite N3, G2, <- RA. apply Hn. }
  rewrite P1, (get_ok n data q' i P2). eexists _, _. split; [reflexivity|]. split; [exact P3|].
  split; [exact P4|]. split; [intros z Hz Lz; apply (P5 z Hz); lia|]. split; [|split; [|split]].
  - intros k Kk. destruct (Nat.eq_dec k i) as [->|N]; [|apply P6; lia]. intros A1 z A2 b EA1 _ _. rewrite HLi in EA1. exact (P7 A1 z A2 EA1).
  - intros z k Kk. destruct (P8 z k Kk) as [-> ->]. rewrite F6 by (lia || (right; lia)). rewrite F7 by lia. rewrite V4 by (right; lia).
    change (ar s4) with (ar s3). rewrite A3 by lia. rewrite V3, G2, G3, RA, RV. now split.
  - intros z Hz. rewrite (P9 z Hz), F8 by (intros I; apply Hz; rewrite <- T1'; apply in_or_app; now left).
    change (ign s4) with (ign s3). rewrite I3, G1, R3.
    destruct (existsb (Nat.eqb z) L) eqn:Ez; [apply mem_In in Ez; contradiction|reflexivity].
  - intros k. rewrite P10, F9. change (ar s4) with (ar s3). rewrite N3, G2, RA. reflexivity.
Qed.
End PutBack.

(** * All levels *)
Lemma len_nodes T : nodes T -> length T <= n.
Proof.
  intros [ND H]. rewrite <- (seq_length n 0). apply NoDup_incl_length; [exact ND|]. intros x Hx. apply in_seq. specialize (H x Hx). lia.
Qed.
Lemma hv_gen fuel : n < fuel -> forall i, 1 <= i < m -> forall st T, T <> [] -> nodes T -> links st (S i) T -> skips i T st ->
  (2 <= length T -> forall k, 2 <= k <= i -> cached st k T) -> (forall k, ar st n k == 0)%Q ->
  exists v st', hv n m data fuel i (length T) st = Some (v, st') /\ (v == mes (S i) T)%Q /\ post i T st st'.
Proof.
  intros Hf i. induction i as [|j IH]; intros Hi st T NT HT Hl Hk Hc Hn; [lia|].
  assert (LT : (length T =? 0) = false) by (apply Nat.eqb_neq; destruct T; [contradiction|discriminate]).
  assert (NA : nodes (act (S j) T)) by (apply (act_nodes n m data O HO); [lia|exact HT]).
  assert (IA : forall x, In x (act (S j) T) <-> In x T) by (intros x; apply (act_In n m data O HO); [lia|exact HT]).
  assert (NNA : act (S j) T <> []).
  { intros E. destruct T as [|t T]; [contradiction|]. assert (F := proj2 (IA t) (or_introl eq_refl)). rewrite E in F. destruct F. }
  destruct j as [|j].
  - cbn [hv]. rewrite LT.
    destruct (two_ok n m data G ref y HD HG (act 1 T) st fuel) as [v [-> Ev]]; [lia|exact NNA|exact NA|apply Hl; lia| | |].
    + apply (act_sorted n m data O HO). lia.
    + pose proof (len_nodes _ NA). lia.
    + exists v, st. split; [reflexivity|]. split; [rewrite Ev, (mes_ext G ref y 2 (act 1 T) T IA); reflexivity|].
      split; [apply leq_refl|]. split; [exact Hk|]. split; [intros; lia|]. auto.
  - set (i := S (S j)) in *.
    assert (LEN : length T = length (act i T)).
    { apply Nat.le_antisymm; apply NoDup_incl_length; [apply HT|intros x; apply IA|apply NA|intros x; apply IA]. }
    change (hv n m data fuel i (length T) st) with (if length T =? 0 then Some (0%Q, st) else level n m data (hv n m data fuel (S j)) fuel i (length T) st).
    rewrite LT, LEN.
    destruct (level_gen (hv n m data fuel (S j)) i (act i T) st) with (fuel := fuel) as [v [st' [E [Ev P]]]].
    + unfold i in *. lia.
    + exact NA.
    + apply act_act; [lia|exact HT].
    + apply Hl. lia.
    + intros k Hkk. rewrite act_act by (lia || exact HT). apply Hl. lia.
    + intros s U NU HU HLU HKU HCU HNU. unfold i in *.
      destruct (IH ltac:(lia) s U NU HU) as [v [st' R]]; [exact HLU|now replace (S j) with (S (S j) - 1) by lia| |exact HNU|].
      * intros Len k Kk. apply HCU; [exact Len|lia].
      * exists v, st'. destruct R as [R1 [R2 R3]]. split; [exact R1|]. split; [exact R2|]. now replace (S (S j) - 1) with (S j) by lia.
    + exact NNA.
    + pose proof (len_nodes _ NA). lia.
    + apply (skips_ext i T); [intros x; symmetry; apply IA|exact Hk].
    + intros Len k Kk. apply (cached_ext st k T); [intros x; symmetry; apply IA|]. apply Hc; [lia|exact Kk].
    + exact Hn.
    + exists v, st'. split; [exact E|]. split; [rewrite Ev, (mes_ext G ref y (S i) (act i T) T IA); reflexivity|].
      destruct P as [P1 [P2 [P3 [P4 [P5 P6]]]]]. split; [exact P1|]. split; [exact (skips_ext i _ T st' IA P2)|].
      split; [intros k Kk; exact (cached_ext st' k _ T IA (P3 k Kk))|]. split; [exact P4|]. split; [|exact P6].
      intros z Hz. apply P5. intros I. apply Hz. now apply IA.
Qed.
End Gen.
