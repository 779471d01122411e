(** One level of the dimension sweep (C21). *)
From Coq Require Import List Bool Arith ZArith QArith Permutation Sorted Lia Lqa Setoid.
From Verif Require Import Lib_List Model_Pareto Model_HV Spec_HV Proofs_HVmeasure Proofs_HV.
Import ListNotations.
Open Scope nat_scope.

Lemma hd_snoc (B : list nat) n : hd n (B ++ [n]) = hd n B.
Proof. destruct B; reflexivity. Qed.

Section Level.
Variables (n m : nat) (data : nat -> nat -> Q).
Variables (G : nat -> list Q) (ref : nat -> Q) (y : nat -> nat -> Q).
Variable O : nat -> list nat.
Hypothesis HD : forall x k, data x k = (ref k - y x k)%Q.
Notation mes := (mes G ref y).
Notation remove := (remove m data).
Notation reinsert := (reinsert m data).
Notation linked := (linked n).
Definition before (k a b : nat) : Prop := (data a k <= data b k)%Q.
Hypothesis HO : forall k, k < m -> Permutation (O k) (seq 0 n) /\ StronglySorted (before k) (O k).
Hypothesis HG : forall k, k < m -> lines G ref k /\ forall x, x < n -> fine G ref y k x.

Definition act (k : nat) (T : list nat) : list nat := filter (fun x => existsb (Nat.eqb x) T) (O k).
Definition nodes (T : list nat) : Prop := NoDup T /\ forall x, In x T -> x < n.
Definition links (st : mlist) (i : nat) (T : list nat) : Prop := forall k, k < i -> linked st k (act k T).
Definition removes (st : mlist) (l : list nat) (i : nat) : mlist := fold_left (fun st x => remove st x i) l st.

Lemma mem_In x T : existsb (Nat.eqb x) T = true <-> In x T.
Proof.
  rewrite existsb_exists. split; [intros [z [H E]]; apply Nat.eqb_eq in E; congruence|].
  intros H. exists x. split; [exact H|apply Nat.eqb_refl].
Qed.
Lemma O_nodes k : k < m -> nodes (O k) /\ forall x, In x (O k) <-> x < n.
Proof.
  intros H. destruct (HO k H) as [P _]. assert (E : forall x, In x (O k) <-> x < n).
  { intros x. split; intros I; [apply (Permutation_in x P) in I; apply in_seq in I; lia|].
    apply (Permutation_in x (Permutation_sym P)), in_seq. lia. }
  split; [split|exact E]; [|intros x; apply E]. apply (Permutation_NoDup (Permutation_sym P)), seq_NoDup.
Qed.
Lemma act_In k T x : k < m -> nodes T -> In x (act k T) <-> In x T.
Proof.
  intros Hk [_ HT]. unfold act. rewrite filter_In, mem_In. split; [tauto|]. intros H. split; [|exact H].
  apply (proj2 (O_nodes k Hk)). now apply HT.
Qed.
Lemma act_nodes k T : k < m -> nodes T -> nodes (act k T).
Proof.
  intros Hk HT. split; [apply NoDup_filter, (O_nodes k Hk)|]. intros x H. apply (act_In k T x Hk HT) in H. now apply HT.
Qed.
Lemma sorted_filter {A} (R : A -> A -> Prop) p l : StronglySorted R l -> StronglySorted R (filter p l).
Proof.
  induction 1 as [|a l H IH F]; simpl; [constructor|]. destruct (p a); [|exact IH]. constructor; [exact IH|].
  rewrite Forall_forall in *. intros x Hx. apply filter_In in Hx. apply F, Hx.
Qed.
Lemma act_sorted k T : k < m -> StronglySorted (before k) (act k T).
Proof. intros Hk. apply sorted_filter, (HO k Hk). Qed.
Lemma sorted_split k A x B z : StronglySorted (before k) (A ++ x :: B) -> In z A -> before k z x.
Proof.
  induction A as [|a A IH]; intros H []; simpl in H; inversion H as [|? ? H1 H2]; subst.
  - rewrite Forall_forall in H2. apply H2, in_or_app. right. now left.
  - now apply IH.
Qed.
Lemma NoDup_sent T : nodes T -> NoDup (n :: T).
Proof. intros [H1 H2]. constructor; [|exact H1]. intros I. specialize (H2 n I). lia. Qed.
(** Taking the last node out of a set takes it out of every list. *)
Lemma act_snoc k T x : k < m -> nodes (T ++ [x]) -> exists A B, act k (T ++ [x]) = A ++ x :: B /\ act k T = A ++ B.
Proof.
  intros Hk HT. assert (Hx : In x (O k)) by (apply (proj2 (O_nodes k Hk)), HT, in_or_app; right; now left).
  apply in_split in Hx. destruct Hx as [U [W E]]. unfold act. rewrite E. rewrite !filter_app.
  assert (NO : NoDup (U ++ x :: W)) by (rewrite <- E; apply (O_nodes k Hk)).
  assert (NX : forall z, In z (U ++ W) -> existsb (Nat.eqb z) (T ++ [x]) = existsb (Nat.eqb z) T).
  { intros z Hz. rewrite existsb_app. simpl. destruct (Nat.eqb_spec z x) as [->|_]; [|now rewrite !orb_false_r].
    exfalso. exact (NoDup_remove_2 _ _ _ NO Hz). }
  exists (filter (fun z => existsb (Nat.eqb z) T) U), (filter (fun z => existsb (Nat.eqb z) T) W). split.
  - f_equal; [apply filter_ext_in; intros z Hz; apply NX, in_or_app; now left|].
    simpl filter at 1. rewrite (proj2 (mem_In x (T ++ [x]))) by (apply in_or_app; right; now left).
    f_equal. apply filter_ext_in. intros z Hz. apply NX, in_or_app. now right.
  - f_equal. simpl. destruct (existsb (Nat.eqb x) T) eqn:Ex; [|reflexivity]. exfalso. apply mem_In in Ex.
    destruct HT as [ND _]. exact (NoDup_app_dis T [x] x ND Ex (or_introl eq_refl)).
Qed.
Lemma nodes_app_l T U : nodes (T ++ U) -> nodes T.
Proof. intros [H1 H2]. split; [now apply NoDup_app_l in H1|]. intros x Hx. apply H2, in_or_app. now left. Qed.

Lemma links_remove st i T x : i <= m -> nodes (T ++ [x]) -> links st i (T ++ [x]) ->
  links (remove st x i) i T /\ forall k, k < i -> is_in st k x.
Proof.
  intros Hi HT H. split; intros k Hk; destruct (act_snoc k T x ltac:(lia) HT) as [A [B [E1 E2]]];
    specialize (H k Hk); rewrite E1 in H;
    assert (ND : NoDup (n :: A ++ x :: B)) by (rewrite <- E1; apply NoDup_sent, act_nodes; [lia|exact HT]).
  - rewrite E2. now apply remove_linked.
  - exact (proj1 (linked_in n data st k A x B ND H)).
Qed.
Lemma links_leq st st' i T : leq st st' -> links st i T -> links st' i T.
Proof. intros E H k Hk. apply (linked_leq n st st' k); auto. Qed.
Lemma removes_snoc st B x i : removes st (rev (B ++ [x])) i = removes (remove st x i) (rev B) i.
Proof. rewrite rev_app_distr. reflexivity. Qed.
Lemma removes_cons st b B i : removes st (rev (b :: B)) i = remove (removes st (rev B) i) b i.
Proof. simpl rev. unfold removes. now rewrite fold_left_app. Qed.
Lemma links_removes B : forall st i T, i <= m -> nodes (T ++ B) -> links st i (T ++ B) -> links (removes st (rev B) i) i T.
Proof.
  induction B as [|x B IH] using rev_ind; intros st i T Hi HT H; [now rewrite app_nil_r in H|].
  rewrite removes_snoc. rewrite app_assoc in HT, H. apply IH; [exact Hi|exact (nodes_app_l _ _ HT)|].
  exact (proj1 (links_remove st i (T ++ B) x Hi HT H)).
Qed.
Lemma removes_above st l i k : i <= k -> forall z, nx (removes st l i) k z = nx st k z /\ pv (removes st l i) k z = pv st k z.
Proof.
  intros Hk. revert st. induction l as [|x l IH]; intros st z; [now split|]. simpl. destruct (IH (remove st x i) z) as [-> ->].
  destruct (remove_links m data st x i k z) as [-> ->]. rewrite (proj2 (Nat.ltb_ge k i) Hk). now split.
Qed.
Lemma removes_rest st l i : ign (removes st l i) = ign st /\ ar (removes st l i) = ar st /\ vol (removes st l i) = vol st.
Proof.
  revert st. induction l as [|x l IH]; intros st; [now simpl|]. simpl. destruct (IH (remove st x i)) as [-> [-> ->]].
  destruct (remove_rest m data st x i) as [-> [-> [-> _]]]. auto.
Qed.
Lemma removes_unbounded st l i k : bd st k = None -> bd (removes st l i) k = None.
Proof.
  revert st. induction l as [|x l IH]; intros st H; [exact H|]. simpl. apply IH.
  destruct (remove_rest m data st x i) as [_ [_ [_ E]]]. rewrite E, H. now destruct (k <? m).
Qed.

(** * take_out *)
Lemma get_ok x k : x < n -> get n data x k = Some (data x k).
Proof. intros H. unfold get. now rewrite (proj2 (Nat.ltb_lt x n) H). Qed.
Lemma take_out_ok i L : nodes L -> forall A q B st fuel, A ++ q :: B = L -> linked st i L -> length A < fuel ->
  exists A' q' B', A' ++ q' :: B' = A ++ [q] /\
    take_out n m data fuel i st (hd n B) q (length A + 1) =
      Some (removes st (rev B') i, hd n (B' ++ B), q', length A' + 1) /\
    (A' = [] \/ exists A0 r, A' = A0 ++ [r] /\ gtb (data q' i) (bd (removes st (rev B') i) i) = false /\
                             geb (data r i) (bd (removes st (rev B') i) i) = false).
Proof.
  intros HL A. induction A as [|a A IH] using rev_ind; intros q B st fuel EL Lk Hf; (destruct fuel as [|fuel]; [simpl in Hf; lia|]).
  - exists [], q, []. simpl. auto.
  - rewrite app_length in *. simpl length in *.
    assert (Hq : q < n) by (apply HL; rewrite <- EL; apply in_or_app; right; now left).
    assert (Ha : a < n) by (apply HL; rewrite <- EL; apply in_or_app; left; apply in_or_app; right; now left).
    assert (Epq : pv st i q = a).
    { rewrite <- EL in Lk. pose proof (NoDup_sent _ HL) as ND. rewrite <- EL in ND.
      destruct (linked_in n data st i (A ++ [a]) q B ND Lk) as [_ [E _]]. rewrite E.
      change (n :: A ++ [a]) with ((n :: A) ++ [a]). apply last_last. }
    cbn [take_out]. rewrite (proj2 (Nat.leb_gt (length A + 1 + 1) 1)) by lia.
    rewrite (get_ok q i Hq), Epq, (get_ok a i Ha).
    set (cnd := if gtb (data q i) (bd st i) then Some true else Some (geb (data a i) (bd st i))).
    assert (Ec : cnd = Some (gtb (data q i) (bd st i) || geb (data a i) (bd st i))) by (unfold cnd; now destruct (gtb _ _)).
    rewrite Ec. destruct (gtb (data q i) (bd st i) || geb (data a i) (bd st i)) eqn:C.
    + assert (Epv : pv (remove st q i) i q = a).
      { destruct (remove_links m data st q i i q) as [_ ->]. rewrite Nat.ltb_irrefl. exact Epq. }
      rewrite Epv.
      replace (length A + 1 + 1 - 1) with (length A + 1) by lia.
      destruct (IH a (q :: B) (remove st q i) fuel) as [A' [q' [B' [E1 [E2 E3]]]]].
      * rewrite <- EL, <- app_assoc. reflexivity.
      * apply remove_linked_other; [lia|exact Lk].
      * lia.
      * simpl hd in E2. rewrite E2. exists A', q', (B' ++ [q]). split; [|split].
        -- rewrite <- E1, <- app_assoc. reflexivity.
        -- rewrite removes_snoc, <- app_assoc. reflexivity.
        -- destruct E3 as [->|[A0 [r [-> E3]]]]; [now left|right]. exists A0, r. rewrite removes_snoc. auto.
    + apply orb_false_iff in C. exists (A ++ [a]), q, []. rewrite app_length. simpl. split; [reflexivity|]. split; [reflexivity|].
      right. exists A, a. tauto.
Qed.

(** * reset_ignore *)
Definition same (st st' : mlist) : Prop := leq st st' /\ ar st = ar st' /\ vol st = vol st' /\ bd st = bd st'.
Lemma same_trans a b c : same a b -> same b c -> same a c.
Proof. intros [H1 [H2 [H3 H4]]] [K1 [K2 [K3 K4]]]. split; [exact (leq_trans a b c H1 K1)|]. repeat split; congruence. Qed.
Lemma reset_ok i : forall A B st fuel, linked st i (A ++ B) -> nodes (A ++ B) -> length A < fuel ->
  exists st', reset_ignore n fuel i st (last (n :: A) n) = Some st' /\ same st st' /\
    forall z, ign st' z = if existsb (Nat.eqb z) A && (ign st z <? i) then 0 else ign st z.
Proof.
  intros A. induction A as [|a A IH] using rev_ind; intros B st fuel Lk ND Hf; (destruct fuel as [|fuel]; [lia|]).
  - exists st. simpl. rewrite Nat.eqb_refl. split; [reflexivity|]. split; [|reflexivity]. split; [apply leq_refl|auto].
  - change (n :: A ++ [a]) with ((n :: A) ++ [a]). rewrite last_last. rewrite app_length in Hf. simpl in Hf.
    assert (Ha : a < n) by (apply ND; apply in_or_app; left; apply in_or_app; right; now left).
    cbn [reset_ignore]. rewrite (proj2 (Nat.eqb_neq a n)) by lia.
    rewrite <- app_assoc in Lk, ND. simpl app in Lk, ND.
    set (st1 := if ign st a <? i then set_ign st a 0 else st).
    assert (S1 : same st st1) by (unfold st1; destruct (ign st a <? i); (split; [intros ? ?; simpl; auto|auto])).
    assert (Epv : pv st1 i a = last (n :: A) n).
    { rewrite <- (proj2 (proj1 S1 i a)). exact (proj1 (proj2 (linked_in n data st i A a B (NoDup_sent _ ND) Lk))). }
    rewrite Epv. destruct (IH (a :: B) st1 fuel) as [st' [E1 [E2 E3]]].
    + exact (linked_leq n st st1 i _ (proj1 S1) Lk).
    + exact ND.
    + lia.
    + exists st'. split; [exact E1|]. split; [exact (same_trans _ _ _ S1 E2)|]. intros z. rewrite E3.
      assert (NA : existsb (Nat.eqb a) A = false).
      { destruct (existsb _ A) eqn:Ex; [|reflexivity]. apply mem_In in Ex. destruct ND as [ND _].
        exfalso. exact (NoDup_app_dis A (a :: B) a ND Ex (or_introl eq_refl)). }
      rewrite existsb_app. simpl existsb. unfold st1. destruct (Nat.ltb_spec (ign st a) i) as [L|L].
      * unfold set_ign. simpl ign. unfold upd. destruct (Nat.eqb_spec z a) as [->|N].
        -- rewrite NA. simpl. now rewrite (proj2 (Nat.ltb_lt _ _) L).
        -- now rewrite orb_false_r.
      * destruct (Nat.eqb_spec z a) as [->|N]; [|now rewrite orb_false_r]. rewrite NA. simpl.
        now rewrite (proj2 (Nat.ltb_ge _ _) L).
Qed.

(** * The sum over the slices *)
Lemma vol_step i A q b : i < m -> nodes (A ++ [q; b]) -> (forall z, In z (A ++ [q]) -> before i z b) ->
  (mes (S i) (A ++ [q; b]) + mes i (A ++ [q; b]) * data b i ==
   mes (S i) (A ++ [q]) + mes i (A ++ [q]) * data q i + mes i (A ++ [q]) * (data b i - data q i))%Q.
Proof.
  intros Hi HT HB. replace (A ++ [q; b]) with ((A ++ [q]) ++ [b]) by (rewrite <- app_assoc; reflexivity).
  destruct (HG i Hi) as [Hl Hf]. rewrite (mes_snoc G ref y i (A ++ [q]) b Hl).
  - rewrite (HD b i). ring.
  - apply Hf, HT, in_or_app. right. simpl. auto.
  - intros z Hz. specialize (HB z Hz). unfold before in HB. rewrite !HD in HB. lra.
Qed.
Lemma vol_first i q : i < m -> q < n -> (mes (S i) [q] + mes i [q] * data q i == 0)%Q.
Proof.
  intros Hi Hq. destruct (HG i Hi) as [Hl Hf]. change [q] with ([] ++ [q]). rewrite (mes_snoc G ref y i [] q Hl (Hf q Hq)).
  - rewrite !mes_nil, (HD q i). simpl app. ring.
  - intros z [].
Qed.

(** * Two objectives *)
Lemma sweep_ok L st : 1 < m -> nodes L -> linked st 1 L -> StronglySorted (before 1) L ->
  forall B A q fuel h hvol x, A ++ q :: B = L -> length B < fuel -> In x (A ++ [q]) -> (h == data x 0)%Q ->
    (forall z, In z (A ++ [q]) -> before 0 x z) ->
    (hvol == mes 2 (A ++ [q]) + mes 1 (A ++ [q]) * data q 1)%Q ->
    exists v, sweep n data fuel st q (hd n B) h hvol = Some v /\ (v == mes 2 L)%Q.
Proof.
  intros Hm HL Lk Hs B. induction B as [|p B IH]; intros A q fuel h hvol x EL Hf Hx Eh Hmin EV; (destruct fuel as [|fuel]; [simpl in Hf; lia|]);
    assert (Hq : q < n) by (apply HL; rewrite <- EL; apply in_or_app; right; now left);
    assert (HLx : forall z, In z (A ++ [q]) -> z < n) by (intros z Hz; apply HL; rewrite <- EL; apply in_app_or in Hz; destruct Hz as [Hz|[<-|[]]]; apply in_or_app; [left|right; left]; auto);
    assert (M1 : (mes 1 (A ++ [q]) == - h)%Q)
      by (rewrite (mes_one G ref y (A ++ [q]) x); [rewrite Eh, HD; ring|apply HG; lia|intros z Hz; apply HG; [lia|now apply HLx]|exact Hx|
          intros z Hz; specialize (Hmin z Hz); unfold before in Hmin; rewrite !HD in Hmin; lra]).
  - cbn [sweep]. simpl hd. rewrite Nat.eqb_refl, (get_ok q 1 Hq). eexists. split; [reflexivity|]. rewrite EV, M1, EL. ring.
  - assert (Hp : p < n) by (apply HL; rewrite <- EL; apply in_or_app; right; right; now left).
    cbn [sweep hd]. rewrite (proj2 (Nat.eqb_neq p n)) by lia. rewrite (get_ok q 1 Hq), (get_ok p 1 Hp), (get_ok p 0 Hp).
    assert (EL' : (A ++ [q]) ++ p :: B = L) by (rewrite <- app_assoc; exact EL).
    assert (Enx : nx st 1 p = hd n B).
    { pose proof (NoDup_sent _ HL) as ND. rewrite <- EL' in ND. rewrite <- EL' in Lk. rewrite <- hd_snoc.
      exact (proj2 (proj2 (linked_in n data st 1 (A ++ [q]) p B ND Lk))). }
    rewrite Enx.
    assert (App : (A ++ [q]) ++ [p] = A ++ [q; p]) by (rewrite <- app_assoc; reflexivity).
    assert (NP : nodes (A ++ [q; p])).
    { rewrite <- EL in HL. replace (A ++ q :: p :: B) with ((A ++ [q; p]) ++ B) in HL by (rewrite <- app_assoc; reflexivity). exact (nodes_app_l _ _ HL). }
    assert (HV : (hvol + h * (data q 1 - data p 1) == mes 2 ((A ++ [q]) ++ [p]) + mes 1 ((A ++ [q]) ++ [p]) * data p 1)%Q).
    { rewrite App, (vol_step 1 A q p Hm NP), <- EV, M1; [ring|]. intros z Hz. rewrite <- EL' in Hs. exact (sorted_split 1 _ p B z Hs Hz). }
    simpl length in Hf.
    destruct (Qltb (data p 0) h) eqn:C; [unfold Qltb in C; apply negb_true_iff in C; apply Qle_bool_false in C|unfold Qltb in C; apply negb_false_iff, Qle_bool_iff in C].
    + apply (IH (A ++ [q]) p fuel (data p 0) (hvol + h * (data q 1 - data p 1))%Q p); auto; [lia|apply in_or_app; right; now left|reflexivity|].
      intros z Hz. apply in_app_or in Hz. unfold before in *. destruct Hz as [Hz|[<-|[]]]; [|lra]. specialize (Hmin z Hz). lra.
    + apply (IH (A ++ [q]) p fuel h (hvol + h * (data q 1 - data p 1))%Q x); auto; [lia|apply in_or_app; now left|].
      intros z Hz. apply in_app_or in Hz. unfold before in *. destruct Hz as [Hz|[<-|[]]]; [|lra]. now apply Hmin.
Qed.
Lemma two_ok L st fuel : 1 < m -> L <> [] -> nodes L -> linked st 1 L -> StronglySorted (before 1) L -> length L <= fuel ->
  exists v, two n data fuel st = Some v /\ (v == mes 2 L)%Q.
Proof.
  intros Hm N HL Lk Hs Hf. destruct L as [|q B]; [contradiction|]. unfold two.
  assert (Hq : q < n) by (apply HL; now left).
  pose proof (NoDup_sent _ HL) as ND. destruct (linked_in n data st 1 [] q B ND Lk) as [_ [_ E]].
  assert (E0 : nx st 1 n = q) by (exact (proj1 Lk)).
  rewrite E0, (get_ok q 0 Hq), E, hd_snoc.
  apply (sweep_ok (q :: B) st Hm HL Lk Hs B [] q fuel (data q 0) 0%Q q); auto.
  - now left.
  - reflexivity.
  - intros z [<-|[]]. unfold before. lra.
  - rewrite (vol_first 1 q Hm Hq). reflexivity.
Qed.

(** * Putting the nodes back, when nothing is ignored and the level below leaves the state as it is *)
Section PutBack.
Variables (rec : nat -> mlist -> option (Q * mlist)) (i : nat) (L : list nat) (st0 : mlist).
Hypothesis Hi : i < m.
Hypothesis HL : nodes L.
Hypothesis Hs : StronglySorted (before i) L.
Hypothesis Lk : linked st0 i L.
Hypothesis Lks : links st0 i L.
Hypothesis Hrec : forall st T, T <> [] -> nodes T -> links st i T ->
  exists v, rec (length T) st = Some (v, st) /\ (v == mes i T)%Q.

Lemma area_ok st T q : ign st q < i -> T <> [] -> nodes T -> links st i T ->
  exists st', area_of rec i (length T) st q = Some st' /\ leq st st' /\ bd st' = bd st /\ (ar st' q i == mes i T)%Q /\
    forall z, z <> q -> ign st' z = ign st z.
Proof.
  intros H1 H2 H3 H4. unfold area_of. rewrite (proj2 (Nat.leb_gt i (ign st q)) H1).
  destruct (Hrec st T H2 H3 H4) as [v [-> Ev]]. eexists. split; [reflexivity|].
  assert (Ea : ar (set_ar st q i v) q i = v) by (simpl; unfold upd2, upd; now rewrite !Nat.eqb_refl).
  destruct (Qle_bool _ _); (split; [intros k z; now split|]); (split; [reflexivity|]); (split; [simpl in Ea |- *; now rewrite Ea|]); intros z Hz; simpl.
  - unfold upd. now rewrite (proj2 (Nat.eqb_neq z q) Hz).
  - reflexivity.
Qed.

Lemma put_back_ok : forall B A q st fuel hvol, A ++ q :: B = L -> length B < fuel -> leq st (removes st0 (rev B) i) ->
  (ar st q i == mes i (A ++ [q]))%Q -> (hvol == mes (S i) (A ++ [q]) + mes i (A ++ [q]) * data q i)%Q ->
  (forall z, In z B -> ign st z < i) ->
  exists v q' st', put_back n m data rec fuel i st (hd n B) q (length A + 1) hvol = Some (v, q', st') /\ q' < n /\
    (v - ar st' q' i * data q' i == mes (S i) L)%Q.
Proof.
  induction B as [|p B IH]; intros A q st fuel hvol EL Hf El Ea EV Hg; (destruct fuel as [|fuel]; [simpl in Hf; lia|]);
    assert (Hq : q < n) by (apply HL; rewrite <- EL; apply in_or_app; right; now left).
  - cbn [put_back hd]. rewrite Nat.eqb_refl. eexists _, _, _. split; [reflexivity|]. split; [exact Hq|]. rewrite EV, Ea, EL. ring.
  - assert (Hp : p < n) by (apply HL; rewrite <- EL; apply in_or_app; right; right; now left).
    cbn [put_back hd]. rewrite (proj2 (Nat.eqb_neq p n)) by lia. rewrite (get_ok p i Hp), (get_ok q i Hq).
    assert (EL' : (A ++ [q]) ++ p :: B = L) by (rewrite <- app_assoc; exact EL).
    assert (EL2 : (A ++ [q; p]) ++ B = L) by (rewrite <- app_assoc; exact EL).
    assert (NP : nodes (A ++ [q; p])) by (rewrite <- EL2 in HL; exact (nodes_app_l _ _ HL)).
    assert (App : (A ++ [q]) ++ [p] = A ++ [q; p]) by (rewrite <- app_assoc; reflexivity).
    set (st1 := removes st0 (rev B) i) in *.
    assert (Lk1 : links st1 i (A ++ [q; p])).
    { apply links_removes; [lia|now rewrite EL2|now rewrite EL2]. }
    rewrite removes_cons in El. fold st1 in El.
    set (st2 := set_bd st i (Some (data p i))).
    assert (E2 : leq (reinsert st2 p i) st1).
    { apply dance; [|exact El]. rewrite <- App in Lk1, NP. exact (proj2 (links_remove st1 i (A ++ [q]) p (Nat.lt_le_incl _ _ Hi) NP Lk1)). }
    set (st3 := reinsert st2 p i) in *.
    assert (Enx : nx st3 i p = hd n B).
    { rewrite (proj1 (E2 i p)). unfold st1. rewrite (proj1 (removes_above st0 (rev B) i i (le_n i) p)). rewrite <- hd_snoc.
      pose proof (NoDup_sent _ HL) as ND. rewrite <- EL' in ND. rewrite <- EL' in Lk. exact (proj2 (proj2 (linked_in n data st0 i (A ++ [q]) p B ND Lk))). }
    rewrite Enx. set (hv' := (hvol + ar st q i * (data p i - data q i))%Q). set (st4 := set_vol st3 p i hv').
    assert (I3 : ign st4 = ign st) by exact (proj1 (reinsert_rest m data st2 p i)).
    assert (E4 : leq st4 st1) by (intros k z; exact (E2 k z)).
    destruct (area_ok st4 (A ++ [q; p]) p) as [st5 [F1 [F2 [F3 [F4 F5]]]]].
    { rewrite I3. apply Hg. now left. } { destruct A; discriminate. } { exact NP. }
    { exact (links_leq st1 st4 i _ (leq_sym _ _ E4) Lk1). }
    replace (length (A ++ [q; p])) with (length A + 1 + 1) in F1 by (rewrite app_length; simpl; lia). rewrite F1.
    assert (El5 : leq st5 st1) by (exact (leq_trans _ _ _ (leq_sym _ _ F2) E4)).
    replace (length A + 1) with (length (A ++ [q])) by (rewrite app_length; reflexivity).
    apply IH.
    + exact EL'.
    + simpl in Hf. lia.
    + exact El5.
    + rewrite App. exact F4.
    + rewrite App. unfold hv'. rewrite (vol_step i A q p Hi NP), <- EV, Ea; [reflexivity|].
      intros z Hz. rewrite <- EL' in Hs. exact (sorted_split i _ p B z Hs Hz).
    + intros z Hz. rewrite F5; [rewrite I3; apply Hg; now right|]. intros ->.
      rewrite <- EL' in HL. destruct HL as [ND _]. apply NoDup_app_r in ND. inversion ND. contradiction.
Qed.

(** The whole level, without bounds. *)
Lemma level_ok fuel : L <> [] -> length L < fuel -> (forall z, ign st0 z = 0) -> bd st0 i = None -> 0 < i ->
  exists v st', level n m data rec fuel i (length L) st0 = Some (v, st') /\ (v == mes (S i) L)%Q.
Proof.
  intros NL Hf Hg Hb Hi0. unfold level.
  assert (El : pv st0 i n = last (n :: L) n).
  { destruct (exists_last NL) as [L' [x E]]. rewrite E. change (n :: L' ++ [x]) with ((n :: L') ++ [x]). rewrite last_last.
    pose proof Lk as K. unfold Proofs_HV.linked in K. rewrite E, <- app_assoc in K. simpl app in K. rewrite app_comm_cons in K. apply chain_app in K. destruct K as [_ [_ [K _]]]. exact K. }
  rewrite El.
  destruct (reset_ok i L [] st0 fuel) as [s1 [R1 [R2 R3]]].
  { now rewrite app_nil_r. } { now rewrite app_nil_r. } { exact Hf. }
  rewrite R1. assert (G1 : forall z, ign s1 z = 0) by (intros z; rewrite R3, Hg; now destruct (_ && _)).
  assert (Lk1 : linked s1 i L) by (exact (linked_leq n st0 s1 i L (proj1 R2) Lk)).
  destruct (exists_last NL) as [L' [x EL]].
  assert (El1 : pv s1 i n = x).
  { rewrite <- (proj2 (proj1 R2 i n)), El, EL. change (n :: L' ++ [x]) with ((n :: L') ++ [x]). apply last_last. }
  rewrite El1.
  destruct (take_out_ok i L HL L' x [] s1 fuel) as [A' [q [B [T1 [T2 T3]]]]].
  { now symmetry. } { exact Lk1. } { rewrite EL, app_length in Hf. simpl in Hf. lia. }
  replace (length L) with (length L' + 1) by (rewrite EL, app_length; reflexivity).
  simpl hd in T2. rewrite T2. rewrite app_nil_r. clear T2.
  assert (EA : A' = []).
  { destruct T3 as [->|[A0 [r [_ [T3 _]]]]]; [reflexivity|]. exfalso. rewrite removes_unbounded in T3 by (rewrite <- (proj2 (proj2 (proj2 R2))); exact Hb). discriminate. }
  subst A'. simpl length. simpl Nat.add. simpl Nat.ltb. cbv iota.
  simpl app in T1. rewrite <- EL in T1.
  assert (Hq : q < n) by (apply HL; rewrite <- T1; now left).
  set (s2 := removes s1 (rev B) i). set (s3 := set_vol (init_area data s2 q i) q i 0%Q).
  assert (L2 : leq s3 s2) by (intros k z; now split).
  assert (Lq : links s2 i [q]).
  { apply links_removes; [lia|simpl; now rewrite T1|]. simpl. rewrite T1. exact (links_leq _ _ _ _ (proj1 R2) Lks). }
  assert (NQ : nodes [q]) by (split; [constructor; [intros []|constructor]|intros z [<-|[]]; exact Hq]).
  assert (I3 : forall z, ign s3 z = 0).
  { intros z. change (ign s3 z) with (ign s2 z). unfold s2. destruct (removes_rest s1 (rev B) i) as [-> _]. apply G1. }
  destruct (area_ok s3 [q] q) as [s4 [F1 [F2 [F3 [F4 F5]]]]].
  { rewrite I3. exact Hi0. } { discriminate. } { exact NQ. } { exact (links_leq _ _ _ _ (leq_sym _ _ L2) Lq). }
  simpl length in F1. change (1 <? 1) with false. cbv iota. fold s2. fold s3. rewrite F1.
  assert (RL : leq s2 (removes st0 (rev B) i)).
  { unfold s2. clear -R2. destruct R2 as [R2 _]. revert s1 st0 R2. generalize (rev B). intros l. induction l as [|b l IH]; intros s1 s0 R.
    - exact (leq_sym _ _ R).
    - simpl. apply IH. now apply remove_leq. }
  destruct (put_back_ok B [] q s4 fuel 0%Q) as [v [q' [st' [P1 [P2 P3]]]]].
  { exact T1. } { rewrite <- T1 in Hf. simpl in Hf. lia. }
  { exact (leq_trans _ _ _ (leq_trans _ _ _ (leq_sym _ _ F2) L2) RL). }
  { exact F4. } { simpl app. rewrite (vol_first i q Hi Hq). reflexivity. }
  { intros z Hz. rewrite F5; [rewrite I3; exact Hi0|]. intros ->. rewrite <- T1 in HL. destruct HL as [ND _]. inversion ND. contradiction. }
  simpl length in P1. simpl Nat.add in P1. rewrite P1, (get_ok q' i P2). eexists _, _. split; [reflexivity|]. exact P3.
Qed.
End PutBack.
End Level.
