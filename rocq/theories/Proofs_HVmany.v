(** The hypervolume for any number of objectives: stable sorting, and the points (C220). *)
From Coq Require Import List Bool Arith ZArith QArith Permutation Sorted Lia Lqa Setoid.
From Verif Require Import Lib_List Model_Pareto Spec_Pareto Model_HV Spec_HV Spec_HVmany Proofs_HVmeasure Proofs_HVdom Proofs_HV Proofs_HVlevel Proofs_HVinit Proofs_HVgen.
Import ListNotations.
Open Scope nat_scope.

Section Stable.
Variables (n : nat) (data : nat -> nat -> Q).
Lemma prec_app_r l a b x : prec l a b -> prec (l ++ [x]) a b.
Proof. intros [U [V [-> I]]]. exists U, (V ++ [x]). split; [now rewrite <- app_assoc|exact I]. Qed.
Lemma prec_cons l a b x : prec l a b -> prec (x :: l) a b.
Proof. intros [U [V [-> I]]]. exists (x :: U), V. split; [reflexivity|now right]. Qed.
Lemma prec_head l a b : In b l -> prec (a :: l) a b.
Proof. intros I. apply in_split in I. destruct I as [U [V ->]]. exists (a :: U), V. split; [reflexivity|now left]. Qed.
Lemma prec_inv l a b x : prec (x :: l) a b -> (x = a /\ In b l) \/ prec l a b.
Proof.
  intros [[|u U] [V [E I]]]; [destruct I|]. simpl in E. injection E as <- ->. destruct I as [<-|I].
  - left. split; [reflexivity|]. apply in_or_app. right. now left.
  - right. exists U, V. auto.
Qed.
Lemma prec_In l a b : prec l a b -> In a l /\ In b l.
Proof. intros [U [V [-> I]]]. split; apply in_or_app; [now left|right; now left]. Qed.
Lemma insert_keeps k x l a b : prec l a b -> prec (insert data k x l) a b.
Proof.
  induction l as [|z l IH]; intros H; [destruct H as [[|? ?] [V [E _]]]; discriminate|]. simpl. destruct (Qltb (data x k) (data z k)); [now apply prec_cons|].
  apply prec_inv in H. destruct H as [[-> I]|H]; [|now apply prec_cons, IH].
  apply prec_head. apply (Permutation_in b (Permutation_sym (insert_perm data k x l))). now right.
Qed.
Lemma insert_after k x l a : In a l -> (data a k <= data x k)%Q -> StronglySorted (before data k) l -> prec (insert data k x l) a x.
Proof.
  induction l as [|z l IH]; intros I L SS; [destruct I|]. inversion SS as [|? ? S1 S2]; subst. simpl. destruct (Qltb (data x k) (data z k)) eqn:C.
  - exfalso. apply Qltb_spec in C. destruct I as [<-|I]; [lra|]. rewrite Forall_forall in S2. specialize (S2 a I). unfold before in S2. lra.
  - destruct I as [<-|I]; [|now apply prec_cons, IH]. apply prec_head. apply (Permutation_in x (Permutation_sym (insert_perm data k x l))). now left.
Qed.
(** sort_by keeps the order of two nodes unless it must change it. *)
Lemma sort_keeps k l a b : NoDup l -> prec l a b -> (data a k <= data b k)%Q -> prec (sort_by data k l) a b.
Proof.
  induction l as [|x l IH] using rev_ind; intros ND H L; [destruct H as [[|? ?] [V [E _]]]; discriminate|].
  unfold sort_by. rewrite fold_left_app. simpl. fold (sort_by data k l). destruct H as [U [V [E I]]].
  symmetry in E. destruct (split_app b U V l [x] E) as [[B' [-> ->]]|[A' [E' ->]]].
  - apply insert_keeps, IH; [now apply NoDup_app_l in ND|now exists U, B'|exact L].
  - destruct A' as [|? A']; [|destruct A'; discriminate]. injection E' as <- <-. rewrite app_nil_r in I.
    apply insert_after; [|exact L|apply sort_ok]. exact (Permutation_in a (Permutation_sym (proj1 (sort_ok data k l))) I).
Qed.
Lemma seq_prec a b : a < b < n -> prec (seq 0 n) a b.
Proof.
  intros H. exists (seq 0 b), (seq (S b) (n - S b)). split; [|apply in_seq; lia].
  replace n with (b + S (n - S b)) at 1 by lia. now rewrite seq_app.
Qed.
Lemma order_nodup k : NoDup (order n data k).
Proof. apply (Permutation_NoDup (Permutation_sym (proj1 (order_ok n data k)))), seq_NoDup. Qed.
(** Equal points are in the same order in all lists. *)
Lemma order_equal a b : a < b < n -> (forall k, (data a k == data b k)%Q) -> forall k, prec (order n data k) a b.
Proof.
  intros H E k. assert (LE : forall k, (data a k <= data b k)%Q) by (intros j; rewrite E; apply Qle_refl).
  induction k as [|k IH]; simpl order; apply sort_keeps; [apply seq_NoDup|now apply seq_prec|apply LE|apply order_nodup|exact IH|apply LE].
Qed.
Lemma prec_total l a b : NoDup l -> In a l -> In b l -> a <> b -> prec l a b \/ prec l b a.
Proof.
  intros ND Ha Hb N. apply in_split in Hb. destruct Hb as [U [V ->]]. apply in_app_or in Ha. destruct Ha as [Ha|[E|Ha]]; [left; now exists U, V|congruence|].
  right. apply in_split in Ha. destruct Ha as [V1 [V2 ->]]. exists (U ++ b :: V1), V2. split; [now rewrite <- app_assoc|]. apply in_or_app. right. now left.
Qed.
Lemma prec_asym l a b : NoDup l -> prec l a b -> prec l b a -> False.
Proof.
  intros ND [U [V [-> I]]] [U' [V' [E I']]]. apply in_split in I. destruct I as [U1 [U2 ->]].
  assert (E1 : U1 ++ a :: U2 ++ b :: V = U' ++ a :: V') by (rewrite <- E, <- app_assoc; reflexivity).
  rewrite <- app_assoc in ND. destruct (split_unique a _ _ _ _ ND E1) as [<- _].
  apply (NoDup_app_dis _ _ b ND I'). right. apply in_or_app. right. now left.
Qed.
Lemma prec_sorted k a b : prec (order n data k) a b -> (data a k <= data b k)%Q.
Proof. intros [U [V [E I]]]. pose proof (proj2 (order_ok n data k)) as SS. rewrite E in SS. exact (sorted_split data k U b V a SS I). Qed.
Lemma order_In k x : In x (order n data k) <-> x < n.
Proof.
  pose proof (proj1 (order_ok n data k)) as P. split; intros I; [apply (Permutation_in x P), in_seq in I; lia|].
  apply (Permutation_in x (Permutation_sym P)), in_seq. lia.
Qed.
Lemma order_lt k a b : a < n -> b < n -> (data a k < data b k)%Q -> prec (order n data k) a b.
Proof.
  intros Ha Hb L. assert (N : a <> b) by (intros ->; lra).
  destruct (prec_total _ a b (order_nodup k) (proj2 (order_In k a) Ha) (proj2 (order_In k b) Hb) N) as [H|H]; [exact H|]. apply prec_sorted in H. lra.
Qed.
(** The hypothesis of hv_gen. *)
Lemma order_covers m j g p x : 2 <= j -> j <= g -> g < m -> p < n -> x < n ->
  (forall j, 2 <= j -> j + 1 < m -> (forall k, k <= j + 1 -> (data p k <= data x k)%Q) -> (data p j == data x j)%Q -> forall k, (data p k == data x k)%Q) ->
  (forall k, k < g -> (data p k <= data x k)%Q) -> prec (order n data g) p x -> prec (order n data j) p x.
Proof.
  intros H2 Hj Hg Hp Hx HS H P. destruct (Nat.eq_dec j g) as [->|N]; [exact P|].
  pose proof (prec_sorted g p x P) as Lg. pose proof (H j ltac:(lia)) as Lj.
  destruct (Qlt_le_dec (data p j) (data x j)) as [L|L]; [now apply order_lt|].
  assert (E : forall k, (data p k == data x k)%Q).
  { apply (HS j); [lia|lia| |lra]. intros k Hk. destruct (Nat.eq_dec k g) as [->|Nk]; [exact Lg|]. apply H. lia. }
  assert (px : p <> x) by (exact (prec_neq _ p x (order_nodup g) P)).
  destruct (Nat.lt_ge_cases p x) as [Lt|Ge]; [now apply order_equal|]. exfalso.
  apply (prec_asym (order n data g) p x (order_nodup g) P). apply order_equal; [lia|]. intros k. rewrite E. reflexivity.
Qed.
End Stable.

Section Many.
Variables (ref : list Q) (Gs : list (list Q)) (P : list (list Q)).
Notation m := (length ref).
Notation n := (length P).
Notation dat := (dat ref P).
Hypothesis HP : forall y, In y P -> length y = m /\ forall k, k < m -> (nth k ref 0 < nth k y 0)%Q.
Hypothesis HGs : grid_for Gs ref P.
Hypothesis HSep : separated (fun y => In y P).

Lemma many_ok : 2 <= m ->
  exists v st, hv n m dat (S (S n)) (m - 1) n (initialize n m dat) = Some (v, st) /\ (v == mes (GG Gs) (rf ref) (yy P) m (seq 0 n))%Q.
Proof.
  intros Hm. destruct (Nat.eq_dec n 0) as [E0|N0].
  { rewrite E0. exists 0%Q. eexists. split; [destruct (m - 1); reflexivity|]. simpl seq. rewrite mes_nil. reflexivity. }
  assert (HP' : forall y, In y P -> length y = m /\ forall k, k < m -> (nth k ref 0 <= nth k y 0)%Q).
  { intros y Hy. destruct (HP y Hy) as [H1 H2]. split; [exact H1|]. intros k Hk. specialize (H2 k Hk). lra. }
  assert (HO : forall k, k < m -> Permutation (order n dat k) (seq 0 n) /\ StronglySorted (before dat k) (order n dat k)) by (intros; apply order_ok).
  destruct (initialize_ok n m dat) as [Lk [R1 [R2 [R3 R4]]]].
  assert (NS : nodes n (seq 0 n)) by (split; [apply seq_NoDup|intros x Hx; apply in_seq in Hx; lia]).
  destruct (hv_gen n m dat (GG Gs) (rf ref) (yy P) (order n dat) ltac:(reflexivity) HO (grid_ok ref Gs P HP' HGs)) with (fuel := S (S n)) (i := m - 1) (st := initialize n m dat) (T := seq 0 n) as [v [st [E [Ev _]]]].
  - intros x k Hx Hk. apply (HP (pt P x)); [now apply nth_In|exact Hk].
  - intros j g p x H2 Hj Hg Hp Hx H Pr. apply (order_covers n dat m j g p x); auto. clear j g H2 Hj Hg H Pr. intros j H2 Hj H E k.
    assert (Ip : In (nth p P []) P) by (now apply nth_In). assert (Ix : In (nth x P []) P) by (now apply nth_In).
    destruct (HP _ Ip) as [Lp _], (HP _ Ix) as [Lx _].
    assert (Q : Forall2 Qeq (nth p P []) (nth x P [])).
    { apply (HSep _ _ Ip Ix j H2); [rewrite Lp; exact Hj| |].
      - intros i Hi. specialize (H i Hi). unfold Proofs_HVinit.dat in H. lra.
      - unfold Proofs_HVinit.dat in E. lra. }
    unfold Proofs_HVinit.dat. revert Q. generalize (nth p P []) (nth x P []). clear. intros u w F. revert k.
    assert (K : forall k, (nth k u 0 == nth k w 0)%Q) by (induction F; intros [|k]; simpl; auto; reflexivity). intros k. rewrite K. reflexivity.
  - lia.
  - lia.
  - destruct P; [contradiction|discriminate].
  - exact NS.
  - intros k Hk. rewrite (act_perm ref P k (seq 0 n) (Permutation_refl _)). apply Lk. lia.
  - intros x _ Hx. rewrite R1 in Hx. simpl in Hx. lia.
  - intros _ k _ A x B b _ Eb. rewrite R4 in Eb. discriminate.
  - intros k. rewrite R2. reflexivity.
  - rewrite seq_length in E. exists v, st. split; [exact E|]. rewrite Ev. replace (S (m - 1)) with m by lia. reflexivity.
Qed.
End Many.

Lemma hypervolume_many ref Y Gs : 1 <= length ref -> rectangular (length ref) Y -> grid_for Gs ref Y -> inside ref Y -> separated (above ref Y) ->
  exists v, hypervolume ref Y = Some v /\ (v == measure Gs ref Y)%Q.
Proof.
  intros Hm HY HG HI HSep. destruct (Nat.le_gt_cases (length ref) 3) as [L3|L3]; [apply hypervolume_ok; auto|].
  unfold hypervolume.
  assert (E : forallb (fun y => length y =? length ref) Y = true).
  { apply forallb_forall. intros y Hy. apply Nat.eqb_eq. exact (HY y Hy). }
  rewrite E. set (p := fun y => all2 (fun a r => Qle_bool r a) y ref). set (P := filter p Y).
  assert (Hp : forall y, In y Y -> (p y = true <-> Forall2 Qle ref y)).
  { intros y Hy. unfold p. rewrite all2_ref by (exact (HY y Hy)). pose proof (HY y Hy) as Ly. clear -Ly. revert y Ly.
    induction ref as [|r ref IH]; intros [|a y] Ly; try discriminate; simpl in *.
    - split; [constructor|intros; lia].
    - split.
      + intros H. constructor; [exact (H 0 ltac:(lia))|]. apply IH; [lia|]. intros k Hk. exact (H (S k) ltac:(lia)).
      + intros H. inversion H; subst. intros [|k] Hk; [assumption|]. apply (proj2 (IH y ltac:(lia))); [assumption|lia]. }
  assert (HP : forall y, In y P -> length y = length ref /\ forall k, k < length ref -> (nth k ref 0 < nth k y 0)%Q).
  { intros y Hy. apply filter_In in Hy. destruct Hy as [I C]. split; [exact (HY y I)|]. apply (Hp y I) in C. specialize (HI y I C).
    clear -HI. induction HI as [|r a ref y H F IH]; simpl; intros k Hk; [lia|]. destruct k as [|k]; [exact H|]. apply IH. lia. }
  assert (HGP : grid_for Gs ref P).
  { destruct HG as [H1 H2]. split; [exact H1|]. intros k G EG. destruct (H2 k G EG) as [F1 [F2 F3]]. split; [exact F1|]. split; [exact F2|].
    intros y Hy. apply F3. apply filter_In in Hy. tauto. }
  assert (HSP : separated (fun y => In y P)).
  { intros y z Iy Iz. apply filter_In in Iy, Iz. apply HSep; split; try tauto; apply Hp; tauto. }
  destruct (many_ok ref Gs P HP HGP HSP ltac:(lia)) as [v [st [Ev EM]]]. unfold dat in Ev. rewrite Ev. exists v. split; [reflexivity|].
  rewrite EM. rewrite (measure_filter Gs ref Y p).
  - fold P. pose proof (measure_mes Gs ref (pt P) (length ref)) as MM. destruct HG as [EG _].
    specialize (MM ltac:(lia) EG (seq 0 (length P))). rewrite <- MM.
    + rewrite <- EG at 1. rewrite !firstn_all. replace (map (fun x => firstn (length ref) (pt P x)) (seq 0 (length P))) with P; [reflexivity|].
      transitivity (map (pt P) (seq 0 (length P))).
      * clear. unfold pt. induction P as [|a P IH]; [reflexivity|]. simpl length. simpl seq. simpl map. f_equal. rewrite <- seq_shift, map_map. exact IH.
      * apply map_ext_in. intros x Hx. apply in_seq in Hx. assert (I : In (pt P x) P) by (apply nth_In; lia).
        rewrite <- (proj1 (HP _ I)). now rewrite firstn_all.
    + intros x Hx. apply in_seq in Hx. apply HP, nth_In. lia.
  - intros G IG. apply In_nth_error in IG. destruct IG as [k Ek]. exact (proj1 (proj2 HG k G Ek)).
  - intros y Hy Ly H. unfold p. apply all2_ref; assumption.
Qed.
