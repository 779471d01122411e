(** Lemmas on Model_Features. *)
From Coq Require Import Bool Arith ZArith QArith Lia Lqa Permutation Sorted String List.
From Verif Require Import Lib_List Model_Features.
Import ListNotations.
Open Scope nat_scope.

(* ---------- wrappers ---------- *)
Section Wrappers.
  Context {V : Type}.
  Implicit Types (fixed : list (string * V)) (x : list V).

  Definition free_before fixed (names : list string) (i : nat) : nat :=
    length (filter (fun v => match dlookup fixed v with Some _ => false | None => true end) (firstn i names)).
  Definition n_free fixed (names : list string) : nat :=
    length (filter (fun v => match dlookup fixed v with Some _ => false | None => true end) names).

  Lemma place_spec fixed names : forall x, length x = n_free fixed names ->
    exists row, place (masks names fixed) x (values names fixed) = Some row /\ length row = length names /\
      forall i v, nth_error names i = Some v ->
        nth_error row i = match dlookup fixed v with Some w => Some w | None => nth_error x (free_before fixed names i) end.
  Proof.
    induction names as [|v names IH]; intros x L; unfold n_free, masks, values in *; cbn in *.
    - destruct x; [|discriminate]. exists []. repeat split; auto. intros [|i] v; discriminate.
    - destruct (dlookup fixed v) as [w|] eqn:E; cbn in *.
      + destruct (IH x L) as (row & P & Ln & H). rewrite P. exists (w :: row). cbn. rewrite Ln. repeat split; auto.
        intros [|i] u Hu; cbn in *; [injection Hu as <-; now rewrite E|]. rewrite (H i u Hu). unfold free_before. cbn. now rewrite E.
      + destruct x as [|a x]; [discriminate|]. destruct (IH x) as (row & P & Ln & H); [injection L; auto|]. rewrite P.
        exists (a :: row). cbn. rewrite Ln. repeat split; auto.
        intros [|i] u Hu; cbn in *; [injection Hu as <-; now rewrite E|]. rewrite (H i u Hu). unfold free_before. cbn. now rewrite E.
  Qed.
  Lemma place_none fixed names : forall x, length x <> n_free fixed names -> place (masks names fixed) x (values names fixed) = None.
  Proof.
    induction names as [|v names IH]; intros x L; unfold n_free, masks, values in *; cbn in *.
    - destruct x; [now elim L|reflexivity].
    - destruct (dlookup fixed v) as [w|] eqn:E; cbn in *; [now rewrite IH|]. destruct x as [|a x]; auto. cbn in L. rewrite IH; auto.
  Qed.
  Lemma all_some_map {A B} (f : A -> option B) l r : all_some (map f l) = Some r <-> Forall2 (fun a b => f a = Some b) l r.
  Proof.
    revert r. induction l as [|a l IH]; intros r; cbn.
    - split; [intros [= <-]; constructor|intros H; inversion H; reflexivity].
    - destruct (f a) as [b|] eqn:E.
      + destruct (all_some (map f l)) as [r'|] eqn:E'; cbn.
        * split; [intros [= <-]; constructor; auto; now apply IH|]. intros H. inversion H; subst. rewrite E in H2. injection H2 as <-.
          apply IH in H4. injection H4 as ->. reflexivity.
        * split; [discriminate|]. intros H. inversion H; subst. apply IH in H4. discriminate.
      + split; [discriminate|]. intros H. inversion H; congruence.
  Qed.
  Lemma all_ok_map {A B} (f : A -> option B) l r : all_ok (map f l) = Some r <-> Forall2 (fun a b => f a = Some b) l r.
  Proof.
    revert r. induction l as [|a l IH]; intros r; cbn.
    - split; [intros [= <-]; constructor|intros H; inversion H; reflexivity].
    - destruct (f a) as [b|] eqn:E.
      + destruct (all_ok (map f l)) as [r'|] eqn:E'; cbn.
        * split; [intros [= <-]; constructor; auto; now apply IH|]. intros H. inversion H; subst. rewrite E in H2. injection H2 as <-.
          apply IH in H4. injection H4 as ->. reflexivity.
        * split; [discriminate|]. intros H. inversion H; subst. apply IH in H4. discriminate.
      + split; [discriminate|]. intros H. inversion H; congruence.
  Qed.
End Wrappers.

Lemma F2_len {A B} (R : A -> B -> Prop) l m : Forall2 R l m -> length l = length m.
Proof. induction 1; cbn; congruence. Qed.
Lemma F2_nth {A B} (R : A -> B -> Prop) l m i a b : Forall2 R l m -> nth_error l i = Some a -> nth_error m i = Some b -> R a b.
Proof. intros H. revert i. induction H; intros [|i] Ha Hb; try discriminate; cbn in *; [congruence|eauto]. Qed.
Lemma F2_map_l {A B C} (f : A -> B) (R : B -> C -> Prop) l m : Forall2 R (map f l) m <-> Forall2 (fun a c => R (f a) c) l m.
Proof.
  revert m. induction l as [|a l IH]; intros m; cbn; split; intros H; inversion H; subst; constructor; auto; now apply IH.
Qed.
Lemma F2_imp {A B} (R R' : A -> B -> Prop) l m : (forall a b, In a l -> R a b -> R' a b) -> Forall2 R l m -> Forall2 R' l m.
Proof. intros HI H. induction H; constructor; auto. - apply HI; auto. now left. - apply IHForall2. intros. apply HI; auto. now right. Qed.

(* ---------- one-hot ---------- *)
Section OneHot.
  Context {V : Type} (eqb : V -> V -> bool) (to_float : V -> option Q).
  Notation encode := (encode eqb to_float).
  Notation position := (position eqb).

  Lemma insert_perm kv (l : list (nat * list V)) : Permutation (insert_level kv l) (kv :: l).
  Proof.
    induction l as [|a l IH]; cbn; auto. destruct (fst kv <=? fst a); auto. rewrite IH. apply perm_swap.
  Qed.
  Lemma sort_perm (l : list (nat * list V)) : Permutation (sort_levels l) l.
  Proof. unfold sort_levels. induction l as [|a l IH]; cbn; auto. rewrite insert_perm. now constructor. Qed.
  Lemma insert_sorted kv (l : list (nat * list V)) : StronglySorted (fun a b => fst a <= fst b) l -> StronglySorted (fun a b => fst a <= fst b) (insert_level kv l).
  Proof.
    induction 1 as [|a l S IH F]; cbn; [repeat constructor|]. destruct (fst kv <=? fst a) eqn:E.
    - apply Nat.leb_le in E. constructor; [constructor; auto|]. constructor; auto. eapply Forall_impl; [|exact F]. cbn. lia.
    - apply Nat.leb_gt in E. constructor; auto. apply Forall_forall. intros b Hb. apply (Permutation_in _ (insert_perm _ _)) in Hb as [<-|Hb]; [lia|].
      rewrite Forall_forall in F. auto.
  Qed.
  Lemma sort_sorted (l : list (nat * list V)) : StronglySorted (fun a b => fst a <= fst b) (sort_levels l).
  Proof. unfold sort_levels. induction l; cbn; [constructor|]. now apply insert_sorted. Qed.

  Lemma delete_app_length {A} idx : forall (x : list A) k, 
    length (filter (fun p => negb (existsb (Nat.eqb (fst p)) idx)) (combine (seq k (length x)) x)) +
    length (filter (fun i => existsb (Nat.eqb i) idx) (seq k (length x))) = length x.
  Proof.
    induction x as [|a x IH]; intros k; cbn; auto. specialize (IH (S k)). destruct (existsb (Nat.eqb k) idx); cbn; lia.
  Qed.
  Lemma delete_length {A} idx (x : list A) : NoDup idx -> (forall i, In i idx -> i < length x) -> length (delete_cols idx x) + length idx = length x.
  Proof.
    intros N H. unfold delete_cols. rewrite map_length. pose proof (delete_app_length idx x 0) as E.
    assert (P : Permutation (filter (fun i => existsb (Nat.eqb i) idx) (seq 0 (length x))) idx).
    { apply NoDup_Permutation; [apply NoDup_filter, seq_NoDup|auto|]. intros i. rewrite filter_In, in_seq, existsb_eqb_In. split; [tauto|]. intros Hi. split; auto. specialize (H i Hi). lia. }
    apply Permutation_length in P. lia.
  Qed.

  Lemma del_forall2 {A B} (R : A -> B -> Prop) idx : forall (x : list A) (y : list B) k, length x = length y ->
    (Forall2 R (map snd (filter (fun p => negb (existsb (Nat.eqb (fst p)) idx)) (combine (seq k (length x)) x)))
               (map snd (filter (fun p => negb (existsb (Nat.eqb (fst p)) idx)) (combine (seq k (length y)) y))) <->
     forall i a b, ~ In (k + i) idx -> nth_error x i = Some a -> nth_error y i = Some b -> R a b).
  Proof.
    induction x as [|a x IH]; intros [|b y] k L; try discriminate; cbn.
    - split; [intros _ [|i]; discriminate|constructor].
    - injection L as L. specialize (IH y (S k) L). destruct (existsb (Nat.eqb k) idx) eqn:E; cbn.
      + rewrite IH. apply existsb_eqb_In in E. split; intros H i u v Hi Hu Hv.
        * destruct i as [|i]; [rewrite Nat.add_0_r in Hi; contradiction|]. cbn in *. apply (H i); auto. now rewrite Nat.add_succ_r in Hi.
        * apply (H (S i)); auto. now rewrite Nat.add_succ_r.
      + assert (N : ~ In k idx) by (intros X; apply existsb_eqb_In in X; congruence).
        split.
        * intros H. inversion H as [|? ? ? ? Hab Hxy]; subst. rewrite IH in Hxy. intros [|i] u v Hi Hu Hv; cbn in *; [congruence|].
          apply (Hxy i); auto. now rewrite Nat.add_succ_r in Hi.
        * intros H. constructor; [apply (H 0); auto; now rewrite Nat.add_0_r|]. apply IH. intros i u v Hi Hu Hv. apply (H (S i)); auto.
          now rewrite Nat.add_succ_r.
  Qed.
  Lemma delete_forall2 {A B} (R : A -> B -> Prop) idx (x : list A) (y : list B) : length x = length y ->
    (Forall2 R (delete_cols idx x) (delete_cols idx y) <->
     forall i a b, ~ In i idx -> nth_error x i = Some a -> nth_error y i = Some b -> R a b).
  Proof. intros L. apply (del_forall2 R idx x y 0 L). Qed.
  Lemma delete_in {A} idx (x : list A) a : In a (delete_cols idx x) <-> exists i, ~ In i idx /\ nth_error x i = Some a.
  Proof.
    unfold delete_cols. rewrite in_map_iff. split.
    - intros ([i b] & <- & H). apply filter_In in H as [H E]. apply in_indexed in H. exists i. cbn in *. split; auto.
      apply negb_true_iff in E. intros X. apply existsb_eqb_In in X. congruence.
    - intros (i & N & H). exists (i, a). split; auto. apply filter_In. split; [now apply in_indexed|]. cbn. apply negb_true_iff.
      destruct (existsb (Nat.eqb i) idx) eqn:E; auto. apply existsb_eqb_In in E. contradiction.
  Qed.

  Lemma position_spec x cats p : position x cats = Some p -> exists c, nth_error cats p = Some c /\ eqb x c = true.
  Proof.
    revert p. induction cats as [|c cats IH]; cbn; intros p H; [discriminate|]. destruct (eqb x c) eqn:E.
    - injection H as <-. exists c. auto.
    - destruct (position x cats) as [q|]; [|discriminate]. injection H as <-. now apply IH.
  Qed.
  Lemma position_defined x cats : (exists c, In c cats /\ eqb x c = true) -> exists p, position x cats = Some p.
  Proof.
    induction cats as [|c cats IH]; cbn; intros (d & H & E); [destruct H|]. destruct (eqb x c) eqn:Ec; [now exists 0|].
    destruct H as [->|H]; [congruence|]. destruct IH as [p ->]; [now exists d|now exists (S p)].
  Qed.
  Lemma unit_row_length n k : length (unit_row n k) = n.
  Proof. unfold unit_row. now rewrite map_length, seq_length. Qed.
  Lemma unit_row_nth n k j : j < n -> nth_error (unit_row n k) j = Some (if j =? k then 1%Q else 0%Q).
  Proof. intros H. unfold unit_row. rewrite nth_error_map, nth_error_seq. apply Nat.ltb_lt in H. now rewrite H. Qed.
  Lemma unit_row_inj n k l : k < n -> unit_row n k = unit_row n l -> k = l.
  Proof.
    intros Hk E. pose proof (unit_row_nth n k k Hk) as A. rewrite E, (unit_row_nth n l k Hk), Nat.eqb_refl in A.
    destruct (k =? l) eqn:X; [now apply Nat.eqb_eq in X|discriminate].
  Qed.
End OneHot.

(* ---------- proportional selection ---------- *)
Lemma qmin_le l : forall x, (qmin x l <= x)%Q /\ (forall y, In y l -> qmin x l <= y)%Q /\ (qmin x l = x \/ In (qmin x l) l).
Proof.
  induction l as [|y l IH]; intros x; cbn; [repeat split; [apply Qle_refl|intros ? []|auto]|].
  destruct (Qle_bool y x) eqn:E.
  - apply Qle_bool_iff in E. destruct (IH y) as (A & B & C). split; [eapply Qle_trans; eauto|]. split.
    + intros z [<-|Hz]; auto.
    + destruct C as [->|C]; auto.
  - assert (X : (x < y)%Q). { apply Qnot_le_lt. intros X. apply Qle_bool_iff in X. congruence. }
    destruct (IH x) as (A & B & C). split; auto. split; [|destruct C as [->|C]; auto].
    intros z [<-|Hz]; auto. eapply Qle_trans; [exact A|]. now apply Qlt_le_weak.
Qed.
Lemma minimum_le l y : In y l -> (minimum l <= y)%Q.
Proof. destruct l as [|x l]; [intros []|]. cbn. destruct (qmin_le l x) as (A & B & _). intros [<-|H]; auto. Qed.
Lemma minimum_in l : l <> [] -> In (minimum l) l.
Proof. destruct l as [|x l]; [congruence|]. intros _. cbn. destruct (qmin_le l x) as (_ & _ & [->|H]); [now left|now right]. Qed.

Lemma qsum_shift l m : (qsum (map (fun p => p - m) l) == qsum l - m * inject_Z (Z.of_nat (length l)))%Q.
Proof.
  induction l as [|x l IH]; [cbn; ring|]. cbn [map qsum fold_right length]. fold (qsum (map (fun p => (p - m)%Q) l)). fold (qsum l). rewrite IH.
  rewrite Nat2Z.inj_succ, <- Z.add_1_r, inject_Z_plus. change (inject_Z 1) with 1%Q. ring.
Qed.
Lemma qsum_div l t : ~ (t == 0)%Q -> (qsum (map (fun p => p / t) l) == qsum l / t)%Q.
Proof.
  intros H. induction l as [|x l IH]; cbn; [field; auto|]. fold (qsum (map (fun p => (p / t)%Q) l)). fold (qsum l). rewrite IH. field. auto.
Qed.
Lemma qsum_nonneg l : (forall x, In x l -> 0 <= x)%Q -> (0 <= qsum l)%Q.
Proof.
  induction l as [|x l IH]; cbn; intros H; [apply Qle_refl|]. fold (qsum l). assert (0 <= x)%Q by (apply H; now left).
  assert (0 <= qsum l)%Q by (apply IH; intros; apply H; now right). lra.
Qed.
Lemma qsum_zero l : (forall x, In x l -> 0 <= x)%Q -> (qsum l == 0)%Q -> forall x, In x l -> (x == 0)%Q.
Proof.
  induction l as [|y l IH]; intros H E x Hx; [destruct Hx|]. cbn in E. fold (qsum l) in E.
  assert (0 <= y)%Q by (apply H; now left). assert (0 <= qsum l)%Q by (apply qsum_nonneg; intros; apply H; now right).
  destruct Hx as [<-|Hx]; [lra|]. apply IH; auto; [intros; apply H; now right|lra].
Qed.

Lemma shares_spec perf s : shares perf = Some s ->
  length s = length perf /\ (qsum s == 1)%Q /\ (forall x, In x s -> 0 <= x)%Q /\
  exists t, (0 < t)%Q /\ s = map (fun p => ((p - minimum perf) / t)%Q) perf.
Proof.
  unfold shares. set (t := (qsum perf - minimum perf * inject_Z (Z.of_nat (length perf)))%Q). destruct (Qeq_bool t 0) eqn:E; [discriminate|]. intros [= <-].
  assert (T0 : ~ (t == 0)%Q) by (intros X; apply Qeq_bool_iff in X; congruence).
  assert (T : (t == qsum (map (fun p => p - minimum perf) perf))%Q) by (rewrite qsum_shift; reflexivity).
  assert (NN : (0 <= qsum (map (fun p => p - minimum perf) perf))%Q).
  { apply qsum_nonneg. intros x Hx. apply in_map_iff in Hx as (p & <- & Hp). apply minimum_le in Hp. lra. }
  assert (TP : (0 < t)%Q) by lra. split; [now rewrite map_length|]. split; [|split].
  - rewrite <- (map_map (fun p => (p - minimum perf)%Q) (fun p => (p / t)%Q)), qsum_div, <- T by auto. field. auto.
  - intros x Hx. apply in_map_iff in Hx as (p & <- & Hp). apply minimum_le in Hp. apply Qle_shift_div_l; auto. lra.
  - exists t. auto.
Qed.

Lemma first_reaching_spec r : forall l acc k, first_reaching r acc l = Some k ->
  exists s, nth_error l k = Some s /\ (r <= acc + qsum (firstn k l) + s)%Q /\ (k = 0 \/ (acc + qsum (firstn k l) < r)%Q).
Proof.
  induction l as [|x l IH]; intros acc k H; cbn in H; [discriminate|]. destruct (Qle_bool r (acc + x)) eqn:E.
  - injection H as <-. apply Qle_bool_iff in E. exists x. cbn. repeat split; auto. lra.
  - destruct (first_reaching r (acc + x) l) as [j|] eqn:F; [|discriminate]. injection H as <-.
    assert (X : (acc + x < r)%Q). { apply Qnot_le_lt. intros X. apply Qle_bool_iff in X. congruence. }
    destruct (IH _ _ F) as (s & A & B & C). exists s. cbn. fold (qsum (firstn j l)). repeat split; auto; [lra|]. right. destruct C as [->|C]; cbn; lra.
Qed.
Lemma first_reaching_some r : forall l acc, (r <= acc + qsum l)%Q -> l <> [] -> exists k, first_reaching r acc l = Some k.
Proof.
  induction l as [|x l IH]; intros acc H N; [congruence|]. cbn in *. fold (qsum l) in H. destruct (Qle_bool r (acc + x)) eqn:E; [now exists 0|].
  assert (X : (acc + x < r)%Q). { apply Qnot_le_lt. intros X. apply Qle_bool_iff in X. congruence. }
  destruct l as [|y l]; [cbn in H; lra|]. destruct (IH (acc + x)%Q) as [k ->]; [lra|discriminate|now exists (S k)].
Qed.
Lemma select_lt perf r k : select perf r = Some k -> k < length perf.
Proof.
  unfold select. destruct (shares perf) as [s|] eqn:E; [|discriminate]. intros H. apply first_reaching_spec in H as (x & A & _).
  apply shares_spec in E as (<- & _). eapply nth_error_lt; eauto.
Qed.
Lemma shares_defined perf : (exists x y, In x perf /\ In y perf /\ ~ (x == y)%Q) -> exists s, shares perf = Some s.
Proof.
  intros (x & y & Hx & Hy & N). unfold shares. destruct (Qeq_bool _ 0) eqn:E; [|eauto]. exfalso. apply Qeq_bool_iff in E.
  rewrite <- qsum_shift in E. assert (Z : forall z, In z perf -> (z - minimum perf == 0)%Q).
  { intros z Hz. apply (qsum_zero _) with (x := (z - minimum perf)%Q) in E; auto.
    - intros w Hw. apply in_map_iff in Hw as (p & <- & Hp). apply minimum_le in Hp. lra.
    - change (z - minimum perf)%Q with ((fun p => (p - minimum perf)%Q) z). now apply in_map. }
  apply N. specialize (Z x Hx) as A. specialize (Z y Hy) as B. lra.
Qed.

Lemma remove_at_length {A} k (l : list A) : k < length l -> S (length (remove_at k l)) = length l.
Proof. intros H. unfold remove_at. rewrite app_length, firstn_length, skipn_length. lia. Qed.
Lemma remove_at_perm {A} k (l : list A) a : nth_error l k = Some a -> Permutation l (a :: remove_at k l).
Proof.
  revert k. induction l as [|b l IH]; intros [|k] H; cbn in *; try discriminate.
  - injection H as ->. unfold remove_at. cbn. destruct l; reflexivity.
  - unfold remove_at in *. cbn. rewrite perm_swap. constructor. now apply IH.
Qed.

(** pairwise different numbers *)
Definition distinct (l : list Q) : Prop := ForallOrdPairs (fun x y => ~ (x == y)%Q) l.

Lemma distinct_perm l m : Permutation l m -> distinct l -> distinct m.
Proof.
  unfold distinct. induction 1 as [|x l m P IH|x y l|l m n P1 IH1 P2 IH2]; intros D; auto.
  - inversion D as [|? ? F D']; subst. constructor; auto. apply Forall_forall. intros z Hz. rewrite Forall_forall in F. apply F.
    now apply (Permutation_in _ (Permutation_sym P)).
  - inversion D as [|? ? F D']; subst. inversion D' as [|? ? F' D'']; subst. inversion F; subst. constructor; [constructor; auto|constructor; auto].
    intros E. apply H1. now symmetry.
Qed.
