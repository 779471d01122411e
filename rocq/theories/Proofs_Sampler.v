(** Lemmas about Model_Sampler.v. *)
From Coq Require Import List Bool Arith ZArith QArith Qabs String Lia.
From Verif Require Import Model_Opt Model_Var Model_Grid Model_Ask Proofs_Ask Model_Sampler Spec_Sampler.
Import ListNotations.
Open Scope nat_scope.

Lemma dedup_in l v : In v (dedup l) -> In v l.
Proof.
  unfold dedup. generalize (@nil val). induction l as [|a l IH]; intros seen H; simpl in *; auto.
  destruct (existsb (val_eqb a) seen); [right; exact (IH _ H)|]. destruct H as [->|H]; auto. right. exact (IH _ H).
Qed.

Lemma eqb_num a p q v : as_num a = Some p -> as_num v = Some q -> (p == q)%Q -> val_eqb a v = true.
Proof.
  intros A V E. destruct a, v; simpl in *; try discriminate; injection A as <-; injection V as <-; apply Qeq_bool_iff; exact E.
Qed.

Lemma array_strings str l m : (forall v, In v l -> exists s, v = VS s) -> np_array str l = Some m -> m = l.
Proof.
  intro H. unfold np_array.
  assert (T : existsb is_tuple l = false).
  { apply not_true_iff_false. rewrite existsb_exists. intros (v & I & E). destruct (H v I) as (s & ->). discriminate. }
  rewrite T. destruct l as [|a l]; [intros [= <-]; reflexivity|].
  assert (S1 : existsb is_str (a :: l) = true).
  { apply existsb_exists. exists a. split; [left; reflexivity|]. destruct (H a (or_introl eq_refl)) as (s & ->). reflexivity. }
  rewrite S1. intros [= <-]. clear T S1.
  change (map (to_str str) (a :: l) = a :: l). rewrite <- (map_id (a :: l)) at 2. apply map_ext_in. intros v I. destruct (H v I) as (s & ->). reflexivity.
Qed.
Lemma array_numbers str l m : (forall v, In v l -> number v) -> np_array str l = Some m ->
  forall v, In v m -> exists a, In a l /\ val_eqb v a = true.
Proof.
  intros H. unfold np_array.
  assert (T : existsb is_tuple l = false).
  { apply not_true_iff_false. rewrite existsb_exists. intros (v & I & E). specialize (H v I). destruct v; try discriminate. apply H. reflexivity. }
  assert (S1 : existsb is_str l = false).
  { apply not_true_iff_false. rewrite existsb_exists. intros (v & I & E). specialize (H v I). destruct v; try discriminate. apply H. reflexivity. }
  rewrite T, S1.
  assert (N : forall v, In v l -> exists q, as_num v = Some q).
  { intros v I. specialize (H v I). unfold number in H. destruct (as_num v); eauto. congruence. }
  assert (R : forall f, (forall v q, as_num v = Some q -> exists p, as_num (f v) = Some p /\ (p == q)%Q) ->
            forall v, In v (map f l) -> exists a, In a l /\ val_eqb v a = true).
  { intros f F v I. apply in_map_iff in I. destruct I as (a & <- & I). destruct (N a I) as (q & Q). destruct (F a q Q) as (p & P & E).
    exists a. split; [exact I|]. exact (eqb_num _ _ _ _ P Q E). }
  destruct (existsb is_float l).
  - intros [= <-]. apply R. intros v q Q. unfold to_float. rewrite Q. exists q. split; [reflexivity|apply Qeq_refl].
  - destruct (existsb is_int l).
    + intros [= <-]. apply R. intros v q Q. destruct v as [| | |b|]; simpl in *; try discriminate; injection Q as <-.
      * eexists. split; [reflexivity|apply Qeq_refl].
      * eexists. split; [reflexivity|apply Qeq_refl].
      * destruct b; (eexists; split; [reflexivity|]); reflexivity.
    + intros [= <-]. assert (K := R (fun v => v)). rewrite map_id in K. apply K. intros v q Q. exists q. split; [exact Q|apply Qeq_refl].
Qed.

Section S.
  Variable str : val -> string.
  Variable draw : nat -> nat -> nat -> nat -> noise.
  Variable accepted : nat -> nat -> nat -> nat -> bool.

  Lemma propose_val_ok k d v v' : plain k -> belongs k v -> propose_val str k d v = Some v' -> belongs k v'.
  Proof.
    intros P B H. destruct k as [lb ub pr|lb ub st|l|l|e|]; cbn [propose_val] in H.
    - destruct (as_num v) as [q|]; [|discriminate]. injection H as <-. cbn [belongs as_num].
      eexists. split; [reflexivity|]. apply qclip_bounds. exact P.
    - destruct (as_num v) as [q|]; [|discriminate]. injection H as <-. cbn [belongs]. eexists. split; [reflexivity|].
      cbn [plain] in P. lia.
    - destruct (np_array str (levels (KDiscrete l))) as [m|] eqn:E; [|discriminate].
      destruct (d_level d) as [i|]; [|injection H as <-; exact B].
      apply nth_error_In in H. cbn [belongs]. destruct P as [P|P].
      + apply array_strings in E; [|intros w I; apply P, dedup_in, I]. subst m. exists v'. split; [exact H|].
        destruct (P v') as (s & ->); [apply dedup_in, H|]. simpl. apply String.eqb_refl.
      + apply (array_numbers str _ m); auto. intros w I. apply P, dedup_in, I.
    - destruct (np_array str (levels (KOrdinal l))) as [m|] eqn:E; [|discriminate].
      destruct (d_level d) as [i|]; [|injection H as <-; exact B].
      apply nth_error_In in H. cbn [belongs]. destruct P as [P|P].
      + apply array_strings in E; [|intros w I; apply P, dedup_in, I]. subst m. exists v'. split; [exact H|].
        destruct (P v') as (s & ->); [apply dedup_in, H|]. simpl. apply String.eqb_refl.
      + apply (array_numbers str _ m); auto. intros w I. apply P, dedup_in, I.
    - destruct P.
    - change (np_array str (levels KBool)) with (Some [VB false; VB true]) in H.
      destruct (d_level d) as [i|]; [|injection H as <-; exact B].
      apply nth_error_In in H. cbn [belongs]. exists v'. split; [exact H|].
      destruct H as [<-|[<-|[]]]; reflexivity.
  Qed.

  Lemma propose_row_ok t s r : forall ks i x x', Forall plain ks -> in_kinds ks x ->
    propose_row str draw t s r i ks x = Some x' -> in_kinds ks x'.
  Proof.
    induction ks as [|k ks IH]; intros i x x' P I H; inversion I; subst; simpl in H.
    - injection H as <-. constructor.
    - destruct (propose_val _ _ _ _) as [a|] eqn:A; [|discriminate].
      destruct (propose_row _ _ _ _ _ _ _ _) as [b|] eqn:Bq; [|discriminate]. injection H as <-. inversion P; subst.
      constructor; [exact (propose_val_ok _ _ _ _ H1 H2 A)|]. exact (IH _ _ _ H3 H4 Bq).
  Qed.

  Lemma rows_in {A} (X : list A) p : In p (rows X) -> In (snd p) X.
  Proof. destruct p. apply in_combine_r. Qed.
  Lemma rows_length {A} (X : list A) : List.length (rows X) = List.length X.
  Proof. unfold rows. rewrite combine_length, seq_length. lia. Qed.

  Variable ks : list kind.
  Hypothesis P : Forall plain ks.
  Notation good := (Forall (in_kinds ks)).

  Lemma propose_ok t s X X' : good X -> propose str ks draw t s X = Some X' -> good X' /\ List.length X' = List.length X.
  Proof.
    intros G H. unfold propose in H. apply sequence_some in H. destruct H as [L H].
    rewrite map_length, rows_length in L. split; [|exact L].
    apply Forall_forall. intros x I. specialize (H x I). apply in_map_iff in H. destruct H as (p & E & I2).
    apply (propose_row_ok t s (fst p) ks 0 (snd p) x P); auto. rewrite Forall_forall in G. apply G, rows_in, I2.
  Qed.

  Lemma set_nth_ok : forall ks i a x, in_kinds ks x -> (forall k, nth_error ks i = Some k -> belongs k a) -> in_kinds ks (set_nth i a x).
  Proof.
    induction ks0 as [|k l IH]; intros i a x I H; inversion I; subst; [destruct i; constructor|].
    destruct i as [|i]; simpl; constructor; auto. apply IH; auto.
  Qed.
  Lemma nth_kinds : forall ks i x a k, in_kinds ks x -> nth_error x i = Some a -> nth_error ks i = Some k -> belongs k a.
  Proof.
    induction ks0 as [|k l IH]; intros i x a k' I A K; inversion I; subst; [destruct i; discriminate|].
    destruct i as [|i]; simpl in *; [injection A as <-; injection K as <-; auto|]. eapply IH; eauto.
  Qed.

  Lemma take_ok i x x_ : in_kinds ks x -> in_kinds ks x_ -> in_kinds ks (take i x_ x).
  Proof.
    intros I I_. unfold take. destruct (nth_error x_ i) as [a|] eqn:A; auto.
    apply set_nth_ok; auto. intros k K. exact (nth_kinds ks i x_ a k I_ A K).
  Qed.

  Lemma column_ok t s X_ X i : good X_ -> good X -> List.length X_ = List.length X ->
    good (mh_column accepted t s X_ X i) /\ List.length (mh_column accepted t s X_ X i) = List.length X.
  Proof.
    intros G_ G L. unfold mh_column. rewrite map_length, rows_length, combine_length. split; [|lia].
    rewrite Forall_forall in *. intros x I. apply in_map_iff in I. destruct I as ([r [y y_]] & <- & I). cbn [fst snd].
    apply rows_in in I. cbn [snd] in I. pose proof (in_combine_l _ _ _ _ I). pose proof (in_combine_r _ _ _ _ I).
    destruct (accepted _ _ _ _); auto. apply take_ok; auto.
  Qed.

  Lemma step_ok t s X X' : good X -> mh_step str ks draw accepted t s X = Some X' -> good X' /\ List.length X' = List.length X.
  Proof.
    intros G H. unfold mh_step in H. destruct (propose _ _ _ _ _ _) as [X_|] eqn:E; [|discriminate]. injection H as <-.
    destruct (propose_ok _ _ _ _ G E) as [G_ L_].
    enough (K : forall l Y, good Y -> List.length X_ = List.length Y ->
       good (fold_left (mh_column accepted t s X_) l Y) /\ List.length (fold_left (mh_column accepted t s X_) l Y) = List.length Y) by (apply K; auto).
    induction l as [|i l IH]; intros Y GY LY; simpl; auto.
    destruct (column_ok t s X_ Y i G_ GY LY) as [C1 C2]. destruct (IH _ C1) as [D1 D2]; [congruence|]. split; [exact D1|congruence].
  Qed.
  Lemma steps_ok t : forall n s X X', good X -> mh_steps str ks draw accepted t n s X = Some X' -> good X' /\ List.length X' = List.length X.
  Proof.
    induction n as [|n IH]; intros s X X' G H; simpl in H; [injection H as <-; auto|].
    destruct (mh_step _ _ _ _ _ _ _) as [Y|] eqn:E; [|discriminate]. destruct (step_ok _ _ _ _ G E) as [G1 L1].
    destruct (IH _ _ _ G1 H) as [G2 L2]. split; [exact G2|congruence].
  Qed.
  Lemma schedule_ok n : forall m t X X', good X -> schedule str ks draw accepted m t n X = Some X' -> good X' /\ List.length X' = List.length X.
  Proof.
    induction m as [|m IH]; intros t X X' G H; cbn [schedule] in H; [injection H as <-; auto|].
    destruct (mh_steps _ _ _ _ _ _ _ _) as [Y|] eqn:E; [|discriminate]. destruct (steps_ok _ _ _ _ _ G E) as [G1 L1].
    destruct (IH _ _ _ G1 H) as [G2 L2]. split; [exact G2|congruence].
  Qed.
End S.

Section Filter.
  Variables h g : option (point -> option (list Q)).
  Variable tol : Q.
  Lemma ok_iff x : ok h g tol x = Some true -> satisfied h g tol x.
  Proof.
    unfold ok. destruct (ok_h h tol x) as [a|] eqn:A; [|discriminate]. destruct (ok_g g x) as [b|] eqn:B; [|discriminate].
    intros [= E]. apply andb_true_iff in E. destruct E as [-> ->]. split; intros f ->.
    - cbn [ok_h] in A. destruct (f x) as [vs|]; [|discriminate]. injection A as A. exists vs. split; [reflexivity|].
      intros v I. rewrite forallb_forall in A. apply Qle_bool_iff. auto.
    - cbn [ok_g] in B. destruct (f x) as [vs|]; [|discriminate]. injection B as B. exists vs. split; [reflexivity|].
      intros v I. rewrite forallb_forall in B. apply Qle_bool_iff. auto.
  Qed.
  Lemma sequence_combine {A B} (f : A -> option B) : forall l m, Model_Ask.sequence (map f l) = Some m ->
    forall a b, In (a, b) (combine l m) -> f a = Some b.
  Proof.
    induction l as [|a l IH]; intros m H x b I; simpl in H; [injection H as <-; destruct I|].
    destruct (f a) as [c|] eqn:Fa; [|discriminate]. destruct (Model_Ask.sequence (map f l)) as [m'|] eqn:E; [|discriminate].
    injection H as <-. destruct I as [I|I]; [injection I as <- <-; exact Fa|]. eapply IH; eauto.
  Qed.
  Lemma pick_rows_in {A} (l : list A) idx x : In x (pick_rows l idx) -> In x l.
  Proof.
    unfold pick_rows. rewrite in_flat_map. intros (i & _ & I). destruct (nth_error l i) eqn:E; [|destruct I].
    destruct I as [<-|[]]. exact (nth_error_In _ _ E).
  Qed.
  Lemma pick_rows_length {A} (l : list A) idx : List.length (pick_rows l idx) <= List.length idx.
  Proof. induction idx as [|i r IH]; simpl; auto. rewrite app_length. destruct (nth_error l i); simpl; lia. Qed.
End Filter.

Lemma sample_rows str ks draw accepted h g tol init choose N X :
  sample str ks draw accepted h g tol init choose N = Some X ->
  exists S1, (if given h || given g then scmc str ks draw accepted (init (Nat.max N 10)) else Some (init N)) = Some S1 /\
    (forall x, In x X -> In x S1 /\ satisfied h g tol x) /\
    (List.length X <= N \/ exists m, List.length X <= List.length (choose m N)).
Proof.
  unfold sample. destruct ks as [|k ks']; [discriminate|]. set (kk := k :: ks').
  destruct (if given h || given g then _ else _) as [S1|]; [|discriminate].
  destruct (Model_Ask.sequence (map (ok h g tol) S1)) as [m|] eqn:E; [|discriminate].
  set (S2 := map fst (filter (fun p => snd p) (combine S1 m))).
  assert (K : forall x, In x S2 -> In x S1 /\ satisfied h g tol x).
  { intros x I. apply in_map_iff in I. destruct I as ([y b] & <- & I). apply filter_In in I. destruct I as [I B]. cbn [snd fst] in *. subst b.
    split; [exact (in_combine_l _ _ _ _ I)|]. apply ok_iff. exact (sequence_combine _ _ _ E _ _ I). }
  intros [= <-]. exists S1. split; [reflexivity|]. destruct (Nat.ltb N (List.length S2)) eqn:L.
  - split; [intros x I; apply K, (pick_rows_in _ _ _ I)|]. right. exists (List.length S2). apply pick_rows_length.
  - split; [exact K|]. left. apply Nat.ltb_ge in L. exact L.
Qed.
