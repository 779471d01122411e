(** General list lemmas. *)
From Coq Require Import List Bool Arith Lia.
Import ListNotations.
Open Scope nat_scope.

Lemma in_combine_seq {A} (X : list A) k i x :
  In (i, x) (combine (seq k (length X)) X) <-> k <= i /\ nth_error X (i - k) = Some x.
Proof.
  revert k; induction X as [|a X IH]; intros k; simpl.
  - split; [intros []|]. intros [_ H]. destruct (i - k); discriminate.
  - rewrite IH. split.
    + intros [E|[H1 H2]].
      * injection E as <- <-. rewrite Nat.sub_diag. auto.
      * split; [lia|]. replace (i - k) with (S (i - S k)) by lia. exact H2.
    + intros [H1 H2]. destruct (Nat.eq_dec i k) as [->|N].
      * rewrite Nat.sub_diag in H2. simpl in H2. left; congruence.
      * right. split; [lia|]. replace (i - k) with (S (i - S k)) in H2 by lia. exact H2.
Qed.

Lemma in_indexed {A} (X : list A) i x :
  In (i, x) (combine (seq 0 (length X)) X) <-> nth_error X i = Some x.
Proof. rewrite in_combine_seq, Nat.sub_0_r. intuition lia. Qed.

Lemma nth_error_combine {A B} (l : list A) (m : list B) i :
  nth_error (combine l m) i =
  match nth_error l i, nth_error m i with Some a, Some b => Some (a, b) | _, _ => None end.
Proof.
  revert m i; induction l as [|a l IH]; intros [|b m] [|i]; simpl; auto.
  - destruct (nth_error l i); reflexivity.
Qed.

Lemma nth_error_seq k n i : nth_error (seq k n) i = if i <? n then Some (k + i) else None.
Proof.
  revert k i; induction n as [|n IH]; intros k i.
  - destruct i; reflexivity.
  - destruct i as [|i]; simpl.
    + f_equal; lia.
    + rewrite IH. change (S i <? S n) with (i <? n). destruct (i <? n); auto. f_equal; lia.
Qed.

Lemma nth_error_indexed {A} (X : list A) i :
  nth_error (combine (seq 0 (length X)) X) i = option_map (fun x => (i, x)) (nth_error X i).
Proof.
  rewrite nth_error_combine, nth_error_seq. destruct (nth_error X i) eqn:E.
  - assert (i < length X) by (apply nth_error_Some; congruence).
    apply Nat.ltb_lt in H. rewrite H. reflexivity.
  - destruct (i <? length X); reflexivity.
Qed.

Lemma nth_error_ext {T} (l m : list T) : (forall j, nth_error l j = nth_error m j) -> l = m.
Proof.
  revert m; induction l as [|a l IH]; intros [|b m] H; auto.
  - specialize (H 0); discriminate.
  - specialize (H 0); discriminate.
  - f_equal; [specialize (H 0); simpl in H; congruence|]. apply IH. intro j. apply (H (S j)).
Qed.

Lemma nth_error_lt {A} (l : list A) i x : nth_error l i = Some x -> i < length l.
Proof. intro H. apply nth_error_Some. congruence. Qed.

Lemma lt_nth_error {A} (l : list A) i : i < length l -> exists x, nth_error l i = Some x.
Proof. intro H. apply nth_error_Some in H. destruct (nth_error l i); [eauto|congruence]. Qed.

(** A finite non-empty list has an element that no element is R-below, for a strict order R. *)
Lemma minimal_exists {A} (R : A -> A -> Prop) (dec : forall a b, R a b \/ ~ R a b) (l : list A) :
  (forall a, In a l -> ~ R a a) -> (forall a b c, In a l -> In b l -> In c l -> R a b -> R b c -> R a c) ->
  l <> [] -> exists m, In m l /\ forall x, In x l -> ~ R x m.
Proof.
  induction l as [|a l IH]; intros Hi Ht Hne; [congruence|].
  destruct l as [|b l].
  - exists a. split; [left; reflexivity|]. intros x [<-|[]]. apply Hi. left; reflexivity.
  - destruct IH as (m&Hm&Hmin).
    + intros; apply Hi; right; assumption.
    + intros x y z Hx Hy Hz. apply Ht; right; assumption.
    + discriminate.
    + destruct (dec a m) as [H|H].
      * exists a. split; [left; reflexivity|]. intros x [<-|Hx] HR; [apply (Hi a); [left; reflexivity|exact HR]|].
        apply (Hmin x Hx). apply (Ht x a m); auto; [right; exact Hx|left; reflexivity|right; exact Hm].
      * exists m. split; [right; exact Hm|]. intros x [<-|Hx]; auto.
Qed.

Lemma existsb_eqb_In i l : existsb (Nat.eqb i) l = true <-> In i l.
Proof.
  rewrite existsb_exists. split.
  - intros (x&H&E). apply Nat.eqb_eq in E. subst. exact H.
  - intro H. exists i. split; auto. apply Nat.eqb_refl.
Qed.

Lemma filter_app' {A} (P : A -> bool) l m : filter P (l ++ m) = filter P l ++ filter P m.
Proof. induction l as [|a l IH]; simpl; [reflexivity|]. destruct (P a); simpl; rewrite IH; reflexivity. Qed.

Lemma filter_length_le' {A} (P : A -> bool) l : length (filter P l) <= length l.
Proof. induction l; simpl; auto. destruct (P a); simpl; lia. Qed.

Lemma Forall2_flip {A B} (R : A -> B -> Prop) l m : Forall2 R l m -> Forall2 (fun b a => R a b) m l.
Proof. induction 1; constructor; auto. Qed.

Lemma NoDup_app_intro {A} (l m : list A) :
  NoDup l -> NoDup m -> (forall x, In x l -> In x m -> False) -> NoDup (l ++ m).
Proof.
  induction 1 as [|a l Ha Hl IH]; simpl; intros Hm Hd; auto. constructor.
  - rewrite in_app_iff. intros [H|H]; [auto|]. apply (Hd a); auto.
  - apply IH; auto. intros x Hx. apply Hd. auto.
Qed.

Lemma filter_le {A} (P Q : A -> bool) l :
  (forall x, Q x = true -> P x = true) -> length (filter Q l) <= length (filter P l).
Proof.
  intro H. induction l as [|a l IH]; simpl; auto.
  destruct (Q a) eqn:E; [rewrite (H a E); simpl; lia|]. destruct (P a); simpl; lia.
Qed.

Lemma filter_strict {A} (P Q : A -> bool) l z :
  (forall x, Q x = true -> P x = true) -> In z l -> P z = true -> Q z = false ->
  length (filter Q l) < length (filter P l).
Proof.
  intros H Hz HP HQ. induction l as [|a l IH]; [contradiction|]. simpl. destruct Hz as [->|Hz].
  - rewrite HP, HQ. simpl. pose proof (filter_le P Q l H). lia.
  - specialize (IH Hz). destruct (Q a) eqn:E; [rewrite (H a E); simpl; lia|]. destruct (P a); simpl; lia.
Qed.

Lemma bool_or (b : bool) : b = true \/ ~ b = true.
Proof. destruct b; [left|right]; congruence. Qed.

Lemma NoDup_app_l {A} (l m : list A) : NoDup (l ++ m) -> NoDup l.
Proof. induction l as [|a l IH]; simpl; intro H; [constructor|]. inversion H; subst. constructor; [rewrite in_app_iff in *; tauto|auto]. Qed.
Lemma NoDup_app_r {A} (l m : list A) : NoDup (l ++ m) -> NoDup m.
Proof. induction l as [|a l IH]; simpl; intro H; [exact H|]. inversion H; subst. auto. Qed.
Lemma NoDup_app_dis {A} (l m : list A) x : NoDup (l ++ m) -> In x l -> In x m -> False.
Proof.
  induction l as [|a l IH]; simpl; intros H I J; [destruct I|]. inversion H; subst. destruct I as [->|I]; [rewrite in_app_iff in *; tauto|auto].
Qed.
