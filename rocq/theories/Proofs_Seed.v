(** Lemmas about Model_Seed.v. *)
From Coq Require Import List Bool Arith Lia.
From Verif Require Import Model_Seed.
Import ListNotations.
Open Scope nat_scope.

Section S.
  Variable G : generator.
  Variable cost : nat -> nat -> nat.

  Lemma draws_split n m w :
    draws G (n + m) w =
    let '(xs, w1) := draws G n w in let '(ys, w2) := draws G m w1 in (xs ++ ys, w2).
  Proof.
    revert w; induction n as [|n IH]; intro w; simpl.
    - destruct (draws G m w). reflexivity.
    - destruct (draw1 G (fst w)) as [x r]. rewrite IH.
      destruct (draws G n _) as [xs w1]. destruct (draws G m w1). reflexivity.
  Qed.

  (** The number of entropy calls made before does not influence the draws. *)
  Lemma draws_fst n r a b :
    fst (draws G n (r, a)) = fst (draws G n (r, b)) /\
    fst (snd (draws G n (r, a))) = fst (snd (draws G n (r, b))).
  Proof.
    revert r; induction n as [|n IH]; intro r; simpl; [auto|].
    destruct (draw1 G r) as [x r'].
    specialize (IH r'). destruct (draws G n (r', a)), (draws G n (r', b)). simpl in *.
    destruct IH as [-> ->]. auto.
  Qed.

  Lemma draws_w n w1 w2 : fst w1 = fst w2 ->
    fst (draws G n w1) = fst (draws G n w2) /\
    fst (snd (draws G n w1)) = fst (snd (draws G n w2)).
  Proof. destruct w1 as [r a], w2 as [r' b]. simpl. intros ->. apply draws_fst. Qed.

  Variables P1 P2 : process G.
  Variable sp : space.
  Variable sd : nat.
  Hypothesis Hsd : sp_seed sp = Some sd.

  Lemma seed_w w1 w2 : fst (set_space_seed G P1 sp w1) = fst (set_space_seed G P2 sp w2).
  Proof. unfold set_space_seed. rewrite Hsd. reflexivity. Qed.

  Definition same (p q : list (drawn G) * world G) := fst p = fst q /\ fst (snd p) = fst (snd q).

  Lemma groups_w N gs w1 w2 : fst w1 = fst w2 ->
    same (sample_groups G P1 cost sp N gs w1) (sample_groups G P2 cost sp N gs w2).
  Proof.
    revert w1 w2; induction gs as [|g gs IH]; intros w1 w2 H; simpl; [split; auto|].
    destruct (draws_w (cost N g) _ _ (seed_w w1 w2)) as [A B].
    destruct (draws G (cost N g) (set_space_seed G P1 sp w1)) as [xs v1].
    destruct (draws G (cost N g) (set_space_seed G P2 sp w2)) as [xs' v2].
    simpl in A, B. subst xs'. destruct (IH v1 v2 B) as [C D].
    destruct (sample_groups G P1 cost sp N gs v1), (sample_groups G P2 cost sp N gs v2).
    simpl in *. subst. split; auto.
  Qed.

  Lemma sample_w N w1 w2 : fst w1 = fst w2 ->
    same (sample G P1 cost sp N w1) (sample G P2 cost sp N w2).
  Proof.
    intro H. unfold sample. destruct (sp_pure sp); [apply draws_w, H|apply groups_w, H].
  Qed.

  Lemma doe_w accept p : forall n w1 w2, fst w1 = fst w2 ->
    same (doe G P1 cost accept p sp n w1) (doe G P2 cost accept p sp n w2).
  Proof.
    induction p as [|p IH]; intros n w1 w2 H; destruct n as [|n]; simpl; try (split; auto; fail).
    destruct (sample_w (S n) w1 w2 H) as [A B].
    destruct (sample G P1 cost sp (S n) w1) as [xs v1], (sample G P2 cost sp (S n) w2) as [xs' v2].
    simpl in A, B. subst xs'. 
    destruct (IH (match accept xs with 0 => S n | S l => n - l end) v1 v2 B) as [C D].
    destruct (doe G P1 cost accept p sp _ v1), (doe G P2 cost accept p sp _ v2).
    simpl in *. subst. split; auto.
  Qed.

  Lemma call_w c hist w1 w2 : fst w1 = fst w2 ->
    same (do_call G P1 cost sp c hist w1) (do_call G P2 cost sp c hist w2).
  Proof.
    intro H. destruct c as [n k accept|k]; cbn [do_call]; [|apply draws_w, H].
    destruct (draws_w (k hist) _ _ (seed_w w1 w2)) as [A B].
    destruct (draws G (k hist) (set_space_seed G P1 sp w1)) as [xs v1].
    destruct (draws G (k hist) (set_space_seed G P2 sp w2)) as [xs' v2].
    simpl in A, B. subst xs'.
    destruct (doe_w accept 4 (n hist) _ _ (seed_w v1 v2)) as [C D].
    destruct (doe G P1 cost accept 4 sp _ _), (doe G P2 cost accept 4 sp _ _).
    simpl in *. subst. split; auto.
  Qed.

  Lemma drive_w cs : forall hist w1 w2, fst w1 = fst w2 ->
    drive G P1 cost sp cs hist w1 = drive G P2 cost sp cs hist w2.
  Proof.
    induction cs as [|c cs IH]; intros hist w1 w2 H; simpl; [reflexivity|].
    destruct (call_w c hist w1 w2 H) as [A B].
    destruct (do_call G P1 cost sp c hist w1) as [xs v1], (do_call G P2 cost sp c hist w2) as [xs' v2].
    simpl in A, B. subst xs'. apply IH, B.
  Qed.

  Lemma session_w s cs : session G P1 cost sp s cs = session G P2 cost sp s cs.
  Proof.
    apply drive_w. pose proof (seed_w (start P1, 0) (start P2, 0)) as H.
    unfold set_opt_seed. destruct s as [[|n]|]; auto.
  Qed.
End S.

(** A seeded mixed space: every sample restarts the generator. *)
Lemma sample_repeats G P cost sp sd N w1 w2 :
  sp_seed sp = Some sd -> sp_pure sp = false ->
  fst (sample G P cost sp N w1) = fst (sample G P cost sp N w2).
Proof.
  intros H HP. unfold sample. rewrite HP.
  destruct (sp_groups sp) as [|g gs]; [reflexivity|]. simpl.
  assert (E : fst (set_space_seed G P sp w1) = fst (set_space_seed G P sp w2)) by (unfold set_space_seed; rewrite H; reflexivity).
  destruct (draws_w G (cost N g) _ _ E) as [A B].
  destruct (draws G (cost N g) (set_space_seed G P sp w1)) as [xs v1].
  destruct (draws G (cost N g) (set_space_seed G P sp w2)) as [xs' v2].
  simpl in A, B. subst xs'.
  destruct (groups_w G cost P P sp sd H N gs v1 v2 B) as [C D].
  destruct (sample_groups G P cost sp N gs v1), (sample_groups G P cost sp N gs v2).
  simpl in *. subst. reflexivity.
Qed.

(** A pure space: two samples are consecutive segments of the stream. *)
Lemma sample_pure_stream G P cost sp N M w :
  sp_pure sp = true ->
  let k N := fold_right plus 0 (map (cost N) (sp_groups sp)) in
  let '(xs, w1) := sample G P cost sp N w in
  xs ++ fst (sample G P cost sp M w1) = fst (draws G (k N + k M) w).
Proof.
  intros HP k. unfold sample. rewrite HP. fold (k N). fold (k M). rewrite draws_split.
  destruct (draws G (k N) w) as [xs w1]. destruct (draws G (k M) w1). reflexivity.
Qed.
