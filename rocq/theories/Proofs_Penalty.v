(** Lemmas about Model_Penalty.v. *)
From Coq Require Import List Reals Lra.
From Verif Require Import Model_Penalty.
Import ListNotations.
Open Scope R_scope.

Lemma pow_nn_0 b : pow_nn 0 b = 0.
Proof. unfold pow_nn. destruct (Req_EM_T 0 0); congruence. Qed.
Lemma pow_nn_pos x b : 0 < x -> 0 < pow_nn x b.
Proof. intro H. unfold pow_nn. destruct (Req_EM_T x 0); [lra|]. apply exp_pos. Qed.
Lemma pow_nn_nonneg x b : 0 <= pow_nn x b.
Proof. unfold pow_nn. destruct (Req_EM_T x 0); [lra|]. left. apply exp_pos. Qed.
Lemma pow_nn_lt x y b : 0 <= x -> x < y -> 0 < b -> pow_nn x b < pow_nn y b.
Proof.
  intros H1 H2 H3. destruct (Req_EM_T x 0) as [->|N].
  - rewrite pow_nn_0. apply pow_nn_pos. exact H2.
  - unfold pow_nn. destruct (Req_EM_T x 0); [lra|]. destruct (Req_EM_T y 0); [lra|].
    apply Rlt_Rpower_l; [exact H3|]. split; lra.
Qed.
Lemma pow_nn_le x y b : 0 <= x -> x <= y -> 0 < b -> pow_nn x b <= pow_nn y b.
Proof. intros H1 [H2| ->] H3; [left; apply pow_nn_lt; assumption|right; reflexivity]. Qed.

Lemma eq_term_nonneg e v : 0 <= eq_term e v.
Proof. apply Rabs_pos. Qed.
Lemma eq_term_0 e v : 0 <= e -> eq_term e v = 0 <-> Rabs v <= e.
Proof.
  intro He. unfold eq_term. destruct (Rle_dec (Rabs v) e) as [H|H].
  - rewrite Rabs_R0. tauto.
  - split; [|tauto]. intro E. rewrite E in H. lra.
Qed.
Lemma eq_term_mono e v w : Rabs v <= Rabs w -> eq_term e v <= eq_term e w.
Proof.
  intro H. unfold eq_term. destruct (Rle_dec (Rabs v) e), (Rle_dec (Rabs w) e); rewrite ?Rabs_R0; try lra; try apply Rabs_pos.
Qed.
Lemma ineq_term_nonneg b v : 0 <= ineq_term b v.
Proof. apply pow_nn_nonneg. Qed.
Lemma ineq_term_0 b v : ineq_term b v = 0 <-> v <= 0.
Proof.
  unfold ineq_term. destruct (Rle_dec v 0) as [H|H].
  - rewrite Rabs_R0, pow_nn_0. tauto.
  - split; [|tauto]. intro E. assert (0 < pow_nn (Rabs v) b) by (apply pow_nn_pos, Rabs_pos_lt; lra). lra.
Qed.
Lemma ineq_term_mono b v w : 0 < b -> v <= w -> ineq_term b v <= ineq_term b w.
Proof.
  intros Hb H. unfold ineq_term. destruct (Rle_dec v 0), (Rle_dec w 0); rewrite ?Rabs_R0.
  - lra.
  - apply pow_nn_le; [lra|apply Rabs_pos|exact Hb].
  - lra.
  - apply pow_nn_le; [apply Rabs_pos| |exact Hb]. rewrite !Rabs_pos_eq by lra. exact H.
Qed.
Lemma rsum_nonneg l : Forall (Rle 0) l -> 0 <= rsum l.
Proof. induction 1; simpl; lra. Qed.
Lemma rsum_0 l : Forall (Rle 0) l -> (rsum l = 0 <-> Forall (eq 0) l).
Proof.
  induction 1 as [|x l H HF IH]; simpl; [split; auto|].
  pose proof (rsum_nonneg l HF). split.
  - intro E. constructor; [lra|]. apply IH. lra.
  - intro F. inversion F; subst. rewrite (proj2 IH) by assumption. lra.
Qed.
Lemma rsum_mono l m : Forall2 Rle l m -> rsum l <= rsum m.
Proof. induction 1; simpl; lra. Qed.

Lemma map_nonneg (f : R -> R) l : (forall v, 0 <= f v) -> Forall (Rle 0) (map f l).
Proof. intro H. rewrite Forall_map. apply Forall_forall. auto. Qed.

Definition total (P : ppar) (h g : list R) : R :=
  0 + rsum (map (eq_term (epsilon P)) h) + rsum (map (ineq_term (beta P)) g).
Lemma total_nonneg P h g : 0 <= total P h g.
Proof.
  unfold total. pose proof (rsum_nonneg _ (map_nonneg (eq_term (epsilon P)) h (eq_term_nonneg _))).
  pose proof (rsum_nonneg _ (map_nonneg (ineq_term (beta P)) g (ineq_term_nonneg _))). lra.
Qed.
Lemma total_0 P h g : 0 <= epsilon P ->
  total P h g = 0 <-> (forall v, In v h -> Rabs v <= epsilon P) /\ (forall v, In v g -> v <= 0).
Proof.
  intro He. unfold total.
  assert (H1 := map_nonneg (eq_term (epsilon P)) h (eq_term_nonneg _)).
  assert (H2 := map_nonneg (ineq_term (beta P)) g (ineq_term_nonneg _)).
  assert (S1 := rsum_nonneg _ H1). assert (S2 := rsum_nonneg _ H2).
  apply rsum_0 in H1. apply rsum_0 in H2. rewrite Forall_map, Forall_forall in H1, H2.
  split.
  - intro E. split; intros v Hv.
    + apply (eq_term_0 _ v He). symmetry. apply H1; [lra|exact Hv].
    + apply (ineq_term_0 (beta P) v). symmetry. apply H2; [lra|exact Hv].
  - intros [A B].
    assert (E1 : rsum (map (eq_term (epsilon P)) h) = 0).
    { apply H1. intros v Hv. symmetry. apply eq_term_0; auto. }
    assert (E2 : rsum (map (ineq_term (beta P)) g) = 0).
    { apply H2. intros v Hv. symmetry. apply ineq_term_0; auto. }
    lra.
Qed.
Lemma total_mono P h g h' g' : 0 < beta P ->
  Forall2 (fun v w => Rabs v <= Rabs w) h h' -> Forall2 Rle g g' -> total P h g <= total P h' g'.
Proof.
  intros Hb H1 H2. unfold total.
  assert (rsum (map (eq_term (epsilon P)) h) <= rsum (map (eq_term (epsilon P)) h')).
  { apply rsum_mono. clear - H1. induction H1; simpl; constructor; auto. apply eq_term_mono; assumption. }
  assert (rsum (map (ineq_term (beta P)) g) <= rsum (map (ineq_term (beta P)) g')).
  { apply rsum_mono. clear - H2 Hb. induction H2; simpl; constructor; auto. apply ineq_term_mono; assumption. }
  lra.
Qed.

Lemma penalty1_total P h g :
  penalty1 P h g = pow_nn (CC P * tt P) (alpha P) * total P h g * (if minimize P then 1 else -1).
Proof. reflexivity. Qed.

Lemma eval_all_nth {X} (f : X -> option (list R)) : forall xs vs,
  eval_all f xs = Some vs -> length vs = length xs /\
  forall i x, nth_error xs i = Some x -> exists v, f x = Some v /\ nth_error vs i = Some v.
Proof.
  induction xs as [|x xs IH]; intros vs H; simpl in H.
  - injection H as <-. split; auto. intros [|i] x; discriminate.
  - destruct (f x) eqn:E; [|discriminate]. destruct (eval_all f xs) eqn:E2; [|discriminate].
    injection H as <-. destruct (IH _ eq_refl) as [L N]. split; [simpl; congruence|].
    intros [|i] y Hy; simpl in *; [injection Hy as <-; eauto|apply N; exact Hy].
Qed.
Lemma eval_all_none {X} (f : X -> option (list R)) : forall xs,
  eval_all f xs = None <-> exists x, In x xs /\ f x = None.
Proof.
  induction xs as [|x xs IH]; simpl; [split; [discriminate|intros (x&[]&_)]|].
  destruct (f x) eqn:E.
  - destruct (eval_all f xs) eqn:E2.
    + split; [discriminate|]. intros (y&[<-|Hy]&F); [congruence|].
      assert (Some l0 = None) by (apply IH; eauto). discriminate.
    + split; auto. intros _. destruct (proj1 IH eq_refl) as (y&Hy&F). eauto.
  - split; auto. intros _. exists x. auto.
Qed.
