(** Properties C68, C102, C103, C104: the annealing schedules. *)
From Coq Require Import ZArith Reals Lra Lia Psatz.
From Verif Require Import Model_Annealing.
Open Scope R_scope.

Lemma exp_closed t0 tf M it k : 0 < t0 -> 0 < tf ->
  temperature t0 tf M Exp it k = t0 * Rpower (tf / t0) (INR k / M).
Proof.
  intros H0 Hf. induction k as [|k IH].
  - cbn [temperature]. replace (INR 0 / M) with 0 by (cbn; unfold Rdiv; ring). rewrite Rpower_O; [ring|]. apply Rdiv_lt_0_compat; lra.
  - cbn [temperature anneal]. rewrite IH. rewrite S_INR. rewrite Rmult_assoc, <- Rpower_plus. do 2 f_equal. unfold Rdiv. ring.
Qed.

(** C68: under the exponential schedule the parameter starts at t0, never rises, is positive
    after any number of steps, is at least tf as long as no more than the planned number of
    iterations has been made, and is exactly tf at the end of the plan. *)
Theorem C68_exponential :
  forall t0 tf M it, 0 < tf -> tf <= t0 -> 0 < M ->
    temperature t0 tf M Exp it 0 = t0 /\
    (forall k, 0 < temperature t0 tf M Exp it k) /\
    (forall k, temperature t0 tf M Exp it (S k) <= temperature t0 tf M Exp it k) /\
    (tf < t0 -> forall k, temperature t0 tf M Exp it (S k) < temperature t0 tf M Exp it k) /\
    (forall k, INR k <= M -> tf <= temperature t0 tf M Exp it k) /\
    (forall k, INR k = M -> temperature t0 tf M Exp it k = tf).
Proof.
  intros t0 tf M it Hf H0 HM. assert (P0 : 0 < t0) by lra.
  assert (E : forall k, temperature t0 tf M Exp it k = t0 * Rpower (tf / t0) (INR k / M)) by (intros; apply exp_closed; auto).
  assert (Pr : 0 < tf / t0) by (apply Rdiv_lt_0_compat; lra).
  assert (L1 : tf / t0 <= 1) by (apply Rmult_le_reg_r with t0; [lra|]; unfold Rdiv; rewrite Rmult_assoc, Rinv_l; lra).
  assert (LN : ln (tf / t0) <= 0) by (rewrite <- ln_1; destruct L1 as [L1| ->]; [left; apply ln_increasing; lra|right; reflexivity]).
  assert (St : forall k, INR k / M < INR (S k) / M).
  { intros k. apply Rmult_lt_compat_r; [now apply Rinv_0_lt_compat|]. apply lt_INR. lia. }
  assert (Ex : forall a b, a <= b -> exp a <= exp b) by (intros a b [H| ->]; [left; now apply exp_increasing|right; reflexivity]).
  split; [reflexivity|]. split; [|split; [|split; [|split]]].
  - intros k. rewrite E. apply Rmult_lt_0_compat; auto. apply exp_pos.
  - intros k. rewrite !E. apply Rmult_le_compat_l; [lra|]. apply Ex. pose proof (St k). nra.
  - intros Hs k. rewrite !E. apply Rmult_lt_compat_l; [lra|]. apply exp_increasing. pose proof (St k).
    assert (ln (tf / t0) < 0).
    { rewrite <- ln_1. apply ln_increasing; auto. apply Rmult_lt_reg_r with t0; [lra|]. unfold Rdiv. rewrite Rmult_assoc, Rinv_l; lra. }
    nra.
  - intros k Hk. rewrite E. assert (A : INR k / M <= 1).
    { apply Rmult_le_reg_r with M; auto. unfold Rdiv. rewrite Rmult_assoc, Rinv_l; lra. }
    assert (B : tf / t0 <= Rpower (tf / t0) (INR k / M)).
    { rewrite <- (exp_ln (tf / t0)) at 1 by auto. apply Ex. nra. }
    apply Rmult_le_compat_l with (r := t0) in B; [|lra]. replace (t0 * (tf / t0)) with tf in B by (field; lra). exact B.
  - intros k Hk. rewrite E, Hk. unfold Rdiv at 2. rewrite Rinv_r by lra. rewrite Rpower_1 by auto. field. lra.
Qed.
Print Assumptions C68_exponential.

Lemma linear_closed t0 tf M it k : M <> 0 -> temperature t0 tf M Linear it k = t0 - INR k / M * (t0 - tf).
Proof.
  intros HM. induction k as [|k IH].
  - cbn [temperature]. cbn. unfold Rdiv. ring.
  - cbn [temperature anneal]. rewrite IH, S_INR. field. exact HM.
Qed.

(** C102: under the linear schedule the parameter starts at t0, never rises, and within the
    planned number of iterations is at least tf (so positive), with equality at the end. *)
Theorem C102_linear :
  forall t0 tf M it, 0 < tf -> tf <= t0 -> 0 < M ->
    temperature t0 tf M Linear it 0 = t0 /\
    (forall k, temperature t0 tf M Linear it (S k) <= temperature t0 tf M Linear it k) /\
    (forall k, INR k <= M -> tf <= temperature t0 tf M Linear it k) /\
    (forall k, INR k = M -> temperature t0 tf M Linear it k = tf).
Proof.
  intros t0 tf M it Hf H0 HM.
  assert (E : forall k, temperature t0 tf M Linear it k = t0 - INR k / M * (t0 - tf)) by (intros; apply linear_closed; lra).
  split; [reflexivity|]. split; [|split].
  - intros k. cbn [temperature anneal]. assert (0 <= (t0 - tf) / M); [|lra]. apply Rmult_le_pos; [lra|]. left. now apply Rinv_0_lt_compat.
  - intros k Hk. rewrite E. assert (INR k / M <= 1).
    { apply Rmult_le_reg_r with M; auto. unfold Rdiv. rewrite Rmult_assoc, Rinv_l; lra. }
    nra.
  - intros k Hk. rewrite E, Hk. field. lra.
Qed.
Print Assumptions C102_linear.

Lemma nat_above (x : R) : exists k, x < INR k.
Proof.
  exists (Z.to_nat (up x)). destruct (archimed x) as [A _]. destruct (Z_lt_le_dec (up x) 0) as [H|H].
  - assert (IZR (up x) < 0) by (apply IZR_lt; lia). pose proof (pos_INR (Z.to_nat (up x))). lra.
  - rewrite INR_IZR_INZ, Z2Nat.id by lia. lra.
Qed.

(** C103, full statement (refuted): the parameter stays positive however long the optimizer is
    used.  Under the linear schedule it becomes negative, for any end points t0 > tf and any
    plan. *)
Theorem C103_linear_refuted :
  forall t0 tf M it, 0 < tf -> tf < t0 -> 0 < M -> exists k, temperature t0 tf M Linear it k < 0.
Proof.
  intros t0 tf M it Hf H0 HM. destruct (nat_above (M * t0 / (t0 - tf))) as [k Hk]. exists k.
  rewrite linear_closed by lra. assert (A : M * t0 < INR k * (t0 - tf)).
  { apply Rmult_lt_compat_r with (r := t0 - tf) in Hk; [|lra]. unfold Rdiv in Hk. rewrite Rmult_assoc, Rinv_l in Hk; lra. }
  apply Rmult_lt_reg_r with M; auto. replace ((t0 - INR k / M * (t0 - tf)) * M) with (M * t0 - INR k * (t0 - tf)) by (field; lra). lra.
Qed.
Print Assumptions C103_linear_refuted.
(** What does hold: the other two schedules keep it positive. *)
Theorem C103_positive_partial :
  forall t0 tf M s it k, 0 < t0 -> 0 < tf -> 0 < M -> s <> Linear -> 0 < temperature t0 tf M s it k.
Proof.
  intros t0 tf M s it k H0 Hf HM Hs. induction k as [|k IH]; [exact H0|]. cbn [temperature]. destruct s; [|congruence|]; cbn.
  - apply Rmult_lt_0_compat; auto. apply exp_pos.
  - assert (0 < ln (M + 1)) by (rewrite <- ln_1; apply ln_increasing; lra).
    assert (0 < ln (INR (it k) + 2)) by (rewrite <- ln_1; apply ln_increasing; pose proof (pos_INR (it k)); lra).
    apply Rdiv_lt_0_compat; auto. apply Rmult_lt_0_compat; auto. apply Rmult_lt_0_compat; auto.
Qed.
Print Assumptions C103_positive_partial.

(** C104, full statement (refuted): the logarithmic schedule moves monotonically from t0 towards
    tf and is not below tf within the plan.  It can rise above t0, and it can be below tf after one
    of two planned iterations (the counter is 1 at the first step, after the initial design). *)
Theorem C104_log_refuted :
  (exists t0 tf M, 0 < tf <= t0 /\ 1 < M /\ temperature t0 tf M Log S 1 > t0) /\
  (exists t0 tf M, 0 < tf <= t0 /\ 1 < M /\ temperature t0 tf M Log S 1 < tf).
Proof.
  assert (L3 : 0 < ln 3) by (rewrite <- ln_1; apply ln_increasing; lra).
  split.
  - exists 2, 2, 2. split; [lra|]. split; [lra|]. cbn. replace (1 + 2) with 3 by ring. replace (2 + 1) with 3 by ring.
    replace (2 * (2 * ln 3) / ln 3) with 4 by (field; lra). lra.
  - exists (1/2), (1/4), 2. split; [lra|]. split; [lra|]. cbn. replace (1 + 2) with 3 by ring. replace (2 + 1) with 3 by ring.
    replace (1 / 2 * (1 / 4 * ln 3) / ln 3) with (1/8) by (field; lra). lra.
Qed.
Print Assumptions C104_log_refuted.
(** What does hold: each step multiplies the parameter by c / ln (iter_count + 2), so it falls in
    a step exactly when the counter has passed (max_iter + 1) ^ tf - 2. *)
Theorem C104_log_step_partial :
  forall t0 tf M it k, 0 < t0 -> 0 < tf -> 0 < M ->
    (temperature t0 tf M Log it (S k) < temperature t0 tf M Log it k <-> Rpower (M + 1) tf < INR (it k) + 2).
Proof.
  intros t0 tf M it k H0 Hf HM.
  assert (P : 0 < temperature t0 tf M Log it k) by (apply C103_positive_partial; auto; discriminate).
  cbn [temperature anneal]. set (t := temperature t0 tf M Log it k) in *. clearbody t. set (i := INR (it k) + 2).
  assert (Pi : 1 < i) by (unfold i; pose proof (pos_INR (it k)); lra). clearbody i.
  assert (Li : 0 < ln i) by (rewrite <- ln_1; apply ln_increasing; lra).
  assert (A : t * (tf * ln (M + 1)) / ln i < t <-> tf * ln (M + 1) < ln i).
  { split; intros H.
    - apply Rmult_lt_compat_r with (r := ln i) in H; auto. unfold Rdiv in H. rewrite Rmult_assoc, Rinv_l in H; [|lra]. nra.
    - apply Rmult_lt_reg_r with (ln i); auto. unfold Rdiv. rewrite Rmult_assoc, Rinv_l; [|lra]. nra. }
  rewrite A. unfold Rpower. split; intros H.
  - rewrite <- (exp_ln i) by lra. now apply exp_increasing.
  - rewrite <- (exp_ln i) in H by lra. now apply exp_lt_inv.
Qed.
Print Assumptions C104_log_step_partial.

(** C68 / C102 in terms of the evaluation budget: if q points are evaluated per iteration after an initial design of D points, then as
    long as the evaluations made (D + k q after k iterations) do not exceed the budget, the parameter is not below tf, and it is tf
    when they reach the budget. *)
Theorem C68_budget :
  forall t0 tf F D q s it, 0 < tf -> tf <= t0 -> (D < F)%nat -> (0 < q)%nat -> s <> Log ->
    (forall k, (D + k * q <= F)%nat -> tf <= temperature t0 tf (max_iterations F D q) s it k <= t0) /\
    (forall k, (D + k * q = F)%nat -> temperature t0 tf (max_iterations F D q) s it k = tf) /\
    (tf < t0 -> forall k, (D + k * q < F)%nat -> tf < temperature t0 tf (max_iterations F D q) s it k).
Proof.
  intros t0 tf F D q s it Hf H0 HD Hq Hs. set (M := max_iterations F D q).
  assert (Pq : 0 < INR q) by (apply lt_0_INR; exact Hq). assert (PD : INR D < INR F) by (apply lt_INR; exact HD).
  assert (PM : 0 < M) by (unfold M, max_iterations; apply Rdiv_lt_0_compat; lra).
  assert (EM : M * INR q = INR F - INR D) by (unfold M, max_iterations; field; lra).
  assert (LE : forall k, (D + k * q <= F)%nat -> INR k <= M).
  { intros k Hk. apply le_INR in Hk. rewrite plus_INR, mult_INR in Hk. nra. }
  assert (EQ : forall k, (D + k * q = F)%nat -> INR k = M).
  { intros k Hk. apply (f_equal INR) in Hk. rewrite plus_INR, mult_INR in Hk. nra. }
  assert (LT : forall k, (D + k * q < F)%nat -> INR k < M).
  { intros k Hk. apply lt_INR in Hk. rewrite plus_INR, mult_INR in Hk. nra. }
  assert (UP : (forall k, temperature t0 tf M s it (S k) <= temperature t0 tf M s it k) -> forall k, temperature t0 tf M s it k <= t0).
  { intros H k. induction k as [|k IH]; [simpl; lra|]. specialize (H k). lra. }
  destruct s; [| |congruence].
  - destruct (C68_exponential t0 tf M it Hf H0 PM) as (_ & _ & A & _ & B & C). split; [intros k Hk; split; [apply B, LE, Hk|apply UP, A]|]. split; [intros k Hk; apply C, EQ, Hk|].
    intros S k Hk. specialize (LT k Hk). rewrite exp_closed by lra. rewrite <- (Rpower_1 tf) at 1 by lra.
    assert (X : t0 * Rpower (tf / t0) 1 < t0 * Rpower (tf / t0) (INR k / M)).
    { apply Rmult_lt_compat_l; [lra|]. unfold Rpower. apply exp_increasing. assert (LN : ln (tf / t0) < 0).
      { rewrite <- ln_1. apply ln_increasing; [apply Rdiv_lt_0_compat; lra|]. apply Rmult_lt_reg_r with t0; [lra|]. unfold Rdiv. rewrite Rmult_assoc, Rinv_l; lra. }
      assert (Y : INR k / M < 1) by (apply Rmult_lt_reg_r with M; [lra|]; unfold Rdiv; rewrite Rmult_assoc, Rinv_l; lra). nra. }
    rewrite Rpower_1 in X by (apply Rdiv_lt_0_compat; lra). rewrite Rpower_1 by lra. replace (t0 * (tf / t0)) with tf in X by (field; lra). exact X.
  - destruct (C102_linear t0 tf M it Hf H0 PM) as (_ & A & B & C). split; [intros k Hk; split; [apply B, LE, Hk|apply UP, A]|]. split; [intros k Hk; apply C, EQ, Hk|].
    intros S k Hk. specialize (LT k Hk). rewrite linear_closed by lra.
    assert (Y : INR k / M < 1) by (apply Rmult_lt_reg_r with M; [lra|]; unfold Rdiv; rewrite Rmult_assoc, Rinv_l; lra). nra.
Qed.
Print Assumptions C68_budget.

(** A concrete plan: 20 evaluations, 5 of them the initial design, 3 per iteration. *)
Example plan : max_iterations 20 5 3 = 5 /\ 0 < 1 / 10 /\ 1 / 10 <= 2.
Proof. unfold max_iterations. cbn. lra. Qed.
