(** Properties C184 to C186: the measures of the error of predictions. *)
From Coq Require Import Reals List Arith Lia Lra.
From Verif Require Import Lib_Normal Model_Error Spec_Error Proofs_Error.
Import ListNotations.
Open Scope R_scope.

(** C184: the standardized mean squared error is zero exactly for perfect predictions. *)
Theorem C184_perfect : forall test pred v, SMSE test pred = Some v -> 0 <= v /\ (v = 0 <-> firstn (length test) pred = test).
Proof.
  intros test pred v H. unfold SMSE in H. destruct test as [|a test']; [discriminate|]. set (test := a :: test') in *. destruct (squared_errors test pred) as [se|] eqn:E; [|discriminate]. destruct (Req_EM_T (var test) 0) as [|NZ]; [discriminate|].
  assert (EV : mean se / var test = v) by congruence. clear H. pose proof (var_nonneg test) as VN. destruct (squared_errors_some test pred (squared_errors_len _ _ _ E)) as (se' & E' & L & F). rewrite E in E'. inversion E'; subst se'. clear E'.
  assert (LP : 0 < INR (length se)) by (rewrite L; apply len_pos; discriminate). rewrite <- (squared_errors_zero _ _ _ E).
  assert (TN := total_nonneg se F). assert (VP : 0 < var test) by lra. assert (EM : v = total se * / (INR (length se) * var test)) by (rewrite <- EV; unfold mean; field; lra).
  assert (IP : 0 < / (INR (length se) * var test)) by (apply Rinv_0_lt_compat; nra). split; [rewrite EM; apply Rmult_le_pos; lra|]. split.
  - intros Z. apply total_zero; auto. rewrite Z in EM. symmetry in EM. apply Rmult_integral in EM. lra.
  - intros Z. rewrite EM. replace (total se) with 0; [ring|]. clear - Z. unfold total. induction Z; cbn; lra.
Qed.
Print Assumptions C184_perfect.
(** It is 1 if every prediction is the mean of the targets, and no other constant is better. *)
Theorem C184_constant : forall test pred c, test <> [] -> var test <> 0 -> (forall i, (i < length test)%nat -> nth_error pred i = Some c) ->
  exists v, SMSE test pred = Some v /\ 1 <= v /\ (v = 1 <-> c = mean test).
Proof.
  intros test pred c NE NZ H. unfold SMSE. destruct test as [|a test']; [congruence|]. set (test := a :: test') in *. rewrite (squared_errors_const c) by auto. destruct (Req_EM_T (var test) 0); [contradiction|]. eexists. split; [reflexivity|].
  pose proof (var_nonneg test) as VN. assert (LP := len_pos test NE). assert (E : mean (map (fun a => (c - a) ^ 2) test) = var test + (c - mean test) ^ 2).
  { assert (TS := total_spread c test). unfold var. set (q := mean test) in *. unfold mean. rewrite TS, !map_length. field. lra. }
  rewrite E. assert (D : (var test + (c - mean test) ^ 2) / var test = 1 + (c - mean test) ^ 2 * / var test) by (field; auto). rewrite D. assert (IP : 0 < / var test) by (apply Rinv_0_lt_compat; lra). pose proof (pow2_ge_0 (c - mean test)) as P2.
  split; [nra|]. split.
  - intros Z. assert (Z2 : (c - mean test) ^ 2 * / var test = 0) by lra. apply Rmult_integral in Z2 as [Z2|Z2]; [|lra]. assert (Z3 : (c - mean test) * (c - mean test) = 0) by (rewrite <- Z2; ring). apply Rmult_integral in Z3. lra.
  - intros ->. ring.
Qed.
Print Assumptions C184_constant.
(** It does not depend on the unit and the origin of the targets. *)
Theorem C184_affine : forall a b test pred, a <> 0 -> SMSE (map (fun v => a * v + b) test) (map (fun v => a * v + b) pred) = SMSE test pred.
Proof.
  intros a b test pred A. unfold SMSE. destruct test as [|x test']; [reflexivity|]. set (test := x :: test'). change (map (fun v => a * v + b) (x :: test')) with (map (fun v => a * v + b) test). cbn [map]. change (a * x + b :: map (fun v => a * v + b) test') with (map (fun v => a * v + b) test).
  rewrite squared_errors_affine, var_affine by discriminate. destruct (squared_errors test pred) as [se|] eqn:E; [|reflexivity]. cbn [option_map]. assert (A2 : a ^ 2 <> 0) by (apply pow_nonzero; auto).
  destruct (Req_EM_T (a ^ 2 * var test) 0) as [Z|Z]; destruct (Req_EM_T (var test) 0) as [W|W]; auto; [apply Rmult_integral in Z; tauto|rewrite W, Rmult_0_r in Z; tauto|].
  destruct (squared_errors_some test pred (squared_errors_len _ _ _ E)) as (se' & E' & L & _). rewrite E in E'. inversion E'; subst se'. assert (0 < INR (length se)) by (rewrite L; apply len_pos; discriminate). apply f_equal. unfold mean. rewrite total_map_scal, map_id, map_length. field. repeat split; auto; lra.
Qed.
Print Assumptions C184_affine.
Example C184_case : exists v, SMSE [1; 2; 3] [1; 2; 4] = Some v /\ 0 < v < 1 /\ var [1; 2; 3] <> 0.
Proof.
  assert (V : var [1; 2; 3] = 2 / 3) by (unfold var, mean, total; cbn; field). unfold SMSE. destruct (squared_errors [1; 2; 3] [1; 2; 4]) as [se|] eqn:E; [|discriminate]. cbn in E. inversion E. rewrite V. destruct (Req_EM_T (2 / 3) 0); [lra|]. eexists. split; [reflexivity|]. unfold mean, total. cbn. split; lra.
Qed.

(** C185: the mean standardized log loss is the average log loss of the predicted normal distributions minus that of the normal
    distribution with the mean and the variance of the training targets. *)
Theorem C185_value : forall train test pred vs, train <> [] -> var train <> 0 -> vs <> [] -> List.Forall (fun v => 0 < v) vs -> (length vs <= length test)%nat -> (length vs <= length pred)%nat ->
  fst (MSLL train test pred vs) = Some (average (length vs) (fun i => log_loss (nth i pred 0) (nth i vs 0) (nth i test 0) - log_loss (mean train) (var train) (nth i test 0))).
Proof.
  intros train test pred vs NT NZ NV F L1 L2. pose proof (var_nonneg train) as VN. destruct (losses_pos (mean train) (var train) test pred vs ltac:(lra) F L1 L2) as (l & E & L & T). unfold MSLL. destruct train as [|x train]; [congruence|]. rewrite E. cbn [fst]. destruct l as [|y l]; [destruct vs; [congruence|discriminate]|]. f_equal. unfold mean at 1, average. rewrite T, L. reflexivity.
Qed.
Print Assumptions C185_value.
(** It is zero for the trivial predictor. *)
Theorem C185_trivial : forall train test pred vs, train <> [] -> var train <> 0 -> vs <> [] -> (length vs <= length test)%nat ->
  (forall i, (i < length vs)%nat -> nth_error pred i = Some (mean train)) -> List.Forall (fun v => v = var train) vs -> fst (MSLL train test pred vs) = Some 0.
Proof.
  intros train test pred vs NT NZ NV L1 HP HV. pose proof (var_nonneg train) as VN.
  assert (L2 : (length vs <= length pred)%nat). { destruct vs as [|v vs]; [congruence|]. specialize (HP (length vs) ltac:(cbn; lia)). assert (length vs < length pred)%nat by (apply nth_error_Some; rewrite HP; discriminate). cbn. lia. }
  rewrite C185_value; auto; [|rewrite Forall_forall in *; intros v Hv; rewrite (HV v Hv); lra]. f_equal. unfold average.
  replace (fold_right _ 0 (seq 0 (length vs))) with 0; [unfold Rdiv; ring|]. assert (G : forall q, (forall i, In i q -> (i < length vs)%nat) -> fold_right (fun i s => log_loss (nth i pred 0) (nth i vs 0) (nth i test 0) - log_loss (mean train) (var train) (nth i test 0) + s) 0 q = 0).
  { induction q as [|i q IH]; intros H; cbn [fold_right]; [reflexivity|]. rewrite IH by (intros; apply H; now right). assert (Hi : (i < length vs)%nat) by (apply H; now left). rewrite (nth_error_nth _ _ 0 (HP i Hi)). replace (nth i vs 0) with (var train); [ring|]. rewrite Forall_forall in HV. symmetry. apply HV. now apply nth_In. }
  symmetry. apply G. intros i Hi. apply in_seq in Hi. lia.
Qed.
Print Assumptions C185_trivial.
Example C185_case : var [1; 3] <> 0 /\ (forall i, (i < 2)%nat -> nth_error [2; 2] i = Some (mean [1; 3])) /\ List.Forall (fun v => v = var [1; 3]) [1; 1].
Proof.
  assert (V : var [1; 3] = 1) by (unfold var, mean, total; cbn; field). assert (M : mean [1; 3] = 2) by (unfold mean, total; cbn; field). rewrite V, M. split; [lra|]. split; [|repeat constructor]. intros [|[|i]] H; [reflexivity|reflexivity|lia].
Qed.

(** C186: the measures leave their arguments unchanged.  The array of variances stays as it is if it has no zero; otherwise the
    zeros of the caller's array are overwritten. *)
Theorem C186_positive_partial : forall train test pred vs, ~ In 0 vs -> snd (MSLL train test pred vs) = vs.
Proof.
  intros train test pred vs H. assert (E : forall m s, snd (losses m s test pred vs) = vs); [intros m s|unfold MSLL; destruct train as [|x train]; [apply E|]; specialize (E (mean (x :: train)) (var (x :: train))); destruct (losses _ _ test pred vs); exact E].
  revert test pred. induction vs as [|v vs IH]; intros test pred; [reflexivity|]. cbn [losses]. destruct (Req_EM_T v 0) as [->|]; [exfalso; apply H; now left|]. destruct test as [|a test], pred as [|b pred]; try reflexivity.
  specialize (IH (fun I => H (or_intror I)) test pred). destruct (losses m s test pred vs) as [res vs']. cbn in *. now rewrite IH.
Qed.
Print Assumptions C186_positive_partial.
Theorem C186_refuted : exists train test pred vs, snd (MSLL train test pred vs) <> vs /\ fst (MSLL train test pred vs) <> None.
Proof.
  exists [0; 2], [1], [1], [0]. assert (V : var [0; 2] = 1) by (unfold var, mean, total; cbn; field). unfold MSLL. rewrite V. cbn [losses]. destruct (Req_EM_T 0 0) as [_|N]; [|lra]. destruct (Rlt_dec 0 1); [|lra]. destruct (Rlt_dec 0 (0 + / 10000000)) as [_|N]; [|lra]. cbn [fst snd option_map]. split; [|discriminate]. intros E. injection E. lra.
Qed.
Print Assumptions C186_refuted.
Example C186_case : ~ In 0 [1; 2].
Proof. intros [E|[E|[]]]; lra. Qed.
