From Coq Require Import Reals List Arith Lia Lra.
From Verif Require Import Lib_Normal Model_Error Spec_Error.
Import ListNotations.
Open Scope R_scope.

Lemma total_nonneg l : List.Forall (fun v => 0 <= v) l -> 0 <= total l.
Proof. unfold total. induction 1; cbn; lra. Qed.
Lemma total_zero l : List.Forall (fun v => 0 <= v) l -> total l = 0 -> List.Forall (fun v => v = 0) l.
Proof. unfold total. induction 1 as [|v l Hv H IH]; cbn; intros E; constructor; pose proof (total_nonneg l H) as T; unfold total in T; try apply IH; lra. Qed.
Lemma total_map_scal c (f : R -> R) l : total (map (fun v => c * f v) l) = c * total (map f l).
Proof. unfold total. induction l; cbn; [lra|]. rewrite IHl. lra. Qed.
Lemma total_affine a b l : total (map (fun v => a * v + b) l) = a * total l + INR (length l) * b.
Proof. unfold total. induction l; cbn [map fold_right length]; [cbn; lra|]. rewrite IHl, S_INR. lra. Qed.
Lemma len_pos {A} (l : list A) : l <> [] -> 0 < INR (length l).
Proof. destruct l; [congruence|]. intros _. apply lt_0_INR. cbn. lia. Qed.
Lemma mean_affine a b l : l <> [] -> mean (map (fun v => a * v + b) l) = a * mean l + b.
Proof. intros H. pose proof (len_pos l H). unfold mean. rewrite total_affine, map_length. field. lra. Qed.
Lemma var_affine a b l : l <> [] -> var (map (fun v => a * v + b) l) = a ^ 2 * var l.
Proof.
  intros H. unfold var. rewrite mean_affine by auto. rewrite map_map. rewrite (map_ext _ (fun v => a ^ 2 * (v - mean l) ^ 2)) by (intros; ring). pose proof (len_pos l H). unfold mean at 1 3. rewrite total_map_scal, !map_length. field. lra.
Qed.
Lemma var_nonneg l : 0 <= var l.
Proof.
  unfold var, mean at 1. destruct l as [|v l]; [cbn; unfold total; cbn; unfold Rdiv; rewrite Rmult_0_l; lra|]. apply Rmult_le_pos; [|left; apply Rinv_0_lt_compat; rewrite map_length; now apply len_pos].
  apply total_nonneg. rewrite Forall_map. apply Forall_forall. intros; apply pow2_ge_0.
Qed.
Lemma squared_errors_some test pred : (length test <= length pred)%nat -> exists se, squared_errors test pred = Some se /\ length se = length test /\ List.Forall (fun v => 0 <= v) se.
Proof.
  revert pred. induction test as [|a test IH]; intros [|b pred] H; cbn in *; try lia; try (eexists; split; [reflexivity|]; split; [reflexivity|constructor]).
  destruct (IH pred ltac:(lia)) as (se & -> & L & F). exists ((b - a) ^ 2 :: se). split; [reflexivity|]. split; [cbn; lia|]. constructor; auto. replace ((b - a) * ((b - a) * 1)) with ((b - a) ^ 2) by ring. apply pow2_ge_0.
Qed.
Lemma squared_errors_len test pred se : squared_errors test pred = Some se -> (length test <= length pred)%nat.
Proof. revert pred se. induction test as [|a test IH]; intros [|b pred] se H; cbn in *; try lia; try discriminate. destruct (squared_errors test pred) eqn:E; [|discriminate]. specialize (IH _ _ E). lia. Qed.
Lemma squared_errors_zero test pred se : squared_errors test pred = Some se -> (List.Forall (fun v => v = 0) se <-> firstn (length test) pred = test).
Proof.
  revert pred se. induction test as [|a test IH]; intros pred se H; [cbn in *; inversion H; split; auto|]. destruct pred as [|b pred]; cbn in H; [discriminate|]. destruct (squared_errors test pred) as [se'|] eqn:E; [|discriminate]. inversion H; subst. cbn [length firstn]. specialize (IH _ _ E). split.
  - intros F. inversion F as [|? ? Z F']; subst. apply IH in F'. rewrite F'. f_equal. assert (Z2 : (b - a) * (b - a) = 0) by (rewrite <- Z; ring). apply Rmult_integral in Z2. lra.
  - intros G. injection G as G1 G2. subst b. constructor; [ring|]. apply IH. exact G2.
Qed.
Lemma squared_errors_const c test pred : (forall i, (i < length test)%nat -> nth_error pred i = Some c) -> squared_errors test pred = Some (map (fun a => (c - a) ^ 2) test).
Proof.
  revert pred. induction test as [|a test IH]; intros pred H; [reflexivity|]. destruct pred as [|b pred]; [specialize (H 0%nat ltac:(cbn; lia)); discriminate|]. cbn [squared_errors map]. rewrite IH; [|intros i Hi; apply (H (S i)); cbn; lia]. specialize (H 0%nat ltac:(cbn; lia)). inversion H. reflexivity.
Qed.
Lemma squared_errors_affine a b test pred : squared_errors (map (fun v => a * v + b) test) (map (fun v => a * v + b) pred) = option_map (map (fun v => a ^ 2 * v)) (squared_errors test pred).
Proof. revert pred. induction test as [|x test IH]; intros [|z pred]; cbn [squared_errors map option_map]; auto. rewrite IH. destruct (squared_errors test pred); cbn [option_map map]; auto. do 2 f_equal. ring. Qed.
Lemma total_spread c l : total (map (fun a => (c - a) ^ 2) l) = total (map (fun a => (a - mean l) ^ 2) l) + INR (length l) * (c - mean l) ^ 2.
Proof.
  assert (G : forall m k, total (map (fun a => (c - a) ^ 2) k) = total (map (fun a => (a - m) ^ 2) k) + INR (length k) * (c - m) ^ 2 - 2 * (c - m) * (total k - INR (length k) * m)).
  { intros m k. unfold total. induction k as [|a k IH]; cbn [map fold_right length]; [cbn; ring|]. rewrite IH, S_INR. ring. }
  rewrite (G (mean l) l). destruct l as [|v l]; [unfold total; cbn; ring|]. pose proof (len_pos (v :: l) ltac:(discriminate)) as P. set (q := mean (v :: l)). replace (total (v :: l)) with (INR (length (v :: l)) * q) by (unfold q, mean; field; lra). ring.
Qed.

(** ** The log loss *)
Lemma log_loss_eq m v y : 0 < v -> log_loss m v y = / 2 * ln (2 * PI * v) + (y - m) ^ 2 / (2 * v).
Proof.
  intros H. pose proof PI_RGT_0. pose proof (sqrt_lt_R0 v H) as SV. pose proof two_pi_pos as SP. assert (SS : sqrt v * sqrt v = v) by (apply sqrt_sqrt; lra). assert (PP : sqrt (2 * PI) * sqrt (2 * PI) = 2 * PI) by (apply sqrt_sqrt; lra).
  unfold log_loss, pdf, gauss. set (e := exp (- ((y - m) / sqrt v * ((y - m) / sqrt v)) / 2)). assert (EP : 0 < e) by apply exp_pos.
  replace (e / sqrt (2 * PI) / sqrt v) with (e * / (sqrt (2 * PI) * sqrt v)) by (field; lra). assert (Q : 0 < sqrt (2 * PI) * sqrt v) by (apply Rmult_lt_0_compat; lra).
  rewrite ln_mult, ln_Rinv by (auto; now apply Rinv_0_lt_compat). unfold e. rewrite ln_exp.
  replace (2 * PI * v) with ((sqrt (2 * PI) * sqrt v) * (sqrt (2 * PI) * sqrt v)) by (replace (sqrt (2 * PI) * sqrt v * (sqrt (2 * PI) * sqrt v)) with ((sqrt (2 * PI) * sqrt (2 * PI)) * (sqrt v * sqrt v)) by ring; rewrite SS, PP; ring). set (q := sqrt (2 * PI) * sqrt v) in *. rewrite (ln_mult q q) by auto.
  replace ((y - m) / sqrt v * ((y - m) / sqrt v)) with ((y - m) ^ 2 / v) by (transitivity ((y - m) ^ 2 / (sqrt v * sqrt v)); [now rewrite SS|field; lra]). field. lra.
Qed.
Lemma losses_pos m s test pred vs : 0 < s -> List.Forall (fun v => 0 < v) vs -> (length vs <= length test)%nat -> (length vs <= length pred)%nat ->
  exists l, losses m s test pred vs = (Some l, vs) /\ length l = length vs /\ total l = fold_right (fun i q => log_loss (nth i pred 0) (nth i vs 0) (nth i test 0) - log_loss m s (nth i test 0) + q) 0 (seq 0 (length vs)).
Proof.
  intros SP F. revert test pred. induction F as [|v vs Hv F IH]; intros test pred H1 H2; [exists []; split; [reflexivity|split; reflexivity]|]. cbv beta in Hv. destruct test as [|a test]; [cbn in H1; lia|]. destruct pred as [|b pred]; [cbn in H2; lia|].
  cbn [losses]. destruct (Req_EM_T v 0); [lra|]. destruct (Rlt_dec 0 s); [|lra]. destruct (Rlt_dec 0 v); [|lra]. destruct (IH test pred) as (l & E & L & T); [cbn in H1; lia|cbn in H2; lia|]. rewrite E. cbn [option_map]. eexists. split; [reflexivity|]. split; [cbn; lia|].
  cbn [length seq fold_right nth]. unfold total. cbn [fold_right]. fold (total l). rewrite T. rewrite !log_loss_eq by auto. f_equal.
  rewrite <- seq_shift. generalize (seq 0 (length vs)) as q. clear. induction q; cbn; [reflexivity|]. rewrite IHq. reflexivity.
Qed.
