(** The concentrated likelihood as a maximum of Gaussian densities. *)
From Coq Require Import Reals List Arith Lia Lra Bool.
From Coquelicot Require Import Coquelicot.
From Verif Require Import Lib_Sum Lib_Chol Lib_GLS Model_Kernel Spec_Kernel Model_Likelihood Spec_Likelihood Proofs_Likelihood Proofs_LikelihoodGrad Proofs_LikelihoodModes Proofs_LikelihoodParts.
Import ListNotations.
Open Scope R_scope.

Lemma ln_le_minus x : 0 < x -> ln x <= x - 1.
Proof. intros H. pose proof (exp_ineq1_le (ln x)) as E. rewrite exp_ln in E by auto. lra. Qed.
Lemma factor_scale n A L s : 0 < s -> factor n A L -> factor n (fun i j => s * A i j) (fun i j => sqrt s * L i j).
Proof.
  intros Hs (LO & DI & EQ). pose proof (sqrt_lt_R0 s Hs). pose proof (sqrt_sqrt s ltac:(lra)) as SS. split; [|split].
  - intros i j H'. rewrite LO by auto. ring.
  - intros i Hi. apply Rmult_lt_0_compat; auto.
  - intros i j Hi Hj. rewrite <- EQ by auto. transitivity (sqrt s * sqrt s * sumn n (fun k => L i k * L j k)); [|now rewrite SS]. rewrite <- sumn_scal. apply sumn_ext. intros; ring.
Qed.
Definition density_of (n : nat) (s : R) (L : matrix) (z : nat -> R) : R := - (1 / 2) * (INR n * ln (2 * PI * s) + log_det n L + sumn n (fun i => z i * z i) / s).
Lemma density_sum n s L (w z : nat -> R) : 0 < s -> (forall i, (i < n)%nat -> 0 < L i i) -> (forall i, (i < n)%nat -> z i = sqrt s * w i) ->
  sumn n (fun i => ln (/ sqrt (2 * PI) * exp (- (w i * w i) / 2)) - ln (sqrt s * L i i)) = density_of n s L z.
Proof.
  intros Hs DI HZ. pose proof PI_RGT_0. pose proof (sqrt_lt_R0 s Hs). pose proof (sqrt_sqrt s ltac:(lra)) as SS.
  assert (P2 : 0 < 2 * PI) by lra. pose proof (sqrt_lt_R0 _ P2) as SP. pose proof (sqrt_sqrt (2 * PI) ltac:(lra)) as S2.
  assert (LP : ln (2 * PI) = 2 * ln (sqrt (2 * PI))) by (transitivity (ln (sqrt (2 * PI) * sqrt (2 * PI))); [now rewrite S2|]; rewrite ln_mult by auto; ring).
  assert (LS : ln s = 2 * ln (sqrt s)) by (transitivity (ln (sqrt s * sqrt s)); [now rewrite SS|]; rewrite ln_mult by auto; ring).
  rewrite (sumn_ext n _ (fun i => - (1 / 2) * (ln (2 * PI * s) + 2 * ln (L i i) + z i * z i / s))).
  - unfold density_of, log_det. rewrite sumn_scal. f_equal. rewrite !sumn_plus, sumn_const, sumn_scal. unfold Rdiv. rewrite sumn_scal_r. ring.
  - intros i Hi. specialize (DI i Hi). rewrite ln_mult; [|now apply Rinv_0_lt_compat|apply exp_pos]. rewrite ln_exp, ln_Rinv by auto. rewrite (ln_mult (sqrt s) (L i i)), (ln_mult (2 * PI) s) by lra. rewrite LP, LS. rewrite (HZ i Hi).
    replace (sqrt s * w i * (sqrt s * w i) / s) with (w i * w i); [field|]. transitivity (sqrt s * sqrt s * (w i * w i) / s); [rewrite SS; field; lra|field; lra].
Qed.
Lemma density_inv n A L s r u : 0 < s -> factor n A L -> gaussian_log_density n (fun i j => s * A i j) r u ->
  exists z, (forall i, (i < n)%nat -> sumn n (fun k => L i k * z k) = r i) /\ u = density_of n s L z.
Proof.
  intros Hs F (L' & w & F' & Hw & ->). assert (FS := factor_scale n A L s Hs F).
  assert (EL : forall i c, (i < n)%nat -> (c < n)%nat -> L' i c = sqrt s * L i c) by (intros i c Hi Hc; rewrite (chol_eq _ _ _ i c F' Hi Hc); symmetry; exact (chol_eq _ _ _ i c FS Hi Hc)).
  exists (fun i => sqrt s * w i). split.
  - intros i Hi. rewrite <- Hw by auto. apply sumn_ext. intros k Hk. rewrite EL by auto. ring.
  - rewrite <- (density_sum n s L w (fun i => sqrt s * w i)); auto; [|apply F]. apply sumn_ext. intros i Hi. now rewrite EL.
Qed.
Lemma density_intro n A L s r z : 0 < s -> factor n A L -> (forall i, (i < n)%nat -> sumn n (fun k => L i k * z k) = r i) ->
  gaussian_log_density n (fun i j => s * A i j) r (density_of n s L z).
Proof.
  intros Hs F Hz. pose proof (sqrt_lt_R0 s Hs). exists (fun i j => sqrt s * L i j), (fun i => z i / sqrt s). split; [now apply factor_scale|]. split.
  - intros i Hi. rewrite <- Hz by auto. apply sumn_ext. intros k Hk. field. lra.
  - symmetry. apply (density_sum n s L (fun i => z i / sqrt s) z); auto; [apply F|]. intros i Hi. field. lra.
Qed.
(** The best variance. *)
Lemma density_best n s L z S0 : (0 < n)%nat -> 0 < s -> 0 < S0 -> S0 <= sumn n (fun i => z i * z i) ->
  density_of n s L z <= - (1 / 2) * (INR n * ln (2 * PI * (S0 / INR n)) + log_det n L + INR n).
Proof.
  intros Hn Hs H0 HS. apply lt_0_INR in Hn. unfold density_of. set (T := sumn n (fun i => z i * z i)) in *. pose proof PI_RGT_0.
  assert (Q : ln (S0 / (INR n * s)) <= S0 / (INR n * s) - 1) by (apply ln_le_minus, Rdiv_lt_0_compat; nra).
  assert (E : ln (2 * PI * (S0 / INR n)) = ln (2 * PI * s) + ln (S0 / (INR n * s))).
  { rewrite <- ln_mult; [|nra|apply Rdiv_lt_0_compat; nra]. f_equal. field. lra. }
  rewrite E. assert (V : S0 / s <= T / s) by (apply Rmult_le_compat_r; [left; now apply Rinv_0_lt_compat|auto]).
  assert (W : INR n * (S0 / (INR n * s)) = S0 / s) by (field; lra). nra.
Qed.
Lemma density_at n L z : (0 < n)%nat -> 0 < sumn n (fun i => z i * z i) ->
  density_of n (sumn n (fun i => z i * z i) / INR n) L z = - (1 / 2) * (INR n * ln (2 * PI * (sumn n (fun i => z i * z i) / INR n)) + log_det n L + INR n).
Proof. intros Hn H. apply lt_0_INR in Hn. unfold density_of. f_equal. f_equal. field. lra. Qed.

Section Oracles.
Variable cholesky : nat -> matrix -> option matrix.
Variable qr : nat -> nat -> matrix -> matrix * matrix.
Variable solve_lower : nat -> matrix -> (nat -> R) -> nat -> R.
Variable solve_upper : nat -> matrix -> (nat -> R) -> nat -> R.
Variable cho_solve : nat -> matrix -> matrix -> matrix.
Variable matrix_rank : nat -> matrix -> nat.
Hypothesis LP : lapack cholesky qr solve_lower solve_upper cho_solve matrix_rank.
Notation compute := (compute_aux_var cholesky qr solve_lower).
Notation log_likelihood := (log_likelihood cholesky qr solve_lower matrix_rank).
Variable d : data.
Notation n := (length (X d)).
Hypothesis PR : proper n (mean d).
Notation residuals j b := (fun i => y d i j - trend_values (mean d) b i).

Lemma best_both A a j : symmetric n A -> compute d A = Some a -> sum_sq n (a_rho a) j <> 0 ->
  largest (fun u => exists b s, 0 < s /\ gaussian_log_density n (fun i l => s * A i l) (residuals j b) u)
    (- (1 / 2) * (INR n * ln (2 * PI * (sum_sq n (a_rho a) j / INR n)) + log_det n (a_L a) + INR n)).
Proof.
  intros SY C HS. destruct (compute_spec _ _ _ _ _ _ LP d PR A a SY C) as (F & _ & M). destruct (M j) as (b & Hb & Hmin). rewrite sum_sq_eq in HS.
  assert (Hn : (0 < n)%nat) by (destruct (Nat.eq_dec n 0) as [Z|]; [|lia]; exfalso; apply HS; rewrite Z; apply sumn_0).
  assert (P : 0 < sumn n (fun i => a_rho a i j * a_rho a i j)).
  { assert (0 <= sumn n (fun i => a_rho a i j * a_rho a i j)) by (apply sumn_nonneg; intros; apply Rle_0_sqr). lra. }
  rewrite sum_sq_eq. split.
  - exists b, (sumn n (fun i => a_rho a i j * a_rho a i j) / INR n). split; [apply Rdiv_lt_0_compat; auto; now apply lt_0_INR|].
    rewrite <- (density_at n (a_L a) (fun i => a_rho a i j)) by auto. apply (density_intro n A (a_L a)); auto. apply Rdiv_lt_0_compat; auto; now apply lt_0_INR.
  - intros u (b' & s & Hs & G). destruct (density_inv n A (a_L a) s _ u Hs F G) as (z & Hz & ->). apply density_best; auto. now apply (Hmin b').
Qed.
Lemma best_trend A a j s : 0 < s -> symmetric n A -> compute d A = Some a ->
  largest (fun u => exists b, gaussian_log_density n (fun i l => s * A i l) (residuals j b) u)
    (- (1 / 2) * (INR n * ln (2 * PI * s) + log_det n (a_L a) + sum_sq n (a_rho a) j / s)).
Proof.
  intros Hs SY C. destruct (compute_spec _ _ _ _ _ _ LP d PR A a SY C) as (F & _ & M). destruct (M j) as (b & Hb & Hmin). rewrite sum_sq_eq. split.
  - exists b. exact (density_intro n A (a_L a) s _ (fun i => a_rho a i j) Hs F Hb).
  - intros u (b' & G). destruct (density_inv n A (a_L a) s _ u Hs F G) as (z & Hz & ->). unfold density_of.
    assert (V : sumn n (fun i => a_rho a i j * a_rho a i j) / s <= sumn n (fun i => z i * z i) / s) by (apply Rmult_le_compat_r; [left; now apply Rinv_0_lt_compat|now apply (Hmin b')]). lra.
Qed.
End Oracles.
