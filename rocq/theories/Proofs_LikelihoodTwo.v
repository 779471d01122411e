(** The likelihood of two observations at distance one. *)
From Coq Require Import Reals List Arith Lia Lra Bool.
From Coquelicot Require Import Coquelicot.
From Verif Require Import Lib_Sum Lib_Chol Lib_GLS Model_Kernel Spec_Kernel Proofs_Kernel Properties_Kernel Model_Likelihood Spec_Likelihood Proofs_Likelihood Proofs_LikelihoodGrad Proofs_LikelihoodModes Proofs_LikelihoodParts.
Import ListNotations.
Open Scope R_scope.

Lemma sumn_2 f : sumn 2 f = f 0%nat + f 1%nat.
Proof. rewrite !sumn_S, sumn_0. ring. Qed.
Lemma ln_pair a b : 0 < a -> 0 < b -> 1 <= a * a * b -> 0 <= 2 * ln a + ln b.
Proof.
  intros Ha Hb H. assert (E : ln (a * a * b) = 2 * ln a + ln b) by (rewrite !ln_mult by nra; ring). rewrite <- E. rewrite <- ln_1. destruct H as [H|H]; [left; apply ln_increasing; lra|rewrite <- H; lra].
Qed.
Lemma PI_3 : 3 < PI.
Proof. pose proof PI2_3_2. lra. Qed.
Definition q0 : R := exp (- 1).
Lemma q0_range : 0 < q0 < 1 / 2.
Proof.
  unfold q0. split; [apply exp_pos|]. pose proof (exp_ineq1 1 ltac:(lra)) as H. replace (-1) with (- (1)) by ring. rewrite exp_Ropp. apply (Rmult_lt_reg_r (exp 1)); [lra|]. rewrite Rinv_l by lra. lra.
Qed.
Definition L2 (q : R) : matrix := fun i j => match i, j with 0%nat, 0%nat => 1 | 1%nat, 0%nat => q | 1%nat, 1%nat => sqrt (1 - q * q) | _, _ => 0 end.
Definition is_two (A : matrix) (q : R) : Prop := A 0%nat 0%nat = 1 /\ A 1%nat 1%nat = 1 /\ A 0%nat 1%nat = q /\ A 1%nat 0%nat = q.
Lemma two_cases (P : nat -> Prop) : P 0%nat -> P 1%nat -> forall i, (i < 2)%nat -> P i.
Proof. intros H0 H1 [|[|i]] Hi; auto; lia. Qed.
Lemma two_factor A q : 0 <= q < 1 -> is_two A q -> factor 2 A (L2 q).
Proof.
  intros Hq (A0 & A1 & A2 & A3). assert (0 < 1 - q * q) by nra. pose proof (sqrt_lt_R0 _ H). pose proof (sqrt_sqrt (1 - q * q) ltac:(lra)).
  split; [|split].
  - intros i j Hij. assert (i = 0%nat /\ j = 1%nat) as (-> & ->) by lia. reflexivity.
  - apply two_cases; cbn; lra.
  - intros i j Hi Hj. rewrite sumn_2. revert i Hi. apply two_cases; revert j Hj; apply two_cases; cbn; lra.
Qed.
Lemma two_symmetric A q : is_two A q -> symmetric 2 A.
Proof. intros (A0 & A1 & A2 & A3) i j Hi Hj. revert i Hi. apply two_cases; revert j Hj; apply two_cases; lra. Qed.

Section Oracles.
Variable cholesky : nat -> matrix -> option matrix.
Variable qr : nat -> nat -> matrix -> matrix * matrix.
Variable solve_lower : nat -> matrix -> (nat -> R) -> nat -> R.
Variable solve_upper : nat -> matrix -> (nat -> R) -> nat -> R.
Variable cho_solve : nat -> matrix -> matrix -> matrix.
Variable matrix_rank : nat -> matrix -> nat.
Hypothesis LP : lapack cholesky qr solve_lower solve_upper cho_solve matrix_rank.
Notation compute := (compute_aux_var cholesky qr solve_lower).
Variable d : data.
Hypothesis N2 : length (X d) = 2%nat.
Hypothesis PR : proper 2 (mean d).
Variables (A : matrix) (q : R).
Hypothesis (Hq : 0 <= q < 1) (HA : is_two A q).
Definition res (j : nat) (b : nat -> R) (i : nat) : R := y d i j - trend_values (mean d) b i.
Definition two_form (r : nat -> R) : R := (r 0%nat * r 0%nat - 2 * q * r 0%nat * r 1%nat + r 1%nat * r 1%nat) / (1 - q * q).
Lemma two_aux : exists a, compute d A = Some a /\ log_det 2 (a_L a) = ln (1 - q * q) /\
  cho_solve 2 (a_L a) eye 0%nat 1%nat = - q / (1 - q * q) /\ cho_solve 2 (a_L a) eye 1%nat 0%nat = - q / (1 - q * q) /\
  forall j, exists b, gam solve_upper d a j 0%nat = (res j b 0 - q * res j b 1) / (1 - q * q) /\ gam solve_upper d a j 1%nat = (res j b 1 - q * res j b 0) / (1 - q * q) /\
    sum_sq 2 (a_rho a) j = two_form (res j b) /\ forall b', two_form (res j b) <= two_form (res j b').
Proof.
  assert (SY := two_symmetric A q HA). assert (F2 := two_factor A q Hq HA). assert (DE : 0 < 1 - q * q) by nra.
  pose proof (sqrt_lt_R0 _ DE) as SP. pose proof (sqrt_sqrt (1 - q * q) ltac:(lra)) as SS.
  assert (C : exists a, compute d A = Some a).
  { unfold compute_aux_var. rewrite N2. destruct (cholesky 2 A) eqn:EL; [|exfalso; now apply (cholesky_found _ _ _ _ _ _ LP 2 A (L2 q) SY F2)]. destruct (mean d); eauto. }
  destruct C as (a & C). exists a. split; auto.
  assert (PR' : proper (length (X d)) (mean d)) by (now rewrite N2). assert (SY' : symmetric (length (X d)) A) by (now rewrite N2).
  destruct (compute_spec _ _ _ _ _ _ LP d PR' A a SY' C) as (FA & _ & SP').
  pose proof (fun j => gam_form _ _ _ _ _ _ LP d PR' A a j SY' C) as GF. rewrite N2 in FA, SP'.
  assert (EL : forall i c, (i < 2)%nat -> (c < 2)%nat -> a_L a i c = L2 q i c) by (intros i c Hi Hc; rewrite (chol_eq 2 A (a_L a) i c FA Hi Hc), (chol_eq 2 A (L2 q) i c F2 Hi Hc); auto).
  assert (L00 := EL 0%nat 0%nat ltac:(lia) ltac:(lia)). assert (L01 := EL 0%nat 1%nat ltac:(lia) ltac:(lia)). assert (L10 := EL 1%nat 0%nat ltac:(lia) ltac:(lia)). assert (L11 := EL 1%nat 1%nat ltac:(lia) ltac:(lia)). cbn [L2] in L00, L01, L10, L11.
  destruct HA as (A0 & A1 & A2 & A3).
  split.
  { unfold log_det. rewrite sumn_2, L00, L11, ln_1. rewrite <- SS at 2. rewrite ln_mult by auto. ring. }
  assert (RI : forall j, (j < 2)%nat -> forall i, (i < 2)%nat -> A i 0%nat * cho_solve 2 (a_L a) eye 0%nat j + A i 1%nat * cho_solve 2 (a_L a) eye 1%nat j = eye i j).
  { intros j Hj i Hi. rewrite <- (cho_solved _ _ _ _ _ _ LP 2 (a_L a) eye i j (proj1 FA) (factor_diag _ _ _ FA) Hi Hj). rewrite (sumn_2 (fun k => _ * _)). destruct FA as (_ & _ & E). rewrite !E by lia. auto. }
  assert (R00 := RI 0%nat ltac:(lia) 0%nat ltac:(lia)). assert (R01 := RI 0%nat ltac:(lia) 1%nat ltac:(lia)). assert (R10 := RI 1%nat ltac:(lia) 0%nat ltac:(lia)). assert (R11 := RI 1%nat ltac:(lia) 1%nat ltac:(lia)).
  rewrite A0, A2 in R00, R10. rewrite A1, A3 in R01, R11. change (eye 0%nat 0%nat) with 1 in R00. change (eye 1%nat 0%nat) with 0 in R01. change (eye 0%nat 1%nat) with 0 in R10. change (eye 1%nat 1%nat) with 1 in R11.
  split; [|split].
  - set (u := cho_solve 2 (a_L a) eye 0%nat 1%nat) in *. set (w := cho_solve 2 (a_L a) eye 1%nat 1%nat) in *. apply (Rmult_eq_reg_r (1 - q * q)); [|lra]. unfold Rdiv. rewrite Rmult_assoc, Rinv_l by lra. transitivity ((1 * u + q * w) - q * (q * u + 1 * w)); [ring|rewrite R10, R11; ring].
  - set (u := cho_solve 2 (a_L a) eye 0%nat 0%nat) in *. set (w := cho_solve 2 (a_L a) eye 1%nat 0%nat) in *. apply (Rmult_eq_reg_r (1 - q * q)); [|lra]. unfold Rdiv. rewrite Rmult_assoc, Rinv_l by lra. transitivity ((q * u + 1 * w) - q * (1 * u + q * w)); [ring|rewrite R00, R01; ring].
  - intros j. destruct (SP' j) as (b & Hb & Hmin). exists b. specialize (GF j). rewrite N2 in GF. unfold form in GF. rewrite !sumn_2, A0, A1, A2, A3 in GF.
    assert (G : forall i, (i < 2)%nat -> a_L a 0%nat i * gam solve_upper d a j 0%nat + a_L a 1%nat i * gam solve_upper d a j 1%nat = a_rho a i j).
    { intros i Hi. rewrite <- (sumn_2 (fun k => a_L a k i * gam solve_upper d a j k)). unfold gam. rewrite N2. apply (upper_solved _ _ _ _ _ _ LP 2 (fun r s => a_L a s r) (fun k => a_rho a k j) i); auto.
      - intros r s H. apply FA. lia.
      - intros k Hk. apply (factor_diag _ _ _ FA). auto. }
    assert (G0 := G 0%nat ltac:(lia)). assert (G1 := G 1%nat ltac:(lia)). rewrite L00, L10 in G0. rewrite L01, L11 in G1.
    assert (B0 := Hb 0%nat ltac:(lia)). assert (B1 := Hb 1%nat ltac:(lia)). rewrite sumn_2 in B0, B1. rewrite L00, L01 in B0. rewrite L10, L11 in B1. fold (res j b 0%nat) in B0. fold (res j b 1%nat) in B1.
    assert (T : forall b', two_form (res j b) <= two_form (res j b')).
    { assert (TF : forall b', exists z, (forall i, (i < 2)%nat -> sumn 2 (fun k => a_L a i k * z k) = y d i j - trend_values (mean d) b' i) /\ sumn 2 (fun i => z i * z i) = two_form (res j b')).
      { intros b'. exists (fun i => match i with 0%nat => res j b' 0 | _ => (res j b' 1 - q * res j b' 0) / sqrt (1 - q * q) end). split.
        - apply two_cases; rewrite sumn_2; [rewrite L00, L01|rewrite L10, L11]; unfold res; field; lra.
        - rewrite sumn_2. unfold two_form. set (w := sqrt (1 - q * q)) in *. transitivity (res j b' 0%nat * res j b' 0%nat + (res j b' 1%nat - q * res j b' 0%nat) * (res j b' 1%nat - q * res j b' 0%nat) / (w * w)); [field; lra|]. rewrite SS. field. lra. }
      intros b'. destruct (TF b') as (z & Hz & <-). replace (two_form (res j b)) with (sumn 2 (fun i => a_rho a i j * a_rho a i j)); [now apply (Hmin b')|].
      destruct (TF b) as (z0 & Hz0 & <-). apply sumn_ext. intros i Hi.
      assert (Q : z0 i = a_rho a i j); [|now rewrite Q]. rewrite <- (fsub_unique 2 (a_L a) _ z0 (proj1 FA) (factor_diag _ _ _ FA) Hz0 2 (le_n _) i Hi).
      now apply (fsub_unique 2 (a_L a) _ (fun i => a_rho a i j) (proj1 FA) (factor_diag _ _ _ FA) Hb). }
    set (g0 := gam solve_upper d a j 0%nat) in *. set (g1 := gam solve_upper d a j 1%nat) in *. set (s := sqrt (1 - q * q)) in *.
    assert (H0 : g0 + q * g1 = res j b 0) by lra. assert (H1 : q * g0 + g1 = res j b 1).
    { rewrite <- B1, <- G0, <- G1. transitivity (q * (1 * g0 + q * g1) + s * s * g1); [rewrite SS; ring|ring]. }
    assert (E0 : g0 = (res j b 0 - q * res j b 1) / (1 - q * q)) by (rewrite <- H0, <- H1; field; lra).
    assert (E1 : g1 = (res j b 1 - q * res j b 0) / (1 - q * q)) by (rewrite <- H0, <- H1; field; lra).
    split; [exact E0|]. split; [exact E1|]. split; [|exact T]. rewrite <- GF. unfold two_form. rewrite <- H0, <- H1. field. lra.
Qed.
End Oracles.

(** The data of the examples. *)
Definition two (T : nat) (ys : matrix) (m : trend) : data := Data [[0]; [1]] T ys m SqExp.
Lemma two_rectangular T ys m : rectangular (X (two T ys m)) 1.
Proof. repeat constructor. Qed.
Lemma two_correlation : exists M, correlation_matrix SqExp [1] [[0]; [1]] = Some M /\ is_two M q0.
Proof.
  destruct (C62_defined SqExp [1] [[0]; [1]] 1 ltac:(repeat constructor) ltac:(now left)) as (M & E). exists M. split; auto.
  destruct (C62_correlation_matrix _ _ _ _ E 0%nat 1%nat ltac:(cbn; lia) ltac:(cbn; lia)) as (S01 & D0 & C01).
  destruct (C62_correlation_matrix _ _ _ _ E 1%nat 1%nat ltac:(cbn; lia) ltac:(cbn; lia)) as (_ & D1 & _).
  specialize (C01 ltac:(lia)). cbn in C01. assert (V : M 0%nat 1%nat = q0).
  { inversion C01 as [V]. unfold q0. f_equal. unfold sum, Rsqr. cbn. replace (0 - 1) with (- (1)) by ring. rewrite Rabs_Ropp, Rabs_R1. ring. }
  unfold is_two. rewrite <- S01, V. auto.
Qed.
Lemma two_slice T ys m e : theta e = [1] -> is_two (R0 e) q0 -> grad_slice (two T ys m) e 0 0%nat 1%nat = - q0 /\ grad_slice (two T ys m) e 0 1%nat 0%nat = - q0 /\
  grad_slice (two T ys m) e 0 0%nat 0%nat = 0 /\ grad_slice (two T ys m) e 0 1%nat 1%nat = 0.
Proof.
  intros ET (_ & _ & A2 & A3). unfold grad_slice, two. cbn [kern X nth]. rewrite ET. cbn. rewrite A2, A3. unfold Rsqr.
  replace (0 - 1) with (- (1)) by ring. replace (1 - 0) with 1 by ring. rewrite !Rminus_diag_eq by auto. rewrite Rabs_Ropp, Rabs_R1, Rabs_R0. repeat split; ring.
Qed.
Lemma form_two D g : D 0%nat 0%nat = 0 -> D 1%nat 1%nat = 0 -> form 2 D g = g 0%nat * g 1%nat * (D 0%nat 1%nat + D 1%nat 0%nat).
Proof. intros H0 H1. unfold form. rewrite !sumn_2, H0, H1. ring. Qed.
Lemma trace_two B D : D 0%nat 0%nat = 0 -> D 1%nat 1%nat = 0 -> trace_of 2 B D = B 0%nat 1%nat * D 0%nat 1%nat + B 1%nat 0%nat * D 1%nat 0%nat.
Proof. intros H0 H1. unfold trace_of. rewrite !sumn_2, H0, H1. ring. Qed.
Lemma upper_two f : upper_sum 2 f = f 0%nat 1%nat.
Proof. unfold upper_sum. rewrite !sumn_2. cbn. ring. Qed.
