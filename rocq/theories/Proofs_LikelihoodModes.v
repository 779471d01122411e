(** The derivative of the likelihood along one parameter, for the three modes. *)
From Coq Require Import Reals List Arith Lia Lra Bool.
From Coquelicot Require Import Coquelicot.
From Verif Require Import Lib_Sum Lib_Chol Lib_GLS Model_Kernel Spec_Kernel Proofs_Kernel Properties_Kernel Model_Likelihood Spec_Likelihood Proofs_Likelihood Proofs_LikelihoodGrad.
Import ListNotations.
Open Scope R_scope.

Lemma eye_sym n : symmetric n eye.
Proof. intros i j _ _. unfold eye. now rewrite Nat.eqb_sym. Qed.
Lemma INR_minus_pos n k : (n - k <> 0)%nat -> 0 < INR (n - k).
Proof. intros H. apply lt_0_INR. lia. Qed.

Section Oracles.
Variable cholesky : nat -> matrix -> option matrix.
Variable qr : nat -> nat -> matrix -> matrix * matrix.
Variable solve_lower : nat -> matrix -> (nat -> R) -> nat -> R.
Variable solve_upper : nat -> matrix -> (nat -> R) -> nat -> R.
Variable cho_solve : nat -> matrix -> matrix -> matrix.
Variable matrix_rank : nat -> matrix -> nat.
Hypothesis LP : lapack cholesky qr solve_lower solve_upper cho_solve matrix_rank.
Notation compute := (compute_aux_var cholesky qr solve_lower).
Notation evaluate := (evaluate cholesky qr solve_lower matrix_rank).
Notation log_likelihood := (log_likelihood cholesky qr solve_lower matrix_rank).
Variable d : data.
Notation n := (length (X d)).
Hypothesis PR : proper n (mean d).
Variable noise : R.
Notation gam e := (gam solve_upper d (aux_of e)).
Notation Rinv e := (cho_solve n (a_L (aux_of e)) eye).

Section Along.
Variables (par : R -> list R) (K : R -> matrix) (x : R) (e : evaluation) (dA : matrix).
Hypothesis (KS : forall t, symmetric n (K t)).
Hypothesis (NEG : forall j, (j < targets d)%nat -> ll e j < 0).

Lemma nonzero_some (a : nat -> R) : existsb (fun j => if Req_EM_T (a j) 0 then true else false) (seq 0 (targets d)) = false <-> forall j, (j < targets d)%nat -> a j <> 0.
Proof.
  rewrite existsb_seq. split; intros H j Hj; specialize (H j Hj); destruct (Req_EM_T (a j) 0); auto; congruence.
Qed.

Lemma estim_along :
  (forall t, correlation_matrix (kern d) (removelast (par t)) (X d) = Some (K t)) ->
  (forall i j, (i < n)%nat -> (j < n)%nat -> is_derive (fun t => last (par t) 0 * K t i j + (1 - last (par t) 0) * eye i j) x (dA i j)) ->
  evaluate NoiseEstim noise d (par x) = Value (Some e) ->
  exists h, is_derive h x (sumn (targets d) (fun j => / 2 * (form n dA (gam e j) / total e j - trace_of n (Rinv e) dA))) /\
    locally x (fun t => finite (log_likelihood NoiseEstim noise d (par t)) = Some (h t)).
Proof.
  intros HK DA E. set (A := fun t : R => (fun i j => last (par t) 0 * K t i j + (1 - last (par t) 0) * eye i j) : matrix).
  assert (SY : locally x (fun t => symmetric n (A t))) by (apply filter_forall; intros t i j Hi Hj; unfold A; rewrite (KS t i j), (eye_sym n i j); auto).
  pose proof E as E0. unfold Model_Likelihood.evaluate in E. rewrite HK in E. change (fun i j => last (par x) 0 * K x i j + (1 - last (par x) 0) * eye i j) with (A x) in E.
  destruct (compute d (A x)) as [a0|] eqn:C0; [|discriminate].
  destruct (existsb _ _) eqn:Z; [discriminate|]. inversion E as [Ee]. clear E. rewrite nonzero_some in Z.
  assert (ZS : forall j, (j < targets d)%nat -> (0 < n)%nat /\ sum_sq n (a_rho a0) j <> 0).
  { intros j Hj. specialize (Z j Hj). split.
    - destruct (Nat.eq_dec n 0) as [N0|]; [|lia]. exfalso. apply Z. unfold sum_sq. rewrite N0, sumn_0. unfold Rdiv. ring.
    - intros H. apply Z. rewrite H. unfold Rdiv. ring. }
  set (F := fun t => Evaluation (fun j => - (1 / 2) * (INR n * ln (2 * PI * (sum_sq n (a_rho (aux_at cholesky qr solve_lower d A a0 t)) j / INR n)) + log_det n (a_L (aux_at cholesky qr solve_lower d A a0 t)) + INR n)) (removelast (par t)) (K t) (aux_at cholesky qr solve_lower d A a0 t) (fun j => sum_sq n (a_rho (aux_at cholesky qr solve_lower d A a0 t)) j / INR n)).
  assert (DF : forall j, (j < targets d)%nat -> is_derive (fun t => ll (F t) j) x (/ 2 * (INR n * form n dA (gam e j) / sum_sq n (a_rho a0) j - trace_of n (Rinv e) dA))).
  { intros j Hj. destruct (ZS j Hj) as (Hn & HS). rewrite <- Ee. apply (conc_derive _ _ _ _ _ _ LP d PR A x dA DA SY a0 C0 j (INR n)); auto. now apply lt_0_INR. }
  assert (EF : locally x (fun t => evaluate NoiseEstim noise d (par t) = Value (Some (F t)))).
  { generalize (filter_and _ _ (along_found _ _ _ _ _ _ LP d PR A x dA DA SY a0 C0) (positive_locally _ _ _ _ _ _ LP d PR A x dA DA SY a0 C0 (fun j Hj => proj2 (ZS j Hj)))).
    apply filter_imp. intros t ((Ct & _) & Pt). unfold Model_Likelihood.evaluate. rewrite HK. change (fun i j => last (par t) 0 * K t i j + (1 - last (par t) 0) * eye i j) with (A t). rewrite Ct.
    replace (existsb _ _) with false; [reflexivity|]. symmetry. apply nonzero_some. intros j Hj. specialize (Pt j Hj). destruct (ZS j Hj) as (Hn & _). apply lt_0_INR in Hn.
    apply Rgt_not_eq, Rdiv_lt_0_compat; auto. }
  assert (Fx : F x = e) by (apply locally_singleton in EF; congruence).
  exists (fun t => sumn (targets d) (ll (F t))). split.
  - rewrite (sumn_ext (targets d) _ (fun j => / 2 * (INR n * form n dA (gam e j) / sum_sq n (a_rho a0) j - trace_of n (Rinv e) dA))).
    + apply (sumn_derive (targets d) (fun j t => ll (F t) j)). exact DF.
    + intros j Hj. destruct (ZS j Hj) as (Hn & HS). apply lt_0_INR in Hn. rewrite <- Ee. cbn [total]. f_equal. f_equal. field. split; lra.
  - generalize (accept_locally cholesky qr solve_lower matrix_rank d NoiseEstim noise par F x EF ltac:(rewrite Fx; exact NEG) (fun j Hj => ex_intro _ _ (DF j Hj))).
    apply filter_imp. intros t ->. reflexivity.
Qed.

Lemma noiseless_along :
  (forall t, correlation_matrix (kern d) (par t) (X d) = Some (K t)) ->
  (forall i j, (i < n)%nat -> (j < n)%nat -> is_derive (fun t => K t i j) x (dA i j)) ->
  evaluate Noiseless noise d (par x) = Value (Some e) ->
  exists h, is_derive h x (sumn (targets d) (fun j => / 2 * (INR n / INR (n - coefficients_of (mean d)) * form n dA (gam e j) / total e j - trace_of n (Rinv e) dA))) /\
    locally x (fun t => finite (log_likelihood Noiseless noise d (par t)) = Some (h t)).
Proof.
  intros HK DA E. set (k := coefficients_of (mean d)).
  assert (SY : locally x (fun t => symmetric n (K t))) by (apply filter_forall; auto).
  pose proof E as E0. unfold Model_Likelihood.evaluate in E. rewrite HK in E.
  destruct (compute d (K x)) as [a0|] eqn:C0; [|discriminate]. rewrite (rank_k _ _ _ _ _ _ LP d PR _ _ (KS x) C0) in E. fold k in E.
  destruct (_ || _)%bool eqn:Z; [discriminate|]. apply orb_false_elim in Z as (Zn & Z). apply Nat.eqb_neq in Zn. inversion E as [Ee]. clear E. rewrite nonzero_some in Z.
  pose proof (INR_minus_pos _ _ Zn) as NK.
  assert (ZS : forall j, (j < targets d)%nat -> sum_sq n (a_rho a0) j <> 0).
  { intros j Hj H. apply (Z j Hj). rewrite H. unfold Rdiv. ring. }
  set (F := fun t => Evaluation (fun j => - (1 / 2) * (INR n * ln (2 * PI * (sum_sq n (a_rho (aux_at cholesky qr solve_lower d K a0 t)) j / INR (n - k))) + log_det n (a_L (aux_at cholesky qr solve_lower d K a0 t)) + INR n)) (par t) (K t) (aux_at cholesky qr solve_lower d K a0 t) (fun j => sum_sq n (a_rho (aux_at cholesky qr solve_lower d K a0 t)) j / INR (n - k))).
  assert (DF : forall j, (j < targets d)%nat -> is_derive (fun t => ll (F t) j) x (/ 2 * (INR n * form n dA (gam e j) / sum_sq n (a_rho a0) j - trace_of n (Rinv e) dA))).
  { intros j Hj. rewrite <- Ee. apply (conc_derive _ _ _ _ _ _ LP d PR K x dA DA SY a0 C0 j (INR (n - k))); auto. }
  assert (EF : locally x (fun t => evaluate Noiseless noise d (par t) = Value (Some (F t)))).
  { generalize (filter_and _ _ (along_found _ _ _ _ _ _ LP d PR K x dA DA SY a0 C0) (positive_locally _ _ _ _ _ _ LP d PR K x dA DA SY a0 C0 ZS)).
    apply filter_imp. intros t ((Ct & _) & Pt). unfold Model_Likelihood.evaluate. rewrite HK. rewrite Ct. rewrite (rank_k _ _ _ _ _ _ LP d PR _ _ (KS t) Ct). fold k.
    replace (_ || _)%bool with false; [reflexivity|]. symmetry. apply orb_false_intro; [now apply Nat.eqb_neq|]. apply nonzero_some. intros j Hj. specialize (Pt j Hj).
    apply Rgt_not_eq, Rdiv_lt_0_compat; auto. }
  assert (Fx : F x = e) by (apply locally_singleton in EF; congruence).
  exists (fun t => sumn (targets d) (ll (F t))). split.
  - rewrite (sumn_ext (targets d) _ (fun j => / 2 * (INR n * form n dA (gam e j) / sum_sq n (a_rho a0) j - trace_of n (Rinv e) dA))).
    + apply (sumn_derive (targets d) (fun j t => ll (F t) j)). exact DF.
    + intros j Hj. specialize (ZS j Hj). rewrite <- Ee. cbn [total]. f_equal. f_equal. field. split; lra.
  - generalize (accept_locally cholesky qr solve_lower matrix_rank d Noiseless noise par F x EF ltac:(rewrite Fx; exact NEG) (fun j Hj => ex_intro _ _ (DF j Hj))).
    apply filter_imp. intros t ->. reflexivity.
Qed.

Lemma noisy_along ds : 0 < last (par x) 0 + noise -> is_derive (fun t => last (par t) 0) x ds ->
  (forall t, correlation_matrix (kern d) (removelast (par t)) (X d) = Some (K t)) ->
  (forall i j, (i < n)%nat -> (j < n)%nat -> is_derive (fun t => (last (par t) 0 * K t i j + noise * eye i j) / (last (par t) 0 + noise)) x (dA i j)) ->
  evaluate Noisy noise d (par x) = Value (Some e) ->
  let s := last (par x) 0 + noise in
  exists h, is_derive h x (sumn (targets d) (fun j => - (1 / 2) * (INR n * ds / s + trace_of n (Rinv e) dA - form n dA (gam e j) / s - ds * sum_sq n (a_rho (aux_of e)) j / (s * s)))) /\
    locally x (fun t => finite (log_likelihood Noisy noise d (par t)) = Some (h t)).
Proof.
  intros Hs Ds HK DA E s. set (A := fun t : R => (fun i j => (last (par t) 0 * K t i j + noise * eye i j) / (last (par t) 0 + noise)) : matrix).
  assert (SY : locally x (fun t => symmetric n (A t))) by (apply filter_forall; intros t i j Hi Hj; unfold A; rewrite (KS t i j), (eye_sym n i j); auto).
  pose proof E as E0. unfold Model_Likelihood.evaluate in E. rewrite HK in E. change (fun i j => (last (par x) 0 * K x i j + noise * eye i j) / (last (par x) 0 + noise)) with (A x) in E.
  destruct (compute d (A x)) as [a0|] eqn:C0; [|discriminate]. inversion E as [Ee]. clear E.
  assert (Ds' : is_derive (fun t => last (par t) 0 + noise) x ds).
  { evar_last. { apply @is_derive_plus; [exact Ds|]. apply @is_derive_const. } unfold plus, zero; cbn. ring. }
  set (F := fun t => Evaluation (fun j => - (1 / 2) * (INR n * ln (2 * PI * (last (par t) 0 + noise)) + log_det n (a_L (aux_at cholesky qr solve_lower d A a0 t)) + sum_sq n (a_rho (aux_at cholesky qr solve_lower d A a0 t)) j / (last (par t) 0 + noise))) (removelast (par t)) (K t) (aux_at cholesky qr solve_lower d A a0 t) (fun _ => last (par t) 0 + noise)).
  assert (DF : forall j, (j < targets d)%nat -> is_derive (fun t => ll (F t) j) x (- (1 / 2) * (INR n * ds / s + trace_of n (Rinv e) dA - form n dA (gam e j) / s - ds * sum_sq n (a_rho (aux_of e)) j / (s * s)))).
  { intros j Hj. rewrite <- Ee. apply (noisy_derive _ _ _ _ _ _ LP d PR A x dA DA SY a0 C0 j (fun t => last (par t) 0 + noise)); auto. }
  assert (EF : locally x (fun t => evaluate Noisy noise d (par t) = Value (Some (F t)))).
  { generalize (along_found _ _ _ _ _ _ LP d PR A x dA DA SY a0 C0).
    apply filter_imp. intros t (Ct & _). unfold Model_Likelihood.evaluate. rewrite HK. change (fun i j => (last (par t) 0 * K t i j + noise * eye i j) / (last (par t) 0 + noise)) with (A t). rewrite Ct. reflexivity. }
  assert (Fx : F x = e) by (apply locally_singleton in EF; congruence).
  exists (fun t => sumn (targets d) (ll (F t))). split.
  - rewrite Ee. apply (sumn_derive (targets d) (fun j t => ll (F t) j)). exact DF.
  - generalize (accept_locally cholesky qr solve_lower matrix_rank d Noisy noise par F x EF ltac:(rewrite Fx; exact NEG) (fun j Hj => ex_intro _ _ (DF j Hj))).
    apply filter_imp. intros t ->. reflexivity.
Qed.
End Along.
End Oracles.
