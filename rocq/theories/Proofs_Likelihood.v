(** Value and derivative of the likelihood along a family of correlation matrices. *)
From Coq Require Import Reals List Arith Lia Lra.
From Coquelicot Require Import Coquelicot.
From Verif Require Import Lib_Sum Lib_Chol Lib_GLS Model_Kernel Model_Likelihood Spec_Likelihood.
Import ListNotations.
Open Scope R_scope.

Lemma eye_identity i j : eye i j = identity i j.
Proof. reflexivity. Qed.
Lemma factor_diag n A L : factor n A L -> nonsingular n L.
Proof. intros (_ & D & _) i Hi. specialize (D i Hi). lra. Qed.

Section Oracles.
Variable cholesky : nat -> matrix -> option matrix.
Variable qr : nat -> nat -> matrix -> matrix * matrix.
Variable solve_lower : nat -> matrix -> (nat -> R) -> nat -> R.
Variable solve_upper : nat -> matrix -> (nat -> R) -> nat -> R.
Variable cho_solve : nat -> matrix -> matrix -> matrix.
Variable matrix_rank : nat -> matrix -> nat.
Hypothesis LP : lapack cholesky qr solve_lower solve_upper cho_solve matrix_rank.
Notation compute := (compute_aux_var cholesky qr solve_lower).

Section Data.
Variable d : data.
Notation n := (length (X d)).
Hypothesis PR : proper n (mean d).

Definition yt (L : matrix) (j : nat) (i : nat) : R := solve_lower n L (fun k => y d k j) i.
Definition ft (L F : matrix) (i c : nat) : R := solve_lower n L (fun k => F k c) i.
(** The factorisation of the transformed basis. *)
Lemma ft_qr L p F : lower n L -> nonsingular n L -> independent n p F -> is_qr n p (ft L F) (fst (qr n p (ft L F))) (snd (qr n p (ft L F))).
Proof.
  intros LO DI HI. apply (qr_factors _ _ _ _ _ _ LP). intros b Hb. apply HI. intros i Hi.
  rewrite (sumn_ext p _ (fun c => sumn n (fun k => L i k * (ft L F k c * b c)))).
  2:{ intros c Hc. rewrite <- (lower_solved _ _ _ _ _ _ LP n L (fun k => F k c) i) by auto. rewrite <- sumn_scal_r. apply sumn_ext. intros; unfold ft; ring. }
  rewrite sumn_swap. apply sumn_zero. intros k Hk. rewrite sumn_scal, Hb by auto. ring.
Qed.

(** What _compute_aux_var returns. *)
Lemma compute_spec A a : symmetric n A -> compute d A = Some a ->
  factor n A (a_L a) /\ cholesky n A = Some (a_L a) /\
  forall j, exists b,
    (forall i, (i < n)%nat -> sumn n (fun k => a_L a i k * a_rho a k j) = y d i j - trend_values (mean d) b i) /\
    forall b' z, (forall i, (i < n)%nat -> sumn n (fun k => a_L a i k * z k) = y d i j - trend_values (mean d) b' i) ->
      sumn n (fun i => a_rho a i j * a_rho a i j) <= sumn n (fun i => z i * z i).
Proof.
  intros SY H. unfold compute_aux_var in H. destruct (cholesky n A) as [L|] eqn:EL; [|discriminate].
  assert (FA := cholesky_factor _ _ _ _ _ _ LP _ _ _ SY EL). assert (LO : lower n L) by apply FA. assert (DI := factor_diag _ _ _ FA).
  assert (LS := fun b i => lower_solved _ _ _ _ _ _ LP n L b i LO DI).
  unfold proper in PR. destruct (mean d) as [m|p F] eqn:EM; inversion H; subst a; clear H; cbn [a_L a_rho]; (split; [auto|split; [auto|]]); intros j.
  - exists (fun _ => 0). assert (E : forall i, (i < n)%nat -> sumn n (fun k => L i k * (solve_lower n L (fun k => y d k j) k - solve_lower n L m k)) = y d i j - m i).
    { intros i Hi. rewrite (sumn_ext n _ (fun k => L i k * solve_lower n L (fun k => y d k j) k - L i k * solve_lower n L m k)) by (intros; ring). rewrite sumn_minus, !LS by auto. auto. }
    split; [exact E|]. intros b' z Hz. right. apply sumn_ext. intros i Hi.
    assert (Q : z i = solve_lower n L (fun k => y d k j) i - solve_lower n L m i); [|rewrite Q; auto].
    rewrite <- (fsub_unique n L _ z LO DI Hz n (le_n _) i Hi). now apply (fsub_unique n L (fun i => y d i j - m i) (fun i => solve_lower n L (fun k => y d k j) i - solve_lower n L m i)).
  - destruct PR as (Hp & HI). assert (HQ := ft_qr L p F LO DI HI).
    assert (HF : forall i c, (i < n)%nat -> (c < p)%nat -> sumn n (fun k => L i k * ft L F k c) = F i c) by (intros i c Hi Hc; apply (LS (fun k => F k c)); auto).
    assert (HY : forall i, (i < n)%nat -> sumn n (fun k => L i k * yt L j k) = y d i j) by (intros i Hi; apply (LS (fun k => y d k j)); auto).
    destruct (residual_coefficients n p L F (ft L F) _ _ (fun i => y d i j) (yt L j) HY HF HQ HI) as (b & Hb).
    exists b. split; [exact Hb|]. intros b' z Hz.
    exact (residual_minimal n p L F (ft L F) _ _ (fun i => y d i j) (yt L j) LO DI HY HF HQ b' z Hz).
Qed.
Lemma sum_sq_eq rho j : sum_sq n rho j = sumn n (fun i => rho i j * rho i j).
Proof. apply sumn_ext. intros; ring. Qed.

(** Along a family of matrices. *)
Section Along.
Variables (A : R -> matrix) (x : R) (dA : matrix).
Hypothesis (DA : forall i j, (i < n)%nat -> (j < n)%nat -> is_derive (fun t => A t i j) x (dA i j)).
Hypothesis (SY : locally x (fun t => symmetric n (A t))).
Variable a0 : aux.
Hypothesis (C0 : compute d (A x) = Some a0).
Definition aux_at (t : R) : aux := match compute d (A t) with Some a => a | None => a0 end.
Lemma aux_at_x : aux_at x = a0.
Proof. unfold aux_at. now rewrite C0. Qed.
Lemma along_found : locally x (fun t => compute d (A t) = Some (aux_at t) /\ factor n (A t) (a_L (aux_at t))).
Proof.
  assert (S0 := locally_singleton _ _ SY). destruct (compute_spec _ _ S0 C0) as (F0 & _).
  assert (PV := pivots_locally n A x (fun i j Hi Hj => ex_intro _ _ (DA i j Hi Hj)) (factor_pivots _ _ _ F0)).
  generalize (filter_and _ _ SY PV). apply filter_imp. intros t (St & Pt). assert (Ft := chol_factor n (A t) St Pt).
  pose proof (cholesky_found _ _ _ _ _ _ LP _ _ _ St Ft) as NE. unfold aux_at.
  assert (E : exists a, compute d (A t) = Some a).
  { unfold compute_aux_var. destruct (cholesky n (A t)); [|congruence]. destruct (mean d); eauto. }
  destruct E as (a & E). rewrite E. split; auto. apply (compute_spec _ _ St E).
Qed.
Let FL : locally x (fun t => factor n (A t) (a_L (aux_at t))).
Proof. generalize along_found. apply filter_imp. tauto. Qed.

Lemma along_logdet : is_derive (fun t => log_det n (a_L (aux_at t))) x (trace_of n (cho_solve n (a_L a0) eye) dA).
Proof.
  apply (logdet_derive n A (fun t => a_L (aux_at t)) x dA DA FL (cho_solve n (a_L a0) eye)).
  intros i j Hi Hj. pose proof (locally_singleton _ _ FL) as F0. cbv beta in F0. rewrite aux_at_x in F0.
  rewrite <- eye_identity. rewrite <- (cho_solved _ _ _ _ _ _ LP n (a_L a0) eye i j (proj1 F0) (factor_diag _ _ _ F0) Hi Hj).
  apply sumn_ext. intros k Hk. destruct F0 as (_ & _ & E). rewrite E by auto. auto.
Qed.
Definition gam (j : nat) (i : nat) : R := solve_upper n (fun a b => a_L a0 b a) (fun k => a_rho a0 k j) i.
Lemma gam_ok j i : (i < n)%nat -> sumn n (fun k => a_L a0 k i * gam j k) = a_rho a0 i j.
Proof.
  intros Hi. pose proof (locally_singleton _ _ FL) as F0. cbv beta in F0. rewrite aux_at_x in F0.
  apply (upper_solved _ _ _ _ _ _ LP n (fun a b => a_L a0 b a) (fun k => a_rho a0 k j) i); auto.
  - intros a b H. apply F0. lia.
  - intros k Hk. apply (factor_diag _ _ _ F0). auto.
Qed.
Lemma along_sum_sq j : is_derive (fun t => sum_sq n (a_rho (aux_at t)) j) x (- form n dA (gam j)).
Proof.
  assert (E : locally x (fun t => exists L, cholesky n (A t) = Some L /\ factor n (A t) L /\
     aux_at t = match mean d with
       | Estimated p F => Aux L (fun i j => yt L j i - sumn n (fun l => sumn p (fun c => fst (qr n p (ft L F)) i c * fst (qr n p (ft L F)) l c) * yt L j l)) (Some (p, fst (qr n p (ft L F))))
       | Known m => Aux L (fun i j => yt L j i - solve_lower n L m i) None end)).
  { generalize (filter_and _ _ SY along_found). apply filter_imp. intros t (St & H & _). pose proof H as K. unfold compute_aux_var in H. destruct (cholesky n (A t)) as [L|] eqn:EL; [|discriminate].
    exists L. split; auto. split; [apply (cholesky_factor _ _ _ _ _ _ LP _ _ _ St EL)|]. destruct (mean d); inversion H; auto. }
  assert (LOC : locally x (fun t => forall b i, (i < n)%nat -> sumn n (fun k => a_L (aux_at t) i k * solve_lower n (a_L (aux_at t)) b k) = b i)).
  { revert FL. apply filter_imp. intros t H b i Hi. apply (lower_solved _ _ _ _ _ _ LP); auto; [apply H|apply (factor_diag _ _ _ H)]. }
  apply (is_derive_ext (fun t => sumn n (fun i => a_rho (aux_at t) i j * a_rho (aux_at t) i j))); [intros t; symmetry; apply sum_sq_eq|].
  pose proof (gam_ok j) as GO. pose proof aux_at_x as AX. pose proof PR as PR'. unfold proper in PR'. destruct (mean d) as [m|p F] eqn:EM.
  - apply (quad_derive n A (fun t => a_L (aux_at t)) x dA DA FL (fun i => y d i j - m i) (fun t i => a_rho (aux_at t) i j) (gam j)).
    + generalize (filter_and _ _ LOC E). apply filter_imp. intros t (LS & L & _ & _ & Ea). rewrite Ea in *. cbn [a_L a_rho] in *.
      intros i Hi. rewrite (sumn_ext n _ (fun k => L i k * solve_lower n L (fun k => y d k j) k - L i k * solve_lower n L m k)) by (intros; unfold yt; ring). rewrite sumn_minus, !LS by auto. auto.
    + intros i Hi. rewrite AX. now apply GO.
  - destruct PR' as (Hp & HI).
    set (Lt := fun t => a_L (aux_at t)). set (Ft := fun t => ft (Lt t) F). set (Qt := fun t => fst (qr n p (Ft t))). set (Gt := fun t => snd (qr n p (Ft t))). set (Yt := fun t => yt (Lt t) j).
    assert (RE : locally x (fun t => forall i, a_rho (aux_at t) i j = residual n p (Qt t) (Yt t) i)).
    { revert E. apply filter_imp. intros t (L & _ & _ & Ea) i. unfold Qt, Ft, Yt, Lt. rewrite Ea. cbn [a_L a_rho]. reflexivity. }
    apply (is_derive_ext_loc (fun t => sumn n (fun i => residual n p (Qt t) (Yt t) i * residual n p (Qt t) (Yt t) i))).
    { revert RE. apply filter_imp. intros t H. apply sumn_ext. intros i Hi. now rewrite <- H. }
    apply (gls_derive n p A Lt Ft Qt Gt F (fun i => y d i j) Yt x dA DA FL).
    + revert LOC. apply filter_imp. intros t LS i Hi. apply (LS (fun k => y d k j)); auto.
    + revert LOC. apply filter_imp. intros t LS i c Hi Hc. apply (LS (fun k => F k c)); auto.
    + revert FL. apply filter_imp. intros t H. apply ft_qr; auto; [apply H|apply (factor_diag _ _ _ H)].
    + exact HI.
    + intros i Hi. pose proof (locally_singleton _ _ RE) as Rx. cbv beta in Rx. rewrite <- (Rx i), AX. unfold Lt. rewrite AX. now apply GO.
Qed.
End Along.
End Data.
End Oracles.
