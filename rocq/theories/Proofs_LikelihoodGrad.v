(** The correlation matrix as a function of one parameter, and the derivative of the likelihood in every mode. *)
From Coq Require Import Reals List Arith Lia Lra Bool.
From Coquelicot Require Import Coquelicot.
From Verif Require Import Lib_Sum Lib_Chol Lib_GLS Model_Kernel Spec_Kernel Proofs_Kernel Properties_Kernel Properties_KernelGrad Model_Likelihood Spec_Likelihood Proofs_Likelihood.
Import ListNotations.
Open Scope R_scope.

(** ** Sums over the triangle *)
Lemma upper_half n f : (forall i j, (i < n)%nat -> (j < n)%nat -> f i j = f j i) -> (forall i, (i < n)%nat -> f i i = 0) -> upper_sum n f = / 2 * full_sum n f.
Proof.
  intros SY Z. unfold upper_sum, full_sum.
  assert (E : sumn n (fun i => sumn n (fun j => f i j)) = sumn n (fun i => sumn n (fun j => if (i <? j)%nat then f i j else 0)) + sumn n (fun i => sumn n (fun j => if (j <? i)%nat then f i j else 0))).
  { rewrite <- sumn_plus. apply sumn_ext. intros i Hi. rewrite <- sumn_plus. apply sumn_ext. intros j Hj.
    destruct (Nat.ltb_spec i j), (Nat.ltb_spec j i); try lia; try lra. assert (i = j) by lia. subst j. rewrite Z by auto. lra. }
  rewrite E. rewrite (sumn_swap n n (fun i j => if (j <? i)%nat then f i j else 0)).
  rewrite (sumn_ext n (fun j => sumn n (fun i => if (j <? i)%nat then f i j else 0)) (fun i => sumn n (fun j => if (i <? j)%nat then f i j else 0))); [lra|].
  intros i Hi. apply sumn_ext. intros j Hj. destruct (i <? j)%nat; auto.
Qed.
Lemma full_ext n f g : (forall i j, (i < n)%nat -> (j < n)%nat -> f i j = g i j) -> full_sum n f = full_sum n g.
Proof. intros H. apply sumn_ext. intros i Hi. apply sumn_ext. intros j Hj. auto. Qed.
Lemma full_scal n c f : full_sum n (fun i j => c * f i j) = c * full_sum n f.
Proof. unfold full_sum. rewrite <- sumn_scal. apply sumn_ext. intros i Hi. apply sumn_scal. Qed.

(** ** The correlation matrix as a function of one of its parameters *)
Lemma absdiff_sym x z : absdiff x z = absdiff z x.
Proof. unfold absdiff. revert z. induction x as [|a x IH]; intros [|b z]; cbn; auto. rewrite Rabs_minus_sym, IH. auto. Qed.
Lemma absdiff_zero x : List.Forall (fun u => u = 0) (absdiff x x).
Proof. unfold absdiff. induction x; cbn; constructor; auto. rewrite Rminus_diag_eq by auto. apply Rabs_R0. Qed.
Definition slice (k : kernel) (th : list R) (R0 : matrix) (X : list (list R)) (c : nat) : matrix := fun i j =>
  match corr_grad_theta k th (R0 i j) (absdiff (nth i X []) (nth j X [])) with Some g => nth c g 0 | None => 0 end.
Lemma slice_diag k th R0 X c i : slice k th R0 X c i i = 0.
Proof.
  unfold slice. set (dd := absdiff _ _). assert (Z : List.Forall (fun u => u = 0) dd) by apply absdiff_zero.
  assert (N : forall f, f 0 = 0 -> nth c (map f (map Rsqr dd)) 0 = 0).
  { intros f F0. destruct (nth_in_or_default c (map f (map Rsqr dd)) 0) as [H|H]; auto. apply in_map_iff in H as (u & E & Hu). apply in_map_iff in Hu as (w & <- & Hw).
    rewrite Forall_forall in Z. rewrite (Z w Hw), Rsqr_0, F0 in E. auto. }
  destruct k; cbn [corr_grad_theta]; auto; apply N; try rewrite sqrt_0; field.
Qed.
Section Family.
Variables (k : kernel) (X : list (list R)) (nf : nat) (th : list R) (c : nat).
Hypothesis (HK : smooth k) (HX : rectangular X nf) (HT : length th = nf) (HP : positive th) (HC : (c < nf)%nat).
Definition fam (t : R) : matrix := match correlation_matrix k (set_coord th c t) X with Some M => M | None => eye end.
Lemma fam_ok t : correlation_matrix k (set_coord th c t) X = Some (fam t).
Proof.
  unfold fam. destruct (C62_defined k (set_coord th c t) X nf HX) as (M & E); [|now rewrite E].
  assert (L : length (set_coord th c t) = nf) by (rewrite set_coord_length; lia).
  destruct HK as [->|[->| ->]]; right; auto.
Qed.
Lemma fam_sym t : symmetric (length X) (fam t).
Proof. intros i j Hi Hj. apply (C62_correlation_matrix k _ X _ (fam_ok t) i j Hi Hj). Qed.
Variable R0 : matrix.
Hypothesis (HR : correlation_matrix k th X = Some R0).
Lemma fam_at : fam (nth c th 0) = R0.
Proof. pose proof (fam_ok (nth c th 0)) as H. rewrite set_coord_same in H by lia. congruence. Qed.
Lemma slice_sym i j : (i < length X)%nat -> (j < length X)%nat -> slice k th R0 X c i j = slice k th R0 X c j i.
Proof. intros Hi Hj. unfold slice. rewrite absdiff_sym. destruct (C62_correlation_matrix k _ X _ HR i j Hi Hj) as (-> & _). auto. Qed.
Lemma fam_derive i j : (i < length X)%nat -> (j < length X)%nat -> is_derive (fun t => fam t i j) (nth c th 0) (slice k th R0 X c i j).
Proof.
  intros Hi Hj. destruct (Nat.eq_dec i j) as [<-|N].
  - rewrite slice_diag. apply (is_derive_ext (fun _ => 1)); [|auto_derive; [exact I|reflexivity]].
    intros t. symmetry. apply (C62_correlation_matrix k _ X _ (fam_ok t) i i Hi Hi).
  - destruct (C62_correlation_matrix k _ X _ HR i j Hi Hj) as (_ & _ & E). specialize (E N). change (map2 _ _ _) with (absdiff (nth i X []) (nth j X [])) in E.
    assert (Ln : length (absdiff (nth i X []) (nth j X [])) = nf).
    { unfold rectangular in HX. rewrite Forall_forall in HX. rewrite absdiff_length; [apply HX, nth_In; lia|]. rewrite !HX; auto; apply nth_In; lia. }
    destruct (C137_anisotropic_partial k th _ _ HK (eq_trans HT (eq_sym Ln)) HP E) as (g & Eg & _ & G).
    destruct (G c ltac:(lia)) as (h & Dh & Lh). unfold slice. rewrite Eg. apply (is_derive_ext_loc h); [|exact Dh].
    revert Lh. apply filter_imp. intros t Ht. destruct (C62_correlation_matrix k _ X _ (fam_ok t) i j Hi Hj) as (_ & _ & E'). specialize (E' N).
    unfold absdiff in Ht. congruence.
Qed.
End Family.

(** ** The parameters *)
Lemma set_coord_app_l th z c t : (c < length th)%nat -> set_coord (th ++ [z]) c t = set_coord th c t ++ [z].
Proof.
  intros H. unfold set_coord. rewrite firstn_app, skipn_app. replace (c - length th)%nat with 0%nat by lia. replace (Datatypes.S c - length th)%nat with 0%nat by lia.
  cbn [firstn skipn]. rewrite app_nil_r. rewrite <- app_assoc. reflexivity.
Qed.
Lemma set_coord_app_r th z t : set_coord (th ++ [z]) (length th) t = th ++ [t].
Proof.
  unfold set_coord. rewrite firstn_app, firstn_all, Nat.sub_diag. cbn [firstn]. rewrite app_nil_r. rewrite skipn_all2 by (rewrite app_length; cbn; lia). reflexivity.
Qed.

Definition coefficients_of (m : trend) : nat := match m with Known _ => 0%nat | Estimated p _ => p end.
Section Oracles.
Variable cholesky : nat -> matrix -> option matrix.
Variable qr : nat -> nat -> matrix -> matrix * matrix.
Variable solve_lower : nat -> matrix -> (nat -> R) -> nat -> R.
Variable solve_upper : nat -> matrix -> (nat -> R) -> nat -> R.
Variable cho_solve : nat -> matrix -> matrix -> matrix.
Variable matrix_rank : nat -> matrix -> nat.
Hypothesis LP : lapack cholesky qr solve_lower solve_upper cho_solve matrix_rank.
Notation compute := (compute_aux_var cholesky qr solve_lower).
Notation evaluate := (evaluate cholesky qr solve_lower matrix_rank).
Notation log_likelihood := (log_likelihood cholesky qr solve_lower matrix_rank).
Variable d : data.
Notation n := (length (X d)).
Hypothesis PR : proper n (mean d).

Lemma rank_k A a : symmetric n A -> compute d A = Some a ->
  match a_Q a with Some (p, Q) => matrix_rank n (fun i l => sumn p (fun c => Q i c * Q l c)) | None => 0%nat end = coefficients_of (mean d).
Proof.
  intros SY H. destruct (compute_spec _ _ _ _ _ _ LP d PR A a SY H) as (FA & CH & _). unfold compute_aux_var in H. rewrite CH in H. pose proof PR as PR'. unfold proper in PR'.
  destruct (mean d) as [m|p F]; inversion H as [E]; cbn [a_Q coefficients_of]; auto.
  apply (rank_of_projection _ _ _ _ _ _ LP). destruct PR' as (_ & HI). exact (proj1 (proj2 (ft_qr _ _ _ _ _ _ LP d (a_L a) p F (proj1 FA) (factor_diag _ _ _ FA) HI))).
Qed.
Lemma Rinv_sym A L i j : factor n A L -> (i < n)%nat -> (j < n)%nat -> cho_solve n L eye i j = cho_solve n L eye j i.
Proof.
  intros F Hi Hj. assert (HB : forall i j, (i < n)%nat -> (j < n)%nat -> sumn n (fun k => A i k * cho_solve n L eye k j) = identity i j).
  { intros a b Ha Hb. rewrite <- eye_identity. rewrite <- (cho_solved _ _ _ _ _ _ LP n L eye a b (proj1 F) (factor_diag _ _ _ F) Ha Hb). apply sumn_ext. intros k Hk. destruct F as (_ & _ & E). rewrite E by auto. auto. }
  assert (FL : locally 0 (fun t : R => factor n ((fun _ => A) t) ((fun _ => L) t))) by (apply filter_forall; auto).
  rewrite (B_eq n _ _ 0 FL (cho_solve n L eye) HB i j Hi Hj), (B_eq n _ _ 0 FL (cho_solve n L eye) HB j i Hj Hi). apply sumn_ext. intros; apply Rmult_comm.
Qed.
Lemma Rinv_trace A L : symmetric n A -> factor n A L -> trace_of n (cho_solve n L eye) A = INR n.
Proof.
  intros SY F. unfold trace_of. rewrite sumn_swap. rewrite (sumn_ext n _ (fun _ => 1)); [rewrite sumn_const; ring|]. intros j Hj.
  assert (E : sumn n (fun k => A j k * cho_solve n L eye k j) = 1).
  { replace 1 with (eye j j) by (unfold eye; now rewrite Nat.eqb_refl). rewrite <- (cho_solved _ _ _ _ _ _ LP n L eye j j (proj1 F) (factor_diag _ _ _ F) Hj Hj). apply sumn_ext. intros k Hk. destruct F as (_ & _ & E). rewrite E by auto. auto. }
  rewrite <- E. apply sumn_ext. intros k Hk. rewrite (SY k j) by auto. ring.
Qed.
Lemma gam_form A a j : symmetric n A -> compute d A = Some a -> form n A (gam solve_upper d a j) = sum_sq n (a_rho a) j.
Proof.
  intros SY C. destruct (compute_spec _ _ _ _ _ _ LP d PR A a SY C) as (F & _).
  assert (G : forall i, (i < n)%nat -> sumn n (fun k => a_L a k i * gam solve_upper d a j k) = a_rho a i j).
  { intros i Hi. apply (upper_solved _ _ _ _ _ _ LP n (fun r s => a_L a s r) (fun k => a_rho a k j) i); auto.
    - intros r s H. apply F. lia.
    - intros k Hk. apply (factor_diag _ _ _ F). auto. }
  unfold form. set (g := gam solve_upper d a j) in *. rewrite sum_sq_eq.
  rewrite (sumn_ext n (fun i => a_rho a i j * a_rho a i j) (fun c => sumn n (fun i => sumn n (fun k => g i * (a_L a i c * a_L a k c) * g k)))).
  2:{ intros c Hc. rewrite <- (G c Hc). rewrite <- sumn_scal_r. apply sumn_ext. intros i Hi. rewrite <- sumn_scal. apply sumn_ext. intros; ring. }
  rewrite (sumn_swap n n (fun c i => sumn n (fun k => g i * (a_L a i c * a_L a k c) * g k))). apply sumn_ext. intros i Hi.
  rewrite (sumn_swap n n (fun c k => g i * (a_L a i c * a_L a k c) * g k)). apply sumn_ext. intros k Hk.
  destruct F as (_ & _ & E). rewrite <- E by auto. rewrite <- sumn_scal, <- sumn_scal_r. apply sumn_ext. intros; ring.
Qed.

Lemma sum_sq_nonneg rho j : 0 <= sum_sq n rho j.
Proof. apply sumn_nonneg. intros i. apply pow2_ge_0. Qed.
Lemma existsb_seq (f : nat -> bool) m : existsb f (seq 0 m) = false <-> forall j, (j < m)%nat -> f j = false.
Proof.
  split.
  - intros H j Hj. destruct (f j) eqn:E; auto. assert (existsb f (seq 0 m) = true) by (apply existsb_exists; exists j; split; auto; apply in_seq; lia). congruence.
  - intros H. destruct (existsb f (seq 0 m)) eqn:E; auto. apply existsb_exists in E as (j & Hj & Ej). apply in_seq in Hj. rewrite H in Ej by lia. congruence.
Qed.

(** A value that is finite with a negative term for each target stays so. *)
Lemma accept_locally m noise (par : R -> list R) (F : R -> evaluation) x :
  locally x (fun t => evaluate m noise d (par t) = Value (Some (F t))) ->
  (forall j, (j < targets d)%nat -> ll (F x) j < 0) -> (forall j, (j < targets d)%nat -> ex_derive (fun t => ll (F t) j) x) ->
  locally x (fun t => log_likelihood m noise d (par t) = Value (sumn (targets d) (ll (F t)))).
Proof.
  intros E N D. assert (LN : locally x (fun t => forall j, (j < targets d)%nat -> ll (F t) j < 0)).
  { apply (locally_all (targets d) (fun j t => ll (F t) j < 0)). intros j Hj.
    assert (P : locally x (fun t => 0 < - ll (F t) j)) by (apply (locally_pos (fun t => - ll (F t) j)); [apply @ex_derive_opp; auto|specialize (N j Hj); lra]).
    revert P. apply filter_imp. intros t; lra. }
  generalize (filter_and _ _ E LN). apply filter_imp. intros t (Et & Nt). unfold Model_Likelihood.log_likelihood. rewrite Et. cbn [accept].
  replace (existsb _ _) with false; auto. symmetry. apply existsb_seq. intros j Hj. specialize (Nt j Hj). destruct (Rlt_dec 0 (ll (F t) j)); auto. lra.
Qed.

Section Along.
Variables (A : R -> matrix) (x : R) (dA : matrix).
Hypothesis (DA : forall i j, (i < n)%nat -> (j < n)%nat -> is_derive (fun t => A t i j) x (dA i j)).
Hypothesis (SY : locally x (fun t => symmetric n (A t))).
Variable a0 : aux.
Hypothesis (C0 : compute d (A x) = Some a0).
Let at_ (t : R) : aux := aux_at cholesky qr solve_lower d A a0 t.
Let g0 := gam solve_upper d a0.
Let Ri := cho_solve n (a_L a0) eye.
(** The concentrated likelihood with the estimate S / c of the variance. *)
Lemma conc_derive j c : 0 < c -> sum_sq n (a_rho a0) j <> 0 ->
  is_derive (fun t => - (1 / 2) * (INR n * ln (2 * PI * (sum_sq n (a_rho (at_ t)) j / c)) + log_det n (a_L (at_ t)) + INR n)) x
    (/ 2 * (INR n * form n dA (g0 j) / sum_sq n (a_rho a0) j - trace_of n Ri dA)).
Proof.
  intros Hc HS. pose proof (along_logdet _ _ _ _ _ _ LP d PR A x dA DA SY a0 C0) as DL. pose proof (along_sum_sq _ _ _ _ _ _ LP d PR A x dA DA SY a0 C0 j) as DS.
  pose proof (aux_at_x cholesky qr solve_lower d A x a0 C0) as AX. change (fun t => log_det _ _) with (fun t => log_det n (a_L (at_ t))) in DL. change (fun t => sum_sq _ _ _) with (fun t => sum_sq n (a_rho (at_ t)) j) in DS.
  fold g0 in DS. fold Ri in DL. pose proof (sum_sq_nonneg (a_rho a0) j) as NN.
  set (f := fun t => sum_sq n (a_rho (at_ t)) j) in *. set (l := fun t => log_det n (a_L (at_ t))) in *.
  assert (F0 : f x = sum_sq n (a_rho a0) j) by (unfold f, at_; rewrite AX; auto). rewrite <- F0 in *. assert (FP : 0 < f x) by lra.
  change (is_derive (fun t => - (1 / 2) * (INR n * ln (2 * PI * (f t / c)) + l t + INR n)) x (/ 2 * (INR n * form n dA (g0 j) / f x - trace_of n Ri dA))).
  clearbody f l. pose proof PI_RGT_0.
  assert (PP : 0 < 2 * PI * (f x / c)) by (apply Rmult_lt_0_compat; [lra|apply Rdiv_lt_0_compat; auto]).
  evar_last. { auto_derive; [split; [eexists; exact DS|split; [unfold Rdiv in PP; exact PP|split; [eexists; exact DL|exact I]]]|reflexivity]. }
  change (Derive (fun t => f t) x) with (Derive f x). change (Derive (fun t => l t) x) with (Derive l x).
  rewrite (is_derive_unique _ _ _ DS), (is_derive_unique _ _ _ DL). field. split; [lra|split; lra].
Qed.
(** The likelihood with the total variance s(t). *)
Lemma noisy_derive j (s : R -> R) ds : 0 < s x -> is_derive s x ds ->
  is_derive (fun t => - (1 / 2) * (INR n * ln (2 * PI * s t) + log_det n (a_L (at_ t)) + sum_sq n (a_rho (at_ t)) j / s t)) x
    (- (1 / 2) * (INR n * ds / s x + trace_of n Ri dA - form n dA (g0 j) / s x - ds * sum_sq n (a_rho a0) j / (s x * s x))).
Proof.
  intros Hs Ds. pose proof (along_logdet _ _ _ _ _ _ LP d PR A x dA DA SY a0 C0) as DL. pose proof (along_sum_sq _ _ _ _ _ _ LP d PR A x dA DA SY a0 C0 j) as DS.
  pose proof (aux_at_x cholesky qr solve_lower d A x a0 C0) as AX. change (fun t => log_det _ _) with (fun t => log_det n (a_L (at_ t))) in DL. change (fun t => sum_sq _ _ _) with (fun t => sum_sq n (a_rho (at_ t)) j) in DS.
  fold g0 in DS. fold Ri in DL. set (f := fun t => sum_sq n (a_rho (at_ t)) j) in *. set (l := fun t => log_det n (a_L (at_ t))) in *.
  assert (F0 : f x = sum_sq n (a_rho a0) j) by (unfold f, at_; rewrite AX; auto). rewrite <- F0 in *.
  change (is_derive (fun t => - (1 / 2) * (INR n * ln (2 * PI * s t) + l t + f t / s t)) x (- (1 / 2) * (INR n * ds / s x + trace_of n Ri dA - form n dA (g0 j) / s x - ds * f x / (s x * s x)))).
  clearbody f l. pose proof PI_RGT_0. assert (PP : 0 < 2 * PI * s x) by (apply Rmult_lt_0_compat; lra).
  evar_last. { auto_derive; [repeat split; try (eexists; eassumption); try exact PP; lra|reflexivity]. }
  change (Derive (fun t => f t) x) with (Derive f x). change (Derive (fun t => l t) x) with (Derive l x). change (Derive (fun t => s t) x) with (Derive s x).
  rewrite (is_derive_unique _ _ _ DS), (is_derive_unique _ _ _ DL), (is_derive_unique _ _ _ Ds). field. split; lra.
Qed.
Lemma positive_locally : (forall j, (j < targets d)%nat -> sum_sq n (a_rho a0) j <> 0) -> locally x (fun t => forall j, (j < targets d)%nat -> 0 < sum_sq n (a_rho (at_ t)) j).
Proof.
  intros H. apply (locally_all (targets d) (fun j t => 0 < sum_sq n (a_rho (at_ t)) j)). intros j Hj.
  apply (locally_pos (fun t => sum_sq n (a_rho (at_ t)) j)); [eexists; apply (along_sum_sq _ _ _ _ _ _ LP d PR A x dA DA SY a0 C0 j)|].
  unfold at_. rewrite (aux_at_x cholesky qr solve_lower d A x a0 C0). pose proof (sum_sq_nonneg (a_rho a0) j). specialize (H j Hj). lra.
Qed.
End Along.
End Oracles.
