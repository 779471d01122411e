(** The restricted likelihood. *)
From Coq Require Import Reals List Arith Lia Lra Bool.
From Coq Require FunctionalExtensionality.
From Coquelicot Require Import Coquelicot.
From Verif Require Import Lib_Sum Lib_Chol Lib_GLS Model_Kernel Spec_Kernel Proofs_Kernel Properties_Kernel Model_Likelihood Spec_Likelihood Proofs_Likelihood Proofs_LikelihoodGrad Proofs_LikelihoodModes Proofs_LikelihoodParts Proofs_LikelihoodTwo Proofs_LikelihoodMax Proofs_LikelihoodCases Model_Restricted.
Import ListNotations.
Open Scope R_scope.

Lemma scaled_sym n s nv K : symmetric n K -> symmetric n (scaled s nv K).
Proof. intros H i j Hi Hj. unfold scaled. rewrite (H i j) by auto. rewrite (eye_sym n i j) by auto. reflexivity. Qed.
Lemma scaled_zero s K : 0 < s -> scaled s 0 K = K.
Proof.
  intros H. apply FunctionalExtensionality.functional_extensionality. intros i. apply FunctionalExtensionality.functional_extensionality. intros j. unfold scaled. field. lra.
Qed.
Lemma density_ext n C C' r r' u : (forall i j, (i < n)%nat -> (j < n)%nat -> C i j = C' i j) -> (forall i, (i < n)%nat -> r i = r' i) -> gaussian_log_density n C r u -> gaussian_log_density n C' r' u.
Proof.
  intros H Hr (L & w & (LO & DI & EQ) & Hw & E). exists L, w. split; [|split; auto].
  - split; [exact LO|]. split; [exact DI|]. intros i j Hi Hj. rewrite <- H by auto. now apply EQ.
  - intros i Hi. rewrite <- Hr by auto. now apply Hw.
Qed.
Lemma correlation_sym k th X K : correlation_matrix k th X = Some K -> symmetric (length X) K.
Proof. intros E i j Hi Hj. destruct (C62_correlation_matrix _ _ _ _ E i j Hi Hj) as (H & _). exact H. Qed.

Section Oracles.
Variable cholesky : nat -> matrix -> option matrix.
Variable qr : nat -> nat -> matrix -> matrix * matrix.
Variable solve_lower : nat -> matrix -> (nat -> R) -> nat -> R.
Variable solve_upper : nat -> matrix -> (nat -> R) -> nat -> R.
Variable cho_solve : nat -> matrix -> matrix -> matrix.
Variable matrix_rank : nat -> matrix -> nat.
Hypothesis LP : lapack cholesky qr solve_lower solve_upper cho_solve matrix_rank.
Variable det : nat -> matrix -> R.
Notation compute := (compute_aux_var cholesky qr solve_lower).
Notation revaluate := (restricted_evaluate cholesky qr solve_lower det).
Notation restricted := (log_likelihood_restricted cholesky qr solve_lower det).
Notation rvalue := (restricted_value qr solve_lower det).

(** What an accepted value is. *)
Lemma restricted_inv m noise d par v : restricted m noise d par = Value v ->
  let '(th, s, nv) := parameters m noise par in
  exists K a, correlation_matrix (kern d) th (X d) = Some K /\ 0 < s + nv /\ compute d (scaled s nv K) = Some a /\ v = rvalue d (s + nv) a /\ v <= 0 /\
    revaluate m noise d par = Value (Evaluation (fun _ => rvalue d (s + nv) a) th K a (fun _ => s + nv)).
Proof.
  unfold log_likelihood_restricted, restricted_evaluate. destruct (parameters m noise par) as [[th s] nv]. destruct (correlation_matrix (kern d) th (X d)) as [K|] eqn:EK; [|discriminate].
  destruct (Rle_dec (s + nv) 0) as [|N]; [discriminate|]. destruct (compute d (scaled s nv K)) as [a|] eqn:C; [|discriminate]. cbn [restricted_accept ll].
  destruct (Rlt_dec 0 (rvalue d (s + nv) a)) as [|P]; [discriminate|]. intros H. assert (V : rvalue d (s + nv) a = v) by (injection H; auto). exists K, a. split; [reflexivity|]. split; [lra|]. split; [exact C|]. split; [auto|]. split; [lra|reflexivity].
Qed.
Lemma restricted_intro m noise d par th s nv K a : parameters m noise par = (th, s, nv) -> correlation_matrix (kern d) th (X d) = Some K -> 0 < s + nv -> compute d (scaled s nv K) = Some a ->
  rvalue d (s + nv) a <= 0 -> restricted m noise d par = Value (rvalue d (s + nv) a) /\
  revaluate m noise d par = Value (Evaluation (fun _ => rvalue d (s + nv) a) th K a (fun _ => s + nv)).
Proof.
  intros EP EK Hs C V. unfold log_likelihood_restricted, restricted_evaluate. rewrite EP, EK, C. destruct (Rle_dec (s + nv) 0); [lra|]. cbn [restricted_accept ll]. destruct (Rlt_dec 0 _); [lra|]. auto.
Qed.

(** ** The known trend *)
Lemma known_value d t a s : mean d = Known t -> targets d = 1%nat -> rvalue d s a = density_of (length (X d)) s (a_L a) (fun i => a_rho a i 0%nat) + log_det (length (X d)) (a_L a).
Proof. intros HM HT. unfold restricted_value. rewrite HM, HT, !sumn_1. unfold density_of. lra. Qed.
Lemma known_density m noise d par v t : mean d = Known t -> targets d = 1%nat -> restricted m noise d par = Value v ->
  let '(th, s, nv) := parameters m noise par in
  exists K L u, correlation_matrix (kern d) th (X d) = Some K /\ factor (length (X d)) (scaled s nv K) L /\
    gaussian_log_density (length (X d)) (fun i l => s * K i l + nv * eye i l) (fun i => y d i 0%nat - t i) u /\ v = u + log_det (length (X d)) L.
Proof.
  intros HM HT H. apply restricted_inv in H. destruct (parameters m noise par) as [[th s] nv]. destruct H as (K & a & EK & Hs & C & V & _).
  assert (SY := scaled_sym _ s nv _ (correlation_sym _ _ _ _ EK)). assert (PR : proper (length (X d)) (mean d)) by (rewrite HM; exact I).
  destruct (compute_spec _ _ _ _ _ _ LP d PR _ a SY C) as (F & _ & M). destruct (M 0%nat) as (b & Hb & _). rewrite HM in Hb. cbn [trend_values] in Hb.
  exists K, (a_L a), (density_of (length (X d)) (s + nv) (a_L a) (fun i => a_rho a i 0%nat)). split; [exact EK|]. split; [exact F|]. split.
  - apply (density_ext _ (fun i j => (s + nv) * scaled s nv K i j) _ (fun i => y d i 0%nat - t i)); [|reflexivity|exact (density_intro _ _ _ _ _ _ Hs F Hb)]. intros i j _ _. unfold scaled. field. lra.
  - rewrite V. now apply (known_value d t).
Qed.

(** ** Adding a combination of the basis functions to the data *)
Section Shift.
Variables (d d' : data) (p : nat) (F b : matrix).
Notation n := (length (X d)).
Hypothesis (HM : mean d = Estimated p F) (PR : (p <= n)%nat /\ independent n p F).
Hypothesis (HX : X d' = X d) (HT : targets d' = targets d) (HM' : mean d' = Estimated p F) (HK : kern d' = kern d).
Hypothesis HY : forall i j, (i < n)%nat -> (j < targets d)%nat -> y d' i j = y d i j + sumn p (fun c => F i c * b c j).

Lemma shift_rho L i j : lower n L -> nonsingular n L -> (i < n)%nat -> (j < targets d)%nat ->
  residual n p (fst (qr n p (ft solve_lower d L F))) (fun i => solve_lower n L (fun k => y d' k j) i) i =
  residual n p (fst (qr n p (ft solve_lower d L F))) (fun i => solve_lower n L (fun k => y d k j) i) i.
Proof.
  intros LO DI Hi Hj. assert (HQ := ft_qr _ _ _ _ _ _ LP d L p F LO DI (proj2 PR)). destruct HQ as (QG & O & U).
  set (Q := fst (qr n p (ft solve_lower d L F))) in *. set (G := snd (qr n p (ft solve_lower d L F))) in *.
  assert (LS := fun b i => lower_solved _ _ _ _ _ _ LP n L b i LO DI).
  set (w := fun a => sumn p (fun c => G a c * b c j)).
  assert (E : forall i, (i < n)%nat -> solve_lower n L (fun k => y d' k j) i = solve_lower n L (fun k => y d k j) i + sumn p (fun a => Q i a * w a)).
  { intros k Hk.
    assert (E1 : solve_lower n L (fun k => y d' k j) k = fsub L (fun k => y d' k j) n k) by (symmetry; apply (fsub_unique n L (fun k => y d' k j) (solve_lower n L (fun k => y d' k j)) LO DI (fun r Hr => LS (fun k => y d' k j) r Hr) n (le_n _) k Hk)).
    rewrite E1. apply (fsub_unique n L (fun k => y d' k j) (fun i => solve_lower n L (fun k => y d k j) i + sumn p (fun a => Q i a * w a)) LO DI); [|apply le_n|exact Hk].
    intros r Hr. rewrite (sumn_ext n _ (fun k => L r k * solve_lower n L (fun k => y d k j) k + L r k * sumn p (fun a => Q k a * w a))) by (intros; ring). rewrite sumn_plus, LS by auto. rewrite HY by auto. f_equal.
    rewrite (sumn_ext n _ (fun k => sumn p (fun c => L r k * ft solve_lower d L F k c * b c j))).
    - rewrite sumn_swap. apply sumn_ext. intros c Hc. rewrite sumn_scal_r. f_equal. apply (LS (fun k => F k c)). auto.
    - intros q Hq. unfold w. rewrite (sumn_ext p (fun a => Q q a * _) (fun a => sumn p (fun c => Q q a * G a c * b c j))) by (intros a Ha; rewrite <- sumn_scal; apply sumn_ext; intros; ring).
      rewrite sumn_swap. rewrite <- sumn_scal. apply sumn_ext. intros c Hc. rewrite sumn_scal_r. rewrite QG by auto. ring. }
  rewrite !residual_eq. rewrite E by auto. set (Y := fun i => solve_lower n L (fun k => y d k j) i) in *.
  assert (P : forall a, (a < p)%nat -> proj n Q (fun i => solve_lower n L (fun k => y d' k j) i) a = proj n Q Y a + w a).
  { intros a Ha. unfold proj. rewrite (sumn_ext n _ (fun i => Q i a * Y i + sumn p (fun c => Q i a * Q i c * w c))).
    2:{ intros k Hk. rewrite E by auto. rewrite Rmult_plus_distr_l. f_equal. rewrite <- sumn_scal. apply sumn_ext. intros; ring. }
    rewrite sumn_plus. f_equal. rewrite sumn_swap. rewrite (sumn_ext p _ (fun c => identity a c * w c)) by (intros c Hc; rewrite sumn_scal_r, O by auto; reflexivity).
    apply sumn_identity; auto. }
  rewrite (sumn_ext p (fun a => Q i a * proj n Q (fun i0 => solve_lower n L (fun k => y d' k j) i0) a) (fun a => Q i a * proj n Q Y a + Q i a * w a)) by (intros a Ha; rewrite P by auto; ring).
  rewrite sumn_plus. unfold Y. ring.
Qed.
Lemma shift_compute A : symmetric n A -> match compute d A, compute d' A with
  | Some a, Some a' => a_L a' = a_L a /\ a_Q a' = a_Q a /\ forall i j, (i < n)%nat -> (j < targets d)%nat -> a_rho a' i j = a_rho a i j
  | None, None => True | _, _ => False end.
Proof.
  intros SY. unfold compute_aux_var. rewrite HX, HM, HM'. destruct (cholesky n A) as [L|] eqn:C; [|exact I]. assert (FA := cholesky_factor _ _ _ _ _ _ LP _ _ _ SY C).
  cbn [a_L a_Q a_rho]. split; [reflexivity|]. split; [reflexivity|]. intros i j Hi Hj. exact (shift_rho L i j (proj1 FA) (factor_diag _ _ _ FA) Hi Hj).
Qed.
Lemma shift_restricted m noise par : restricted m noise d' par = restricted m noise d par.
Proof.
  unfold log_likelihood_restricted, restricted_evaluate. destruct (parameters m noise par) as [[th s] nv]. rewrite HX, HK. destruct (correlation_matrix (kern d) th (X d)) as [K|] eqn:EK; [|reflexivity].
  destruct (Rle_dec (s + nv) 0); [reflexivity|]. assert (SC := shift_compute (scaled s nv K) (scaled_sym _ s nv _ (correlation_sym _ _ _ _ EK))).
  destruct (compute d (scaled s nv K)) as [a|], (compute d' (scaled s nv K)) as [a'|]; try tauto. destruct SC as (EL & _ & ER).
  assert (V : rvalue d' (s + nv) a' = rvalue d (s + nv) a).
  { unfold restricted_value. rewrite HX, HT, HM, HM', EL. f_equal. apply sumn_ext. intros j Hj. apply sumn_ext. intros l Hl. f_equal. f_equal. apply sumn_ext. intros i Hi. rewrite !ER by auto. reflexivity. }
  cbn [restricted_accept ll]. rewrite V. destruct (Rlt_dec 0 (rvalue d (s + nv) a)); reflexivity.
Qed.
Lemma shift_concentrated m noise par : log_likelihood cholesky qr solve_lower matrix_rank m noise d' par = log_likelihood cholesky qr solve_lower matrix_rank m noise d par.
Proof.
  assert (EX : forall (f g : nat -> bool) k, (forall j, (j < k)%nat -> f j = g j) -> existsb f (seq 0 k) = existsb g (seq 0 k)).
  { intros f g k H. assert (G : forall l, (forall j, In j l -> (j < k)%nat) -> existsb f l = existsb g l) by (induction l as [|a l IH]; intros Hl; cbn; auto; rewrite H by (apply Hl; now left); rewrite IH by (intros; apply Hl; now right); auto). apply G. intros j Hj. apply in_seq in Hj. lia. }
  unfold Model_Likelihood.log_likelihood, Model_Likelihood.evaluate. rewrite HX, HK, HT. set (th := match m with Noiseless => par | _ => removelast par end). destruct (correlation_matrix (kern d) th (X d)) as [K|] eqn:EK; [|reflexivity].
  assert (SK := correlation_sym _ _ _ _ EK). destruct m.
  - assert (SC := shift_compute K SK). destruct (compute d K) as [a|], (compute d' K) as [a'|]; try tauto. destruct SC as (EL & EQ & ER). rewrite EQ, EL.
    set (k := match a_Q a with Some _ => _ | None => _ end).
    assert (SS : forall j, (j < targets d)%nat -> sum_sq n (a_rho a') j = sum_sq n (a_rho a) j) by (intros j Hj; apply sumn_ext; intros i Hi; now rewrite ER).
    rewrite (EX _ (fun j => if Req_EM_T (sum_sq n (a_rho a) j / INR (n - k)) 0 then true else false)) by (intros j Hj; rewrite SS by auto; reflexivity).
    destruct (_ || _)%bool; [reflexivity|]. cbn [accept ll]. rewrite HT. rewrite (EX _ (fun j => if Rlt_dec 0 (- (1 / 2) * (INR n * ln (2 * PI * (sum_sq n (a_rho a) j / INR (n - k))) + log_det n (a_L a) + INR n)) then true else false)) by (intros j Hj; rewrite SS by auto; reflexivity).
    destruct (existsb _ _); [reflexivity|]. f_equal. apply sumn_ext. intros j Hj. cbn [ll]. rewrite SS by auto. reflexivity.
  - set (A := fun i j => last par 0 * K i j + (1 - last par 0) * eye i j). assert (SA : symmetric n A) by (intros i j Hi Hj; unfold A; rewrite (SK i j), (eye_sym n i j) by auto; reflexivity).
    assert (SC := shift_compute A SA). destruct (compute d A) as [a|], (compute d' A) as [a'|]; try tauto. destruct SC as (EL & EQ & ER). rewrite EL.
    assert (SS : forall j, (j < targets d)%nat -> sum_sq n (a_rho a') j = sum_sq n (a_rho a) j) by (intros j Hj; apply sumn_ext; intros i Hi; now rewrite ER).
    rewrite (EX _ (fun j => if Req_EM_T (sum_sq n (a_rho a) j / INR n) 0 then true else false)) by (intros j Hj; rewrite SS by auto; reflexivity).
    destruct (existsb _ _); [reflexivity|]. cbn [accept ll]. rewrite HT. rewrite (EX _ (fun j => if Rlt_dec 0 (- (1 / 2) * (INR n * ln (2 * PI * (sum_sq n (a_rho a) j / INR n)) + log_det n (a_L a) + INR n)) then true else false)) by (intros j Hj; rewrite SS by auto; reflexivity).
    destruct (existsb _ _); [reflexivity|]. f_equal. apply sumn_ext. intros j Hj. cbn [ll]. rewrite SS by auto. reflexivity.
  - set (A := fun i j => (last par 0 * K i j + noise * eye i j) / (last par 0 + noise)). assert (SA : symmetric n A) by (intros i j Hi Hj; unfold A; rewrite (SK i j), (eye_sym n i j) by auto; reflexivity).
    assert (SC := shift_compute A SA). destruct (compute d A) as [a|], (compute d' A) as [a'|]; try tauto. destruct SC as (EL & EQ & ER). rewrite EL.
    assert (SS : forall j, (j < targets d)%nat -> sum_sq n (a_rho a') j = sum_sq n (a_rho a) j) by (intros j Hj; apply sumn_ext; intros i Hi; now rewrite ER).
    cbn [accept ll]. rewrite HT. rewrite (EX _ (fun j => if Rlt_dec 0 (- (1 / 2) * (INR n * ln (2 * PI * (last par 0 + noise)) + log_det n (a_L a) + sum_sq n (a_rho a) j / (last par 0 + noise))) then true else false)) by (intros j Hj; rewrite SS by auto; reflexivity).
    destruct (existsb _ _); [reflexivity|]. f_equal. apply sumn_ext. intros j Hj. cbn [ll]. rewrite SS by auto. reflexivity.
Qed.
End Shift.
End Oracles.
