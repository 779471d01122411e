(** The reported gradient against the derivative, component by component. *)
From Coq Require Import Reals List Arith Lia Lra Bool.
From Coquelicot Require Import Coquelicot.
From Verif Require Import Lib_Sum Lib_Chol Lib_GLS Model_Kernel Spec_Kernel Proofs_Kernel Properties_Kernel Model_Likelihood Spec_Likelihood Proofs_Likelihood Proofs_LikelihoodGrad Proofs_LikelihoodModes.
Import ListNotations.
Open Scope R_scope.

Lemma nth_map_seq (f : nat -> R) m c : (c < m)%nat -> nth c (map f (seq 0 m)) 0 = f c.
Proof. intros H. rewrite (nth_indep _ 0 (f 0%nat)) by (rewrite map_length, seq_length; auto). rewrite map_nth, seq_nth by auto. reflexivity. Qed.
Lemma sumn_1 f : sumn 1 f = f 0%nat.
Proof. rewrite sumn_S, sumn_0. lra. Qed.
Lemma trace_scal n B c D : trace_of n B (fun i j => c * D i j) = c * trace_of n B D.
Proof. unfold trace_of. rewrite <- sumn_scal. apply sumn_ext. intros i Hi. rewrite <- sumn_scal. apply sumn_ext. intros; ring. Qed.
Lemma form_scal n g c D : form n (fun i j => c * D i j) g = c * form n D g.
Proof. unfold form. rewrite <- sumn_scal. apply sumn_ext. intros i Hi. rewrite <- sumn_scal. apply sumn_ext. intros; ring. Qed.
Lemma trace_plus n B D E : trace_of n B (fun i j => D i j + E i j) = trace_of n B D + trace_of n B E.
Proof. unfold trace_of. rewrite <- sumn_plus. apply sumn_ext. intros i Hi. rewrite <- sumn_plus. apply sumn_ext. intros; ring. Qed.
Lemma form_plus n g D E : form n (fun i j => D i j + E i j) g = form n D g + form n E g.
Proof. unfold form. rewrite <- sumn_plus. apply sumn_ext. intros i Hi. rewrite <- sumn_plus. apply sumn_ext. intros; ring. Qed.
Lemma trace_ext n B D E : (forall i j, (i < n)%nat -> (j < n)%nat -> D i j = E i j) -> trace_of n B D = trace_of n B E.
Proof. intros H. apply sumn_ext. intros i Hi. apply sumn_ext. intros j Hj. now rewrite H. Qed.
Lemma form_ext n g D E : (forall i j, (i < n)%nat -> (j < n)%nat -> D i j = E i j) -> form n D g = form n E g.
Proof. intros H. apply sumn_ext. intros i Hi. apply sumn_ext. intros j Hj. now rewrite H. Qed.

Section Oracles.
Variable cholesky : nat -> matrix -> option matrix.
Variable qr : nat -> nat -> matrix -> matrix * matrix.
Variable solve_lower : nat -> matrix -> (nat -> R) -> nat -> R.
Variable solve_upper : nat -> matrix -> (nat -> R) -> nat -> R.
Variable cho_solve : nat -> matrix -> matrix -> matrix.
Variable matrix_rank : nat -> matrix -> nat.
Hypothesis LP : lapack cholesky qr solve_lower solve_upper cho_solve matrix_rank.
Notation compute := (compute_aux_var cholesky qr solve_lower).
Notation evaluate := (evaluate cholesky qr solve_lower matrix_rank).
Notation log_likelihood := (log_likelihood cholesky qr solve_lower matrix_rank).
Notation likelihood_and_gradient := (likelihood_and_gradient cholesky qr solve_lower solve_upper cho_solve matrix_rank).
Notation gradient := (gradient solve_upper cho_solve).
Variable d : data.
Notation n := (length (X d)).
Hypothesis PR : proper n (mean d).
Variable noise : R.
Notation gam e := (gam solve_upper d (aux_of e)).
Notation Rinv e := (cho_solve n (a_L (aux_of e)) eye).
Variable nf : nat.
Hypothesis (HK : smooth (kern d)) (HX : rectangular (X d) nf).

Lemma split_value m par v g : likelihood_and_gradient m noise d par = Value (v, g) ->
  exists e, evaluate m noise d par = Value (Some e) /\ v = sumn (targets d) (ll e) /\ gradient m d e par = Some g /\ forall j, (j < targets d)%nat -> ll e j <= 0.
Proof.
  unfold Model_Likelihood.likelihood_and_gradient. destruct (evaluate m noise d par) as [| |[e|]] eqn:E; cbn [accept]; try discriminate.
  destruct (existsb _ _) eqn:Z; [discriminate|]. destruct (gradient m d e par) as [g'|] eqn:G; [|discriminate]. intros H. inversion H. subst. exists e. repeat split; auto.
  rewrite existsb_seq in Z. intros j Hj. specialize (Z j Hj). destruct (Rlt_dec 0 (ll e j)); [discriminate|lra].
Qed.
(** What an evaluation holds. *)
Lemma eval_fields m par e : evaluate m noise d par = Value (Some e) ->
  let th := match m with Noiseless => par | _ => removelast par end in
  theta e = th /\ correlation_matrix (kern d) th (X d) = Some (R0 e) /\
  exists A, symmetric n A /\ compute d A = Some (aux_of e) /\ factor n A (a_L (aux_of e)) /\
    (m = Noisy -> A = (fun i j => (last par 0 * R0 e i j + noise * eye i j) / (last par 0 + noise))) /\
    match m with
    | Noiseless => forall j, total e j = sum_sq n (a_rho (aux_of e)) j / INR (n - coefficients_of (mean d))
    | NoiseEstim => forall j, total e j = sum_sq n (a_rho (aux_of e)) j / INR n
    | Noisy => forall j, total e j = last par 0 + noise
    end.
Proof.
  intros E. assert (SYM : forall th M, correlation_matrix (kern d) th (X d) = Some M -> symmetric n M) by (intros th M H i j Hi Hj; apply (C62_correlation_matrix _ _ _ _ H i j Hi Hj)).
  unfold Model_Likelihood.evaluate in E. cbv zeta. destruct (correlation_matrix (kern d) _ (X d)) as [M|] eqn:EM; [|discriminate]. specialize (SYM _ _ EM).
  destruct m.
  - destruct (compute d M) as [a|] eqn:C; [|discriminate]. rewrite (rank_k _ _ _ _ _ _ LP d PR _ _ SYM C) in E. destruct (_ || _)%bool; [discriminate|]. inversion E. cbn [theta R0 aux_of total].
    split; auto. split; auto. exists M. split; auto. split; auto. split; [apply (compute_spec _ _ _ _ _ _ LP d PR _ _ SYM C)|]. split; [discriminate|reflexivity].
  - set (A := fun i j => last par 0 * M i j + (1 - last par 0) * eye i j) in E. assert (SA : symmetric n A) by (intros i j Hi Hj; unfold A; rewrite (SYM i j), (eye_sym n i j); auto).
    destruct (compute d A) as [a|] eqn:C; [|discriminate]. destruct (existsb _ _); [discriminate|]. inversion E. cbn [theta R0 aux_of total].
    split; auto. split; auto. exists A. split; auto. split; auto. split; [apply (compute_spec _ _ _ _ _ _ LP d PR _ _ SA C)|]. split; [discriminate|reflexivity].
  - set (A := fun i j => (last par 0 * M i j + noise * eye i j) / (last par 0 + noise)) in E. assert (SA : symmetric n A) by (intros i j Hi Hj; unfold A; rewrite (SYM i j), (eye_sym n i j); auto).
    destruct (compute d A) as [a|] eqn:C; [|discriminate]. inversion E. cbn [theta R0 aux_of total].
    split; auto. split; auto. exists A. split; auto. split; auto. split; [apply (compute_spec _ _ _ _ _ _ LP d PR _ _ SA C)|]. split; [reflexivity|reflexivity].
Qed.

Section Theta.
Variables (m : mode) (par : list R) (e : evaluation).
Hypothesis (E : evaluate m noise d par = Value (Some e)).
Let th := match m with Noiseless => par | _ => removelast par end.
Hypothesis (LT : length th = nf) (PT : positive th).
Variable c : nat.
Hypothesis Hc : (c < nf)%nat.
Lemma slice_eq i j : grad_slice d e c i j = slice (kern d) th (R0 e) (X d) c i j.
Proof. unfold grad_slice, slice. destruct (eval_fields _ _ _ E) as (-> & _). reflexivity. Qed.
Lemma slice_symm i j : (i < n)%nat -> (j < n)%nat -> grad_slice d e c i j = grad_slice d e c j i.
Proof. intros Hi Hj. rewrite !slice_eq. destruct (eval_fields _ _ _ E) as (_ & HR & _). exact (slice_sym (kern d) (X d) th c (R0 e) HR i j Hi Hj). Qed.
Lemma slice_zero i : grad_slice d e c i i = 0.
Proof. rewrite slice_eq. apply slice_diag. Qed.
(** The sums over the upper triangle. *)
Lemma upper_trace a : upper_sum n (fun i l => Rinv e i l * (a * grad_slice d e c i l)) = / 2 * trace_of n (Rinv e) (fun i l => a * grad_slice d e c i l).
Proof.
  destruct (eval_fields _ _ _ E) as (_ & _ & A & _ & _ & F & _). rewrite upper_half; [reflexivity| |].
  - intros i j Hi Hj. rewrite (slice_symm i j), (Rinv_sym _ _ _ _ _ _ LP d A (a_L (aux_of e)) i j) by auto. reflexivity.
  - intros i Hi. rewrite slice_zero. ring.
Qed.
Lemma upper_form a (g : nat -> R) : upper_sum n (fun i l => g i * g l * (a * grad_slice d e c i l)) = / 2 * form n (fun i l => a * grad_slice d e c i l) g.
Proof.
  rewrite upper_half.
  - f_equal. apply full_ext. intros; ring.
  - intros i j Hi Hj. rewrite (slice_symm i j) by auto. ring.
  - intros i Hi. rewrite slice_zero. ring.
Qed.
End Theta.

Lemma gradient_noiseless e par : gradient Noiseless d e par =
  Some (map (fun c => sumn (targets d) (fun j => upper_sum n (fun i l => sumn (targets d) (fun j => gam e j i * gam e j l) * (1 * grad_slice d e c i l)) / total e j - upper_sum n (fun i l => Rinv e i l * (1 * grad_slice d e c i l)))) (seq 0 (length (theta e)))).
Proof. unfold Model_Likelihood.gradient. destruct HK as [->|[->| ->]]; rewrite app_nil_r; reflexivity. Qed.
Lemma gradient_estim e par : gradient NoiseEstim d e par =
  Some (map (fun c => sumn (targets d) (fun j => upper_sum n (fun i l => sumn (targets d) (fun j => gam e j i * gam e j l) * (last par 0 * grad_slice d e c i l)) / total e j - upper_sum n (fun i l => Rinv e i l * (last par 0 * grad_slice d e c i l)))) (seq 0 (length (theta e)))
    ++ [sumn (targets d) (fun j => - (1 / 2) * (trace_of n (Rinv e) (fun i l => R0 e i l - eye i l) - form n (fun i l => R0 e i l - eye i l) (gam e j) / total e j))]).
Proof. unfold Model_Likelihood.gradient. destruct HK as [->|[->| ->]]; reflexivity. Qed.
Lemma gradient_noisy e par : gradient Noisy d e par =
  Some (map (fun c => sumn (targets d) (fun j => let C := if (c <? length (nth 0 (X d) []))%nat then fun i l => total e 0%nat * grad_slice d e c i l else R0 e in
    - (1 / 2) * (trace_of n (fun i l => Rinv e i l / total e 0%nat) C - form n C (fun i => gam e j i / total e 0%nat)))) (seq 0 (length par))).
Proof. unfold Model_Likelihood.gradient. destruct HK as [->|[->| ->]]; reflexivity. Qed.

(** ** The derivatives of the three likelihoods along each parameter, for any number of targets *)
Definition derivative_along (m : mode) (par : list R) (c : nat) (D : R) : Prop :=
  exists h, is_derive h (nth c par 0) D /\ locally (nth c par 0) (fun t => finite (log_likelihood m noise d (set_coord par c t)) = Some (h t)).

Lemma estim_theta th al e c : length th = nf -> positive th -> (c < nf)%nat -> evaluate NoiseEstim noise d (th ++ [al]) = Value (Some e) ->
  (forall j, (j < targets d)%nat -> ll e j < 0) ->
  derivative_along NoiseEstim (th ++ [al]) c (sumn (targets d) (fun j => / 2 * (form n (fun i l => al * grad_slice d e c i l) (gam e j) / total e j - trace_of n (Rinv e) (fun i l => al * grad_slice d e c i l)))).
Proof.
  intros LT PT Hc E NEG. destruct (eval_fields _ _ _ E) as (ET & HR & _). rewrite removelast_last in HR, ET.
  unfold derivative_along. rewrite app_nth1 by lia.
  apply (estim_along _ _ _ _ _ _ LP d PR noise (fun t => set_coord (th ++ [al]) c t) (fam (kern d) (X d) th c)); auto.
  - intros t. exact (fam_sym (kern d) (X d) nf th c HK HX LT Hc t).
  - intros t. rewrite set_coord_app_l, removelast_last by lia. exact (fam_ok (kern d) (X d) nf th c HK HX LT Hc t).
  - intros i j Hi Hj. apply (is_derive_ext (fun t => al * fam (kern d) (X d) th c t i j + (1 - al) * eye i j)).
    { intros t. rewrite set_coord_app_l, last_last by lia. reflexivity. }
    pose proof (fam_derive (kern d) (X d) nf th c HK HX LT PT Hc (R0 e) HR i j Hi Hj) as D.
    assert (ES := slice_eq _ _ _ E c i j). cbv iota in ES. rewrite removelast_last in ES. rewrite <- ES in D. set (f := fun t : R => fam (kern d) (X d) th c t i j) in *. change (is_derive (fun t => al * f t + (1 - al) * eye i j) (nth c th 0) (al * grad_slice d e c i j)). change (is_derive f (nth c th 0) (grad_slice d e c i j)) in D. clearbody f.
    auto_derive; [eexists; exact D|]. change (Derive (fun t => f t) (nth c th 0)) with (Derive f (nth c th 0)). rewrite (is_derive_unique _ _ _ D). ring.
  - replace (set_coord (th ++ [al]) c (nth c th 0)) with (th ++ [al]); auto. rewrite <- (app_nth1 th [al]) by lia. rewrite set_coord_same; auto. rewrite app_length. lia.
Qed.
Lemma estim_alpha th al e : length th = nf -> evaluate NoiseEstim noise d (th ++ [al]) = Value (Some e) ->
  (forall j, (j < targets d)%nat -> ll e j < 0) ->
  derivative_along NoiseEstim (th ++ [al]) nf (sumn (targets d) (fun j => / 2 * (form n (fun i l => R0 e i l - eye i l) (gam e j) / total e j - trace_of n (Rinv e) (fun i l => R0 e i l - eye i l)))).
Proof.
  intros LT E NEG. destruct (eval_fields _ _ _ E) as (_ & HR & _). rewrite removelast_last in HR.
  unfold derivative_along. rewrite app_nth2 by lia. replace (nf - length th)%nat with 0%nat by lia. cbn [nth].
  apply (estim_along _ _ _ _ _ _ LP d PR noise (fun t => set_coord (th ++ [al]) nf t) (fun _ => R0 e)); auto.
  - intros t i j Hi Hj. apply (C62_correlation_matrix _ _ _ _ HR i j Hi Hj).
  - intros t. rewrite <- LT, set_coord_app_r, removelast_last. exact HR.
  - intros i j Hi Hj. apply (is_derive_ext (fun t => t * R0 e i j + (1 - t) * eye i j)).
    { intros t. rewrite <- LT, set_coord_app_r, last_last. reflexivity. }
    auto_derive; [exact I|]. ring.
  - rewrite <- LT, set_coord_app_r. exact E.
Qed.
Lemma noiseless_theta th e c : length th = nf -> positive th -> (c < nf)%nat -> evaluate Noiseless noise d th = Value (Some e) ->
  (forall j, (j < targets d)%nat -> ll e j < 0) ->
  derivative_along Noiseless th c (sumn (targets d) (fun j => / 2 * (INR n / INR (n - coefficients_of (mean d)) * form n (fun i l => grad_slice d e c i l) (gam e j) / total e j - trace_of n (Rinv e) (fun i l => grad_slice d e c i l)))).
Proof.
  intros LT PT Hc E NEG. destruct (eval_fields _ _ _ E) as (ET & HR & _).
  apply (noiseless_along _ _ _ _ _ _ LP d PR noise (fun t => set_coord th c t) (fam (kern d) (X d) th c)); auto.
  - intros t. exact (fam_sym (kern d) (X d) nf th c HK HX LT Hc t).
  - intros t. exact (fam_ok (kern d) (X d) nf th c HK HX LT Hc t).
  - intros i j Hi Hj. rewrite (slice_eq _ _ _ E c i j). exact (fam_derive (kern d) (X d) nf th c HK HX LT PT Hc (R0 e) HR i j Hi Hj).
  - rewrite set_coord_same by lia. exact E.
Qed.
Lemma noisy_theta th s e c : length th = nf -> positive th -> (c < nf)%nat -> 0 < s + noise -> evaluate Noisy noise d (th ++ [s]) = Value (Some e) ->
  (forall j, (j < targets d)%nat -> ll e j < 0) ->
  derivative_along Noisy (th ++ [s]) c (sumn (targets d) (fun j => s / (s + noise) * (- (1 / 2) * (trace_of n (Rinv e) (fun i l => grad_slice d e c i l) - form n (fun i l => grad_slice d e c i l) (gam e j) / (s + noise))))).
Proof.
  intros LT PT Hc Hs E NEG. destruct (eval_fields _ _ _ E) as (ET & HR & _). rewrite removelast_last in HR, ET.
  destruct (noisy_along _ _ _ _ _ _ LP d PR noise (fun t => set_coord (th ++ [s]) c t) (fam (kern d) (X d) th c) (nth c th 0) e (fun i l => s / (s + noise) * grad_slice d e c i l)) with (ds := 0) as (h & Dh & Lh); auto.
  - intros t. exact (fam_sym (kern d) (X d) nf th c HK HX LT Hc t).
  - rewrite set_coord_app_l, last_last by lia. exact Hs.
  - apply (is_derive_ext (fun _ => s)); [intros t; rewrite set_coord_app_l, last_last by lia; reflexivity|]. auto_derive; [exact I|reflexivity].
  - intros t. rewrite set_coord_app_l, removelast_last by lia. exact (fam_ok (kern d) (X d) nf th c HK HX LT Hc t).
  - intros i j Hi Hj. apply (is_derive_ext (fun t => (s * fam (kern d) (X d) th c t i j + noise * eye i j) / (s + noise))).
    { intros t. rewrite set_coord_app_l, last_last by lia. reflexivity. }
    pose proof (fam_derive (kern d) (X d) nf th c HK HX LT PT Hc (R0 e) HR i j Hi Hj) as D.
    assert (ES := slice_eq _ _ _ E c i j). cbv iota in ES. rewrite removelast_last in ES. rewrite <- ES in D. set (f := fun t : R => fam (kern d) (X d) th c t i j) in *. change (is_derive (fun t => (s * f t + noise * eye i j) / (s + noise)) (nth c th 0) (s / (s + noise) * grad_slice d e c i j)). change (is_derive f (nth c th 0) (grad_slice d e c i j)) in D. clearbody f.
    auto_derive; [eexists; exact D|]. change (Derive (fun t => f t) (nth c th 0)) with (Derive f (nth c th 0)). rewrite (is_derive_unique _ _ _ D). field. lra.
  - replace (set_coord (th ++ [s]) c (nth c th 0)) with (th ++ [s]); auto. rewrite <- (app_nth1 th [s]) by lia. rewrite set_coord_same; auto. rewrite app_length. lia.
  - unfold derivative_along. rewrite app_nth1 by lia. exists h. split; [|exact Lh]. rewrite set_coord_app_l, last_last in Dh by lia.
    replace (sumn (targets d) _) with (sumn (targets d) (fun j => - (1 / 2) * (INR n * 0 / (s + noise) + trace_of n (Rinv e) (fun i l => s / (s + noise) * grad_slice d e c i l) - form n (fun i l => s / (s + noise) * grad_slice d e c i l) (gam e j) / (s + noise) - 0 * sum_sq n (a_rho (aux_of e)) j / ((s + noise) * (s + noise))))); [exact Dh|].
    apply sumn_ext. intros j Hj. rewrite trace_scal, form_scal. change (fun i l : nat => grad_slice d e c i l) with (grad_slice d e c). field. lra.
Qed.
Lemma noisy_sigma th s e : length th = nf -> 0 < s + noise -> evaluate Noisy noise d (th ++ [s]) = Value (Some e) ->
  (forall j, (j < targets d)%nat -> ll e j < 0) ->
  derivative_along Noisy (th ++ [s]) nf (sumn (targets d) (fun j => - (1 / 2) * (trace_of n (Rinv e) (R0 e) / (s + noise) - form n (R0 e) (gam e j) / ((s + noise) * (s + noise))))).
Proof.
  intros LT Hs E NEG. destruct (eval_fields _ _ _ E) as (_ & HR & A & SA & CA & FA & EA & _). rewrite removelast_last in HR. specialize (EA eq_refl). rewrite last_last in EA.
  destruct (noisy_along _ _ _ _ _ _ LP d PR noise (fun t => set_coord (th ++ [s]) nf t) (fun _ => R0 e) s e (fun i l => noise / ((s + noise) * (s + noise)) * (R0 e i l - eye i l))) with (ds := 1) as (h & Dh & Lh); auto.
  - intros t i j Hi Hj. apply (C62_correlation_matrix _ _ _ _ HR i j Hi Hj).
  - rewrite <- LT, set_coord_app_r, last_last. exact Hs.
  - apply (is_derive_ext (fun t => t)); [intros t; rewrite <- LT, set_coord_app_r, last_last; reflexivity|]. auto_derive; [exact I|reflexivity].
  - intros t. rewrite <- LT, set_coord_app_r, removelast_last. exact HR.
  - intros i j Hi Hj. apply (is_derive_ext (fun t => (t * R0 e i j + noise * eye i j) / (t + noise))).
    { intros t. rewrite <- LT, set_coord_app_r, last_last. reflexivity. }
    auto_derive; [lra|]. field. lra.
  - rewrite <- LT, set_coord_app_r. exact E.
  - unfold derivative_along. rewrite app_nth2 by lia. replace (nf - length th)%nat with 0%nat by lia. cbn [nth]. exists h. split; [|exact Lh]. revert Dh. rewrite <- LT, set_coord_app_r, last_last. intros Dh.
    match type of Dh with is_derive _ _ (sumn _ ?f) => replace (sumn (targets d) _) with (sumn (targets d) f); [exact Dh|] end.
    apply sumn_ext. intros j Hj. rewrite <- (Rinv_trace _ _ _ _ _ _ LP d A (a_L (aux_of e)) SA FA), <- (gam_form _ _ _ _ _ _ LP d PR A (aux_of e) j SA CA).
    assert (T : trace_of n (Rinv e) A = s / (s + noise) * trace_of n (Rinv e) (R0 e) + noise / (s + noise) * trace_of n (Rinv e) eye).
    { rewrite EA. rewrite <- !trace_scal, <- trace_plus. apply trace_ext. intros. field. lra. }
    assert (G : form n A (gam e j) = s / (s + noise) * form n (R0 e) (gam e j) + noise / (s + noise) * form n eye (gam e j)).
    { rewrite EA. rewrite <- !form_scal, <- form_plus. apply form_ext. intros. field. lra. }
    rewrite T, G, trace_scal, form_scal.
    assert (T2 : trace_of n (Rinv e) (fun i l => R0 e i l - eye i l) = trace_of n (Rinv e) (R0 e) + -1 * trace_of n (Rinv e) eye) by (rewrite <- trace_scal, <- trace_plus; apply trace_ext; intros; ring).
    assert (G2 : form n (fun i l => R0 e i l - eye i l) (gam e j) = form n (R0 e) (gam e j) + -1 * form n eye (gam e j)) by (rewrite <- form_scal, <- form_plus; apply form_ext; intros; ring).
    rewrite T2, G2. field. lra.
Qed.
End Oracles.
