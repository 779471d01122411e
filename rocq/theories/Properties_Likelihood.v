(** * The likelihood that is maximised to fit a Gaussian process: C174 to C177.  Cases that meet the hypotheses are at the end of
    Properties_LikelihoodCases.v. *)
From Coq Require Import Reals List Arith Lia Lra Bool.
From Coquelicot Require Import Coquelicot.
From Verif Require Import Lib_Sum Lib_Chol Lib_GLS Lib_Lapack Model_Kernel Spec_Kernel Proofs_Kernel Properties_Kernel Model_Likelihood Spec_Likelihood Proofs_Likelihood Proofs_LikelihoodGrad Proofs_LikelihoodModes Proofs_LikelihoodParts Proofs_LikelihoodTwo Proofs_LikelihoodMax Proofs_LikelihoodCases.
Import ListNotations.
Open Scope R_scope.

Section Likelihood.
(** Any linear algebra routines that satisfy their contracts. *)
Variable cholesky : nat -> matrix -> option matrix.
Variable qr : nat -> nat -> matrix -> matrix * matrix.
Variable solve_lower : nat -> matrix -> (nat -> R) -> nat -> R.
Variable solve_upper : nat -> matrix -> (nat -> R) -> nat -> R.
Variable cho_solve : nat -> matrix -> matrix -> matrix.
Variable matrix_rank : nat -> matrix -> nat.
Hypothesis LP : lapack cholesky qr solve_lower solve_upper cho_solve matrix_rank.
Notation log_likelihood := (log_likelihood cholesky qr solve_lower matrix_rank).
Notation likelihood_and_gradient := (likelihood_and_gradient cholesky qr solve_lower solve_upper cho_solve matrix_rank).
Notation objective := (objective cholesky qr solve_lower solve_upper cho_solve matrix_rank).
Notation evaluate := (evaluate cholesky qr solve_lower matrix_rank).

(** ** C174: the value is the largest log density of the data *)
(** The residuals of target j for the trend with coefficients b. *)
Definition residuals (d : data) (j : nat) (b : nat -> R) (i : nat) : R := y d i j - trend_values (mean d) b i.
(** Noise estimated: the largest value over the trend and the total variance, for the covariance s (alpha R + (1 - alpha) I). *)
Theorem C174_noise_estimated noise d par v : proper (length (X d)) (mean d) -> log_likelihood NoiseEstim noise d par = Value v ->
  exists K w, correlation_matrix (kern d) (removelast par) (X d) = Some K /\ v = sumn (targets d) w /\
    forall j, (j < targets d)%nat ->
      largest (fun u => exists b s, 0 < s /\ gaussian_log_density (length (X d)) (fun i l => s * (last par 0 * K i l + (1 - last par 0) * eye i l)) (residuals d j b) u) (w j).
Proof.
  intros PR H. unfold Model_Likelihood.log_likelihood in H. destruct (accept _ _) as [| |e] eqn:HA; try discriminate. assert (HV : sumn (targets d) (ll e) = v) by congruence. clear H.
  destruct (evaluate NoiseEstim noise d par) as [| |[e'|]] eqn:E; try discriminate. cbn [accept] in HA. destruct (existsb _ _); [discriminate|]. inversion HA. subst e'. clear HA.
  unfold Model_Likelihood.evaluate in E. destruct (correlation_matrix (kern d) (removelast par) (X d)) as [K|] eqn:EK; [|discriminate]. exists K, (ll e). split; auto. split; auto.
  set (A := fun i j => last par 0 * K i j + (1 - last par 0) * eye i j) in *.
  assert (SA : symmetric (length (X d)) A) by (intros i j Hi Hj; unfold A; destruct (C62_correlation_matrix _ _ _ _ EK i j Hi Hj) as (-> & _); rewrite (eye_sym (length (X d)) i j); auto).
  destruct (compute_aux_var _ _ _ d A) as [a|] eqn:C; [|discriminate]. destruct (existsb _ _) eqn:Z; [discriminate|]. rewrite nonzero_some in Z. inversion E as [Ee]. cbn [ll].
  intros j Hj. apply (best_both _ _ _ _ _ _ LP d PR A a j SA C). intros S0. apply (Z j Hj). rewrite S0. unfold Rdiv. ring.
Qed.
(** No noise and a known trend: the largest value over the variance, for the covariance s R. *)
Theorem C174_noiseless_known_trend noise d par v t : mean d = Known t -> log_likelihood Noiseless noise d par = Value v ->
  exists K w, correlation_matrix (kern d) par (X d) = Some K /\ v = sumn (targets d) w /\
    forall j, (j < targets d)%nat ->
      largest (fun u => exists s, 0 < s /\ gaussian_log_density (length (X d)) (fun i l => s * K i l) (fun i => y d i j - t i) u) (w j).
Proof.
  intros HM H. assert (PR : proper (length (X d)) (mean d)) by (rewrite HM; exact I).
  unfold Model_Likelihood.log_likelihood in H. destruct (accept _ _) as [| |e] eqn:HA; try discriminate. assert (HV : sumn (targets d) (ll e) = v) by congruence. clear H.
  destruct (evaluate Noiseless noise d par) as [| |[e'|]] eqn:E; try discriminate. cbn [accept] in HA. destruct (existsb _ _); [discriminate|]. inversion HA. subst e'. clear HA.
  unfold Model_Likelihood.evaluate in E. destruct (correlation_matrix (kern d) par (X d)) as [K|] eqn:EK; [|discriminate]. exists K, (ll e). split; auto. split; auto.
  assert (SA : symmetric (length (X d)) K) by (intros i j Hi Hj; apply (C62_correlation_matrix _ _ _ _ EK i j Hi Hj)).
  destruct (compute_aux_var _ _ _ d K) as [a|] eqn:C; [|discriminate]. rewrite (rank_k _ _ _ _ _ _ LP d PR K a SA C) in E. rewrite HM in E. cbn [coefficients_of] in E. rewrite Nat.sub_0_r in E.
  destruct (_ || _)%bool eqn:Z; [discriminate|]. apply orb_false_elim in Z as (_ & Z). rewrite nonzero_some in Z. inversion E as [Ee]. cbn [ll].
  intros j Hj. destruct (best_both _ _ _ _ _ _ LP d PR K a j SA C) as (B1 & B2); [intros S0; apply (Z j Hj); rewrite S0; unfold Rdiv; ring|]. rewrite HM in B1, B2. cbn [trend_values] in B1, B2. split.
  - destruct B1 as (b & s & Hs & G). eauto.
  - intros u (s & Hs & G). apply B2. exists (fun _ => 0), s. auto.
Qed.
(** Known noise: the largest value over the trend, for the covariance s R + noise I with the given variance s. *)
Theorem C174_noisy noise d par v : proper (length (X d)) (mean d) -> 0 < last par 0 + noise -> log_likelihood Noisy noise d par = Value v ->
  exists K w, correlation_matrix (kern d) (removelast par) (X d) = Some K /\ v = sumn (targets d) w /\
    forall j, (j < targets d)%nat ->
      largest (fun u => exists b, gaussian_log_density (length (X d)) (fun i l => last par 0 * K i l + noise * eye i l) (residuals d j b) u) (w j).
Proof.
  intros PR Hs H. unfold Model_Likelihood.log_likelihood in H. destruct (accept _ _) as [| |e] eqn:HA; try discriminate. assert (HV : sumn (targets d) (ll e) = v) by congruence. clear H.
  destruct (evaluate Noisy noise d par) as [| |[e'|]] eqn:E; try discriminate. cbn [accept] in HA. destruct (existsb _ _); [discriminate|]. inversion HA. subst e'. clear HA.
  unfold Model_Likelihood.evaluate in E. destruct (correlation_matrix (kern d) (removelast par) (X d)) as [K|] eqn:EK; [|discriminate]. exists K, (ll e). split; auto. split; auto.
  set (A := fun i j => (last par 0 * K i j + noise * eye i j) / (last par 0 + noise)) in *.
  assert (SA : symmetric (length (X d)) A) by (intros i j Hi Hj; unfold A; destruct (C62_correlation_matrix _ _ _ _ EK i j Hi Hj) as (-> & _); rewrite (eye_sym (length (X d)) i j); auto).
  destruct (compute_aux_var _ _ _ d A) as [a|] eqn:C; [|discriminate]. inversion E as [Ee]. cbn [ll].
  intros j Hj. destruct (best_trend _ _ _ _ _ _ LP d PR A a j _ Hs SA C) as (B1 & B2).
  assert (EQ : forall b u, gaussian_log_density (length (X d)) (fun i l => (last par 0 + noise) * A i l) (residuals d j b) u <-> gaussian_log_density (length (X d)) (fun i l => last par 0 * K i l + noise * eye i l) (residuals d j b) u).
  { assert (EA : forall i l, (last par 0 + noise) * A i l = last par 0 * K i l + noise * eye i l) by (intros; unfold A; field; lra).
    intros b u. split; intros (L & w & (F1 & F2 & F3) & G); exists L, w; (split; [split; [exact F1|split; [exact F2|]]|exact G]); intros i l Hi Hl; rewrite F3 by auto; [|symmetry]; apply EA. }
  split.
  - destruct B1 as (b & G). exists b. now apply EQ.
  - intros u (b & G). apply B2. exists b. now apply EQ.
Qed.

(** ** C175: the gradient when the noise is estimated *)
Theorem C175_noise_estimated noise d nf par v g : smooth (kern d) -> rectangular (X d) nf -> proper (length (X d)) (mean d) -> targets d = 1%nat ->
  length par = Datatypes.S nf -> positive (removelast par) ->
  likelihood_and_gradient NoiseEstim noise d par = Value (v, g) -> v < 0 ->
  has_gradient (fun p => finite (log_likelihood NoiseEstim noise d p)) par g.
Proof.
  intros HK HX PR HT LN PT H HV. destruct (par_split par nf LN) as (EP & LT). set (th := removelast par) in *. set (al := last par 0) in *. rewrite EP in *. clearbody th al. clear EP par.
  destruct (split_value _ _ _ _ _ _ d noise _ _ _ _ H) as (e & E & Hv & G & _). rewrite HT, sumn_1 in Hv.
  assert (NEG : forall j, (j < targets d)%nat -> ll e j < 0) by (rewrite HT; intros j Hj; replace j with 0%nat by lia; lra).
  rewrite (gradient_estim _ _ d HK) in G. destruct (eval_fields _ _ _ _ _ _ LP d PR noise _ _ _ E) as (ET & _). rewrite removelast_last in ET. rewrite ET, LT, last_last in G.
  inversion G as [Eg]. clear G. rewrite HT in Eg |- *. apply gradient_along. split; [rewrite !app_length, map_length, seq_length, LT; cbn [length]; lia|].
  intros c Hc. rewrite app_length in Hc. cbn [length] in Hc. destruct (Nat.lt_ge_cases c nf) as [L|L].
  - rewrite app_nth1 by (rewrite map_length, seq_length; auto). rewrite nth_map_seq by auto. rewrite sumn_1.
    assert (D := estim_theta _ _ _ _ _ _ LP d PR noise nf HK HX th al e c LT PT L E NEG). rewrite HT, sumn_1 in D.
    match type of D with derivative_along _ _ _ _ _ _ _ _ _ ?a => match goal with |- derivative_along _ _ _ _ _ _ _ _ _ ?b => replace b with a; [exact D|] end end.
    rewrite (upper_trace _ _ _ _ _ _ LP d PR noise _ _ e E c al).
    replace (upper_sum (length (X d)) (fun i l => sumn 1 (fun j => gam solve_upper d (aux_of e) j i * gam solve_upper d (aux_of e) j l) * (al * grad_slice d e c i l)))
      with (/ 2 * form (length (X d)) (fun i l => al * grad_slice d e c i l) (gam solve_upper d (aux_of e) 0)).
    + unfold Rdiv. ring.
    + rewrite <- (upper_form _ _ _ _ _ _ LP d PR noise _ _ e E c al (gam solve_upper d (aux_of e) 0)). unfold upper_sum. apply sumn_ext. intros i Hi. apply sumn_ext. intros l Hl. now rewrite sumn_1.
  - rewrite app_nth2 by (rewrite map_length, seq_length; auto). rewrite map_length, seq_length. replace (c - nf)%nat with 0%nat by lia. cbn [nth]. rewrite sumn_1. replace c with nf by lia.
    assert (D := estim_alpha _ _ _ _ _ _ LP d PR noise nf th al e LT E NEG). rewrite HT, sumn_1 in D.
    match type of D with derivative_along _ _ _ _ _ _ _ _ _ ?a => match goal with |- derivative_along _ _ _ _ _ _ _ _ _ ?b => replace b with a; [exact D|] end end. unfold Rdiv. ring.
Qed.

(** ** C176: the gradient without noise, for a known trend *)
Theorem C176_noiseless_known_trend_partial noise d nf par v g t : smooth (kern d) -> rectangular (X d) nf -> mean d = Known t -> targets d = 1%nat ->
  length par = nf -> positive par ->
  likelihood_and_gradient Noiseless noise d par = Value (v, g) -> v < 0 ->
  has_gradient (fun p => finite (log_likelihood Noiseless noise d p)) par g.
Proof.
  intros HK HX HM HT LT PT H HV. assert (PR : proper (length (X d)) (mean d)) by (rewrite HM; exact I).
  destruct (split_value _ _ _ _ _ _ d noise _ _ _ _ H) as (e & E & Hv & G & _). rewrite HT, sumn_1 in Hv.
  assert (NEG : forall j, (j < targets d)%nat -> ll e j < 0) by (rewrite HT; intros j Hj; replace j with 0%nat by lia; lra).
  rewrite (gradient_noiseless _ _ d HK) in G. destruct (eval_fields _ _ _ _ _ _ LP d PR noise _ _ _ E) as (ET & _). rewrite ET, LT in G.
  inversion G as [Eg]. clear G. rewrite HT in Eg |- *. apply gradient_along. split; [rewrite map_length, seq_length; auto|].
  intros c Hc. rewrite LT in Hc. rewrite nth_map_seq by auto. rewrite sumn_1.
  assert (D := noiseless_theta _ _ _ _ _ _ LP d PR noise nf HK HX par e c LT PT Hc E NEG). rewrite HT, sumn_1, HM in D. cbn [coefficients_of] in D. rewrite Nat.sub_0_r in D.
  assert (HN : INR (length (X d)) <> 0).
  { intros Z. change 0 with (INR 0) in Z. apply INR_eq in Z. unfold Model_Likelihood.evaluate in E. destruct (correlation_matrix _ _ _); [|discriminate]. destruct (compute_aux_var _ _ _ _ _); [|discriminate]. rewrite Z in E. cbn in E. discriminate. }
  match type of D with derivative_along _ _ _ _ _ _ _ _ _ ?a => match goal with |- derivative_along _ _ _ _ _ _ _ _ _ ?b => replace b with a; [exact D|] end end.
  rewrite (upper_trace _ _ _ _ _ _ LP d PR noise _ _ e E c 1).
  replace (upper_sum (length (X d)) (fun i l => sumn 1 (fun j => gam solve_upper d (aux_of e) j i * gam solve_upper d (aux_of e) j l) * (1 * grad_slice d e c i l)))
    with (/ 2 * form (length (X d)) (fun i l => 1 * grad_slice d e c i l) (gam solve_upper d (aux_of e) 0)).
  - rewrite form_scal, trace_scal. change (fun i l : nat => grad_slice d e c i l) with (grad_slice d e c). replace (INR (length (X d)) / INR (length (X d))) with 1 by (field; auto). unfold Rdiv. ring.
  - rewrite <- (upper_form _ _ _ _ _ _ LP d PR noise _ _ e E c 1 (gam solve_upper d (aux_of e) 0)). unfold upper_sum. apply sumn_ext. intros i Hi. apply sumn_ext. intros l Hl. now rewrite sumn_1.
Qed.
(** With an estimated trend of k coefficients the value divides by n - k and the gradient does not know it. *)
Definition opposite : matrix := fun i _ => match i with 0%nat => 1 | _ => -1 end.
Definition constant_trend : trend := Estimated 1 (fun _ _ => 1).
Lemma constant_proper : proper 2 constant_trend.
Proof. split; [lia|]. intros b Hb c Hc. specialize (Hb 0%nat ltac:(lia)). rewrite sumn_1 in Hb. replace c with 0%nat by lia. lra. Qed.
Lemma opposite_form : two_form q0 (fun i => opposite i 0%nat) = 2 / (1 - q0).
Proof. pose proof q0_range. unfold two_form, opposite. field. nra. Qed.
Theorem C176_estimated_trend_refuted : exists d par v g, smooth (kern d) /\ rectangular (X d) 1 /\ proper (length (X d)) (mean d) /\ targets d = 1%nat /\ length par = 1%nat /\ positive par /\
  likelihood_and_gradient Noiseless 0 d par = Value (v, g) /\ v < 0 /\
  (exists g', has_gradient (fun p => finite (log_likelihood Noiseless 0 d p)) par g') /\
  ~ has_gradient (fun p => finite (log_likelihood Noiseless 0 d p)) par g.
Proof.
  set (d := two 1 opposite constant_trend). pose proof q0_range as Q.
  destruct (two_noiseless _ _ _ _ _ _ LP 1 opposite constant_trend constant_proper ltac:(cbn; lia)) as (a & M & HM & C & GA & R01 & R10 & _ & EV).
  destruct (GA 0%nat) as (b & G0 & G1 & SS & MIN).
  assert (RB : forall b i, res d 0 b i = opposite i 0%nat - b 0%nat) by (intros; unfold res, d; cbn [mean two constant_trend trend_values]; rewrite sumn_1; cbn; ring).
  assert (B0 : b 0%nat = 0).
  { specialize (MIN (fun _ => 0)). fold d in MIN. unfold two_form in MIN. rewrite !RB in MIN. cbn [opposite] in MIN. apply Rmult_le_reg_r in MIN; [|apply Rinv_0_lt_compat; nra].
    assert (0 <= b 0%nat * b 0%nat) by apply Rle_0_sqr. assert (b 0%nat * b 0%nat <= 0) by nra. assert (Z : b 0%nat * b 0%nat = 0) by lra. apply Rmult_integral in Z. tauto. }
  fold d in G0, G1, SS. assert (S0 : sum_sq 2 (a_rho a) 0 = 2 / (1 - q0)) by (rewrite SS, <- opposite_form; unfold two_form; rewrite !RB, B0; field; nra).
  rewrite !RB, B0 in G0, G1. cbn [opposite] in G0, G1.
  destruct EV as (e & E & ET & ER & EA & TT). { intros j Hj. replace j with 0%nat by lia. rewrite S0. apply Rgt_not_eq. apply Rdiv_lt_0_compat; lra. }
  destruct (TT 0%nat) as (T0 & V0). rewrite S0 in T0. cbn [coefficients_of constant_trend Nat.sub INR] in T0.
  assert (TV : total e 0 = 2 / (1 - q0)) by (rewrite T0; field; lra). clear T0.
  assert (TP : 2 <= total e 0). { rewrite TV. apply (Rmult_le_reg_r (1 - q0)); [lra|]. unfold Rdiv. rewrite Rmult_assoc, Rinv_l by lra. lra. }
  assert (NV : ll e 0 < 0) by (rewrite V0; apply two_value_neg; lra).
  assert (LG : exists g, likelihood_and_gradient Noiseless 0 d [1] = Value (ll e 0, g) /\ gradient solve_upper cho_solve Noiseless d e [1] = Some g).
  { unfold Model_Likelihood.likelihood_and_gradient. fold d in E. rewrite E. cbn [accept d targets two seq existsb]. destruct (Rlt_dec 0 (ll e 0)); [lra|]. cbn [orb].
    destruct (gradient solve_upper cho_solve Noiseless d e [1]) as [g|] eqn:G; [|cbn in G; discriminate]. exists g. rewrite sumn_1. auto. }
  destruct LG as (g & LG & EG). exists d, [1], (ll e 0), g.
  assert (HK : smooth (kern d)) by (now left). split; [exact HK|]. split; [apply two_rectangular|]. split; [exact constant_proper|]. split; [reflexivity|]. split; [reflexivity|]. split; [repeat constructor; lra|].
  split; [exact LG|]. split; [exact NV|].
  assert (D := noiseless_theta _ _ _ _ _ _ LP d constant_proper 0 1%nat HK (two_rectangular _ _ _) [1] e 0%nat eq_refl ltac:(repeat constructor; lra) ltac:(lia) E ltac:(intros j Hj; cbn in Hj; replace j with 0%nat by lia; exact NV)).
  split; [match type of D with derivative_along _ _ _ _ _ _ _ _ _ ?z => exists [z] end; apply gradient_along; split; [reflexivity|]; intros c Hc; cbn in Hc; replace c with 0%nat by lia; exact D|].
  intros HG. apply gradient_along in HG as (_ & HG). specialize (HG 0%nat ltac:(cbn; lia)). pose proof (along_unique _ _ _ _ _ _ _ _ _ _ _ D HG) as U. clear HG D.
  rewrite (gradient_noiseless _ _ d HK) in EG. rewrite ET in EG. inversion EG as [Eg]. rewrite <- Eg in U. cbn [length seq map nth d targets two X coefficients_of mean constant_trend Nat.sub] in U. rewrite !sumn_1 in U.
  rewrite !upper_two, !sumn_1 in U. assert (HM' : is_two (R0 e) q0) by (rewrite ER; exact HM). destruct (two_slice 1 opposite constant_trend e ET HM') as (S1 & S2 & S3 & S4). fold d in S1, S2, S3, S4.
  rewrite form_two, trace_two in U by auto. rewrite S1, S2, EA, R01, R10 in U. rewrite G0, G1, TV in U. cbn [INR] in U.
  assert (DQ : 1 - q0 * q0 <> 0) by nra. assert (DQ' : 1 - q0 <> 0) by lra.
  match type of U with ?l = ?r => assert (W : l - r = q0 / (2 * (1 - q0))) by (field; auto) end. rewrite U in W.
  assert (0 < q0 / (2 * (1 - q0))) by (apply Rdiv_lt_0_compat; lra). lra.
Qed.

(** ** C177: the gradient when the noise is known *)
Lemma trace_div n B s D : trace_of n (fun i l => B i l / s) D = trace_of n B D / s.
Proof. unfold trace_of, Rdiv. rewrite <- sumn_scal_r. apply sumn_ext. intros i Hi. rewrite <- sumn_scal_r. apply sumn_ext. intros; ring. Qed.
Lemma form_div n D g s : form n D (fun i => g i / s) = form n D g / s / s.
Proof. unfold form, Rdiv. rewrite <- !sumn_scal_r. apply sumn_ext. intros i Hi. rewrite <- !sumn_scal_r. apply sumn_ext. intros; ring. Qed.
(** Every target alone has a negative value. *)
Definition negative (m : mode) (noise : R) (d : data) (par : list R) : Prop :=
  forall j, (j < targets d)%nat -> exists w, log_likelihood m noise (single d j) par = Value w /\ w < 0.
(** Any number of targets: the entry of the variance is the derivative; the entry of each parameter of the correlation is the derivative
    times (s + noise) / s, where s is the variance. *)
Theorem C177_scaled_partial noise d nf par v g : smooth (kern d) -> rectangular (X d) nf -> proper (length (X d)) (mean d) ->
  length par = Datatypes.S nf -> positive par -> 0 <= noise ->
  likelihood_and_gradient Noisy noise d par = Value (v, g) -> negative Noisy noise d par ->
  length g = length par /\
  has_gradient (fun p => finite (log_likelihood Noisy noise d p)) par (map (fun a => last par 0 / (last par 0 + noise) * a) (firstn nf g) ++ [last g 0]).
Proof.
  intros HK HX PR LN PP HN H NG. destruct (par_split par nf LN) as (EP & LT). set (th := removelast par) in *. set (s := last par 0) in *. rewrite EP in *. clearbody th s. clear EP par.
  assert (PT : positive th /\ 0 < s). { unfold positive in *. apply Forall_app in PP as (P1 & P2). split; auto. now inversion P2. } destruct PT as (PT & Ps).
  destruct (split_value _ _ _ _ _ _ d noise _ _ _ _ H) as (e & E & Hv & G & _).
  assert (NEG : forall j, (j < targets d)%nat -> ll e j < 0) by (intros j Hj; destruct (NG j Hj) as (w & Hw & W); rewrite <- (single_ll _ _ _ _ d noise _ _ e j w E Hw); auto).
  rewrite (gradient_noisy _ _ d HK) in G. destruct (eval_fields _ _ _ _ _ _ LP d PR noise _ _ _ E) as (_ & _ & A & _ & _ & _ & _ & TE). rewrite last_last in TE.
  assert (Eg := f_equal (fun o => match o with Some x => x | None => [] end) G). cbv beta iota in Eg. clear G. rewrite LN in Eg. rewrite seq_S, map_app in Eg. cbn [map] in Eg. rewrite Nat.add_0_l in Eg.
  rewrite (TE 0%nat) in Eg. set (gt := map _ (seq 0 nf)) in Eg.
  assert (LG : length gt = nf) by (unfold gt; now rewrite map_length, seq_length).
  split; [rewrite <- Eg, LN, app_length, LG; cbn [length]; lia|]. rewrite <- Eg, last_last. rewrite firstn_app, LG, Nat.sub_diag. cbn [firstn]. rewrite app_nil_r. rewrite <- LG at 1. rewrite firstn_all.
  apply gradient_along. split; [rewrite !app_length, map_length, LG, LT; reflexivity|].
  intros c Hc. rewrite LN in Hc. destruct (Nat.lt_ge_cases c nf) as [L|L].
  - rewrite app_nth1 by (rewrite map_length; lia). rewrite (nth_indep _ 0 (s / (s + noise) * 0)) by (rewrite map_length; lia). rewrite (map_nth (fun a => s / (s + noise) * a)).
    unfold gt. rewrite nth_map_seq by auto.
    assert (D := noisy_theta _ _ _ _ _ _ LP d PR noise nf HK HX th s e c LT PT L ltac:(lra) E NEG).
    match type of D with derivative_along _ _ _ _ _ _ _ _ _ ?a => match goal with |- derivative_along _ _ _ _ _ _ _ _ _ ?b => replace b with a; [exact D|] end end.
    rewrite <- sumn_scal. apply sumn_ext. intros j Hj. cbv zeta.
    destruct (X d) as [|x0 Xs] eqn:EX; [cbn; unfold trace_of, form; cbn; unfold Rdiv; ring|]. cbn [nth].
    assert (NF : length x0 = nf) by (unfold rectangular in HX; rewrite Forall_forall in HX; apply HX; left; auto). rewrite NF. destruct (Nat.ltb_spec c nf); [|lia].
    rewrite trace_div, form_div, trace_scal, form_scal. change (fun i l : nat => grad_slice d e c i l) with (grad_slice d e c). field. lra.
  - rewrite app_nth2 by (rewrite map_length; lia). rewrite map_length, LG. replace (c - nf)%nat with 0%nat by lia. cbn [nth]. replace c with nf by lia.
    assert (D := noisy_sigma _ _ _ _ _ _ LP d PR noise nf th s e LT ltac:(lra) E NEG).
    match type of D with derivative_along _ _ _ _ _ _ _ _ _ ?a => match goal with |- derivative_along _ _ _ _ _ _ _ _ _ ?b => replace b with a; [exact D|] end end.
    apply sumn_ext. intros j Hj. cbv zeta.
    destruct (X d) as [|x0 Xs] eqn:EX; [cbn; unfold trace_of, form; cbn; unfold Rdiv; ring|]. cbn [nth].
    assert (NF : length x0 = nf) by (unfold rectangular in HX; rewrite Forall_forall in HX; apply HX; left; auto). rewrite NF, Nat.ltb_irrefl.
    rewrite trace_div, form_div. field. lra.
Qed.
(** Without noise both agree. *)
Theorem C177_zero_noise d nf par v g : smooth (kern d) -> rectangular (X d) nf -> proper (length (X d)) (mean d) ->
  length par = Datatypes.S nf -> positive par ->
  likelihood_and_gradient Noisy 0 d par = Value (v, g) -> negative Noisy 0 d par ->
  has_gradient (fun p => finite (log_likelihood Noisy 0 d p)) par g.
Proof.
  intros HK HX PR LN PP H NG. destruct (C177_scaled_partial 0 d nf par v g HK HX PR LN PP (Rle_refl 0) H NG) as (LG & G).
  assert (LP' : 0 < last par 0). { destruct (par_split par nf LN) as (EP & _). rewrite EP in PP. apply Forall_app in PP as (_ & P2). now inversion P2. }
  assert (EG : g = map (fun a => last par 0 / (last par 0 + 0) * a) (firstn nf g) ++ [last g 0]); [|now rewrite EG].
  rewrite LN in LG. destruct (par_split g nf LG) as (Eg & Lg). rewrite Eg at 2. rewrite firstn_app, Lg, Nat.sub_diag. cbn [firstn]. rewrite app_nil_r. rewrite <- Lg at 1. rewrite firstn_all. rewrite Eg at 1. f_equal.
  rewrite <- (map_id (removelast g)) at 1. apply map_ext. intros a. field. lra.
Qed.
End Likelihood.
Print Assumptions C174_noise_estimated.
Print Assumptions C174_noiseless_known_trend.
Print Assumptions C174_noisy.
Print Assumptions C175_noise_estimated.
Print Assumptions C176_noiseless_known_trend_partial.
Print Assumptions C176_estimated_trend_refuted.
Print Assumptions C177_scaled_partial.
Print Assumptions C177_zero_noise.
