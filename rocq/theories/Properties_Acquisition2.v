(** Further properties of the acquisition functions: constructors, sign, expectations and what the
    optimizers pass to them (C59, C118 to C126). *)
From Coq Require Import Reals List Bool Lra Lia Psatz.
From Coquelicot Require Import Coquelicot.
From Verif Require Import Lib_Normal Model_Acquisition Properties_Acquisition.
Import ListNotations.
Open Scope R_scope.

(** C59: PI cannot be constructed, whatever is passed: it asks EpsilonPI for an epsilon of zero,
    which the setter rejects. *)
Theorem C59_pi_refuted :
  forall minimize s k, (forall y, s_y s = Some y -> y <> []) -> exists e, construct PI minimize s k = Err e.
Proof.
  intros mi s k H. cbn. unfold new_EpsilonPI. cbn. destruct (unexpected (k_alpha k) || unexpected (k_t k)); [eauto|].
  destruct (set_plugin mi s (k_plugin k)) as [p|e] eqn:E; cbn; [|eauto]. unfold set_positive. destruct (rltb_spec 0 0); [lra|]. cbn. eauto.
Qed.
Print Assumptions C59_pi_refuted.
(** The other four classes can be constructed with their defaults on every surrogate that has
    observations or no record of them. *)
Theorem C59_defaults_partial :
  forall c minimize s, (forall y, s_y s = Some y -> y <> []) -> c <> PI -> exists a, construct c minimize s no_kwargs = Ok a.
Proof.
  intros c mi s H N. assert (P : exists p, set_plugin mi s None = Ok p). { unfold set_plugin. destruct (s_y s) as [[|a l]|]; eauto. now destruct (H [] eq_refl). }
  destruct P as [p P]. destruct c; try (now destruct N); cbn; unfold new_EpsilonPI; cbn; rewrite ?P; cbn; unfold set_positive, MGFI_set_t; try (destruct (rltb_spec 0 (/ 2)); [|lra]); try (destruct (rltb_spec 0 (/ 10000000000)); [|lra]); try (destruct (rltb_spec 0 1); [|lra]); cbn; unfold set_plugin in P; rewrite ?P; cbn; eauto.
Qed.
Print Assumptions C59_defaults_partial.
(** A parameter is accepted exactly when it is positive, and is then the one used (MGFI's up to
    its bound). *)
Theorem C59_parameters_checked :
  forall minimize s v p, set_plugin minimize s None = Ok p ->
    construct UCB minimize s (Kwargs (Some v) None None None) = (if rltb 0 v then Ok (AUCB v) else Err AssertionError) /\
    construct EpsilonPI minimize s (Kwargs None (Some v) None None) = (if rltb 0 v then Ok (AEpsilonPI v p) else Err AssertionError) /\
    construct MGFI minimize s (Kwargs None None (Some v) None) = (if rltb 0 v then Ok (AMGFI (Rmin v (2236 / 100)) p) else Err AssertionError).
Proof.
  intros mi s v p E. cbn. unfold new_EpsilonPI. cbn. unfold set_plugin in E. rewrite E. cbn. unfold set_positive, MGFI_set_t. destruct (rltb 0 v); cbn; auto.
Qed.
Print Assumptions C59_parameters_checked.
Example C59_nonvacuous : (forall y, s_y line = Some y -> y <> []) /\ set_plugin true line None = Ok (Some 3).
Proof. split; [|reflexivity]. intros y H. injection H as <-. discriminate. Qed.

(** C118: values of EI, epsilon-PI and MGFI are never negative, and those of epsilon-PI are
    probabilities. *)
Theorem C118_values_nonneg :
  forall exp_max a minimize s x v, (forall al, a <> AUCB al) -> value exp_max a minimize s x = Some v ->
    0 <= v /\ ((exists e p, a = AEpsilonPI e p) -> v <= 1).
Proof.
  intros em a mi s x v N V. pose proof (sqrt_pos (snd (s_predict s x))) as SP. fold (deviation s x) in SP.
  destruct a as [al|p|e p|t p]; [now destruct (N al)| | |]; cbn [value] in V.
  - split; [|intros (? & ? & [=])]. unfold EI_value in V. rewrite predict_eq in V. destruct (EI_small s (deviation s x)); [injection V as <-; lra|]. destruct p as [p|]; [|injection V as <-; lra].
    unfold EI_formula in V. destruct (reqb_spec (deviation s x) 0) as [Z|Z].
    + destruct (rltb_spec 0 (p - mean mi s x)); [injection V as <-; lra|]. destruct (rltb_spec (p - mean mi s x) 0); [injection V as <-; lra|discriminate].
    + injection V as <-. rewrite EI_psi by lra. apply Rmult_le_pos; auto. apply psi_nonneg.
  - assert (0 <= v <= 1); [|split; [lra|intros; lra]]. unfold PI_value in V. rewrite predict_eq in V. destruct p as [p|]; [|injection V as <-; lra].
    unfold PI_formula in V. set (q := p - _) in V. clearbody q. destruct (reqb_spec (deviation s x) 0) as [Z|Z].
    + destruct (rltb_spec 0 q); [injection V as <-; lra|]. destruct (rltb_spec q 0); [injection V as <-; lra|discriminate].
    + injection V as <-. pose proof (cdf_bounds (q / deviation s x)). lra.
  - split; [|intros (? & ? & [=])]. injection V as <-. unfold MGFI_value. rewrite predict_eq. destruct (MGFI_small (deviation s x)); [lra|]. destruct p as [p|]; [|lra]. unfold MGFI_formula.
    match goal with |- context [rltb ?a ?b] => destruct (rltb a b) end; [lra|]. apply Rmult_le_pos; [left; apply cdf_bounds|left; apply exp_pos].
Qed.
Print Assumptions C118_values_nonneg.
Example C118_nonvacuous : exists v, value 700 (AEI (Some 3)) true line [1] = Some v /\ 0 < v.
Proof. destruct C58_nonvacuous as (_ & _ & _ & v & v' & A & B & L). exists v. split; auto. destruct (C118_values_nonneg 700 (AEI (Some 3)) true line [2] v') as [X _]; auto; [discriminate|lra]. Qed.

(** ** Uncertainty *)
Lemma cdf_sym z : cdf (- z) = 1 - cdf z.
Proof.
  enough (E : cdf (- z) + cdf z = cdf (- 0) + cdf 0) by (rewrite Ropp_0, cdf_zero in E; lra).
  apply (const_derive (fun z => cdf (- z) + cdf z)). intros u. evar_last.
  - apply (is_derive_plus (fun z => cdf (- z)) cdf); [|apply cdf_derive]. apply (is_derive_comp cdf Ropp); [apply cdf_derive|]. instantiate (1 := -1). auto_derive; auto; lra.
  - unfold plus, scal; cbn; unfold mult; cbn. unfold pdf, gauss. replace (- u * - u) with (u * u) by ring. ring.
Qed.
Lemma psi_ge z : z <= psi z.
Proof.
  pose proof (psi_nonneg (- z)) as H. unfold psi in *. rewrite cdf_sym in H. assert (E : pdf (- z) = pdf z) by (unfold pdf, gauss; now replace (- z * - z) with (z * z) by ring). rewrite E in H. lra.
Qed.
Lemma ei_sd a u v : 0 < u <= v -> u * psi (a / u) <= v * psi (a / v).
Proof.
  intros [Hu [Hv| ->]]; [|lra]. destruct (MVT_gen (fun w => w * psi (a / w)) u v (fun w => pdf (a / w))) as (c & Hc & E).
  - intros w Hw. rewrite Rmin_left in Hw by lra. evar_last.
    + apply (is_derive_mult (fun w => w) (fun w => psi (a / w))); [apply (is_derive_id (K := R_AbsRing))| |intros; apply Rmult_comm].
      apply (is_derive_comp psi (fun w => a / w)); [apply psi_derive|]. instantiate (1 := - a / (w * w)). auto_derive; [lra|]. field. lra.
    + unfold plus, mult, scal, one; cbn; unfold mult; cbn. unfold psi. field. lra.
  - intros w Hw. rewrite Rmin_left in Hw by lra. apply derivable_continuous_pt. apply ex_derive_Reals_0.
    eexists. apply (is_derive_mult (fun w => w) (fun w => psi (a / w))); [apply (is_derive_id (K := R_AbsRing))| |intros; apply Rmult_comm].
    apply (is_derive_comp psi (fun w => a / w)); [apply psi_derive|]. instantiate (1 := - a / (w * w)). auto_derive; [lra|]. field. lra.
  - cbv beta in E. pose proof (pdf_pos (a / c)). nra.
Qed.

(** C119: among two points with the same predicted mean EI never prefers the one that the surrogate
    is more certain about, cut-off included. *)
Theorem C119_ei_prefers_uncertainty :
  forall exp_max minimize s x x' p v v',
    fst (s_predict s x) = fst (s_predict s x') -> snd (s_predict s x) <= snd (s_predict s x') ->
    value exp_max (AEI p) minimize s x = Some v -> value exp_max (AEI p) minimize s x' = Some v' -> v <= v'.
Proof.
  intros em mi s x x' p v v' EM L V V'. assert (M : mean mi s x = mean mi s x') by (unfold mean; now rewrite EM).
  assert (D : deviation s x <= deviation s x') by (unfold deviation; now apply sqrt_le_1_alt).
  pose proof (sqrt_pos (snd (s_predict s x))) as SP. fold (deviation s x) in SP.
  destruct (C118_values_nonneg em (AEI p) mi s x' v' ltac:(discriminate) V') as [NN _].
  cbn [value] in V, V'. unfold EI_value in V, V'. rewrite predict_eq in V, V'. rewrite M in V.
  assert (Sm : EI_small s (deviation s x') = true -> EI_small s (deviation s x) = true).
  { unfold EI_small. destruct (s_sigma2 s) as [q|].
    - destruct (reqb_spec (sqrt q) 0) as [|Q]; auto. assert (0 < sqrt q) by (pose proof (sqrt_pos q); lra). intros X. destruct (rltb_spec (deviation s x' / sqrt q) (/ 1000000)) as [A|]; [|discriminate]. pose proof (div_le _ _ _ H D). destruct (rltb_spec (deviation s x / sqrt q) (/ 1000000)); auto; lra.
    - intros X. destruct (rltb_spec (deviation s x') (/ 10000000000)); [|discriminate]. destruct (rltb_spec (deviation s x) (/ 10000000000)); auto; lra. }
  destruct (EI_small s (deviation s x)); [injection V as <-; exact NN|]. destruct (EI_small s (deviation s x')); [discriminate (Sm eq_refl)|].
  destruct p as [p|]; [|assert (v = v') by congruence; lra]. unfold EI_formula in V, V'. set (m := mean mi s x') in *. clearbody m.
  destruct (reqb_spec (deviation s x) 0) as [Z|Z].
  - destruct (reqb_spec (deviation s x') 0) as [Z'|Z']; [assert (v = v') by congruence; lra|]. destruct (rltb_spec 0 (p - m)).
    + injection V as <-. injection V' as <-. assert (P' : 0 < deviation s x') by lra. rewrite EI_psi by auto. pose proof (psi_ge ((p - m) / deviation s x')) as G. apply (Rmult_le_compat_l (deviation s x')) in G; [|lra].
      replace (deviation s x' * ((p - m) / deviation s x')) with (p - m) in G by (field; lra). lra.
    + destruct (rltb_spec (p - m) 0); [injection V as <-; exact NN|discriminate].
  - destruct (reqb_spec (deviation s x') 0) as [Z'|Z']; [lra|]. injection V as <-. injection V' as <-. rewrite !EI_psi by lra. apply ei_sd. lra.
Qed.
Print Assumptions C119_ei_prefers_uncertainty.
Definition widening : surrogate := Surrogate (fun z => (0, nth 0 z 0 * nth 0 z 0)) (fun _ => ([0], [0])) None None.
Example C119_nonvacuous : snd (s_predict widening [1]) <= snd (s_predict widening [2]) /\
  exists v v', value 700 (AEI (Some 0)) true widening [1] = Some v /\ value 700 (AEI (Some 0)) true widening [2] = Some v' /\ v <= v'.
Proof.
  assert (L : snd (s_predict widening [1]) <= snd (s_predict widening [2])) by (cbn; lra). split; auto.
  assert (V : forall u, 0 < u -> 1 <= u -> exists v, value 700 (AEI (Some 0)) true widening [u] = Some v).
  { intros u Hu Hu1. cbn [value]. unfold EI_value. rewrite predict_eq. assert (D : deviation widening [u] = u) by (unfold deviation; cbn; apply sqrt_square; lra). rewrite D, EI_small_above by (unfold EI_cutoff; cbn; lra).
    unfold EI_formula. destruct (reqb_spec u 0); [lra|]. eauto. }
  destruct (V 1) as [v Hv]; try lra. destruct (V 2) as [v' Hv']; try lra. exists v, v'. split; auto. split; auto. exact (C119_ei_prefers_uncertainty 700 true widening [1] [2] (Some 0) v v' eq_refl L Hv Hv').
Qed.

(** ** The closed forms are expectations *)
(** The normal density with mean [m] and deviation [sd], and the integral of [f] up to [b]. *)
Definition density (m sd y : R) : R := pdf ((y - m) / sd) / sd.
Definition integral_to (f : R -> R) (b v : R) : Prop :=
  (forall a, ex_RInt f a b) /\ forall e, 0 < e -> exists M, forall a, a < M -> Rabs (RInt f a b - v) < e.
Lemma pdf_small e : 0 < e -> exists M, forall x, x < M -> pdf x < e.
Proof.
  intros He. exists (- (2 / e + 1)). intros x Hx. assert (0 < 2 / e) by (apply Rdiv_lt_0_compat; lra). pose proof (gauss_small x) as G. pose proof (gauss_pos x) as GP.
  assert (1 <= sqrt (2 * Rtrigo1.PI)). { rewrite <- sqrt_1 at 1. apply sqrt_le_1_alt. generalize PI2_3_2. unfold Rdiv. lra. }
  apply Rle_lt_trans with (gauss x).
  - unfold pdf, Rdiv. assert (/ sqrt (2 * Rtrigo1.PI) <= 1) by (rewrite <- Rinv_1; apply Rinv_le_contravar; lra). nra.
  - apply Rle_lt_trans with (1 := G). apply Rmult_lt_reg_r with (x * x + 2); [nra|]. unfold Rdiv at 1. rewrite Rmult_assoc, Rinv_l by nra. assert (2 / e * e = 2) by (field; lra). nra.
Qed.
Lemma integral_anti (F f : R -> R) b : (forall y, is_derive F y (f y)) -> (forall y, continuous f y) ->
  (forall e, 0 < e -> exists M, forall a, a < M -> Rabs (F a) < e) -> integral_to f b (F b).
Proof.
  intros D C L. split; [intros; apply (ex_RInt_continuous f); intros; apply C|]. intros e He. destruct (L e He) as [M HM]. exists M. intros a Ha.
  assert (E : RInt f a b = F b - F a). { apply is_RInt_unique. apply (is_RInt_derive F f); intros; [apply D|apply C]. }
  rewrite E. replace (F b - F a - F b) with (- F a) by ring. rewrite Rabs_Ropp. auto.
Qed.
Lemma lin_to m sd c : 0 < sd -> forall M, exists M', forall a, a < M' -> (a - m) / sd + c < M.
Proof.
  intros P M. exists (m + sd * (M - c)). intros a Ha. enough ((a - m) / sd < M - c) by lra. apply Rmult_lt_reg_r with sd; auto. unfold Rdiv. rewrite Rmult_assoc, Rinv_l by lra. lra.
Qed.
Lemma std_d m sd c y : 0 < sd -> is_derive (fun y => (y - m) / sd + c) y (/ sd).
Proof. intros. auto_derive; [lra|]. field. lra. Qed.
Lemma dens_cont (g : R -> R) m sd y : 0 < sd -> (exists d, is_derive g y d) -> continuous (fun y => g y * density m sd y) y.
Proof.
  intros P [d G]. apply ex_derive_continuous with (f := fun y => g y * density m sd y). eexists. apply (is_derive_mult g (density m sd)); [exact G| |intros; apply Rmult_comm].
  unfold density. apply is_derive_ext with (fun y => scal (/ sd) (pdf ((y - m) / sd + 0))); [intros; unfold scal; cbn; unfold mult; cbn; rewrite Rplus_0_r; unfold Rdiv; ring|].
  apply is_derive_scal. apply (is_derive_comp pdf (fun y => (y - m) / sd + 0)); [apply pdf_derive|now apply std_d].
Qed.
Lemma lim_comb A B m sd c : 0 < sd -> forall e, 0 < e -> exists M, forall a, a < M -> Rabs (A * cdf ((a - m) / sd + c) + B * pdf ((a - m) / sd + c)) < e.
Proof.
  intros P e He. set (K := Rabs A + Rabs B + 1). assert (0 < K) by (unfold K; pose proof (Rabs_pos A); pose proof (Rabs_pos B); lra).
  destruct (cdf_lim_minus (e / K)) as [M1 H1]; [apply Rdiv_lt_0_compat; lra|]. destruct (pdf_small (e / K)) as [M2 H2]; [apply Rdiv_lt_0_compat; lra|].
  destruct (lin_to m sd c P (Rmin M1 M2)) as [M' HM]. exists M'. intros a Ha. specialize (HM a Ha). set (z := (a - m) / sd + c) in *.
  pose proof (Rmin_l M1 M2). pose proof (Rmin_r M1 M2). specialize (H1 z ltac:(lra)). specialize (H2 z ltac:(lra)). pose proof (cdf_bounds z). pose proof (pdf_pos z).
  eapply Rle_lt_trans; [apply Rabs_triang|]. rewrite !Rabs_mult, (Rabs_right (cdf z)), (Rabs_right (pdf z)) by lra. pose proof (Rabs_pos A). pose proof (Rabs_pos B).
  assert (K * (e / K) = e) by (field; lra). set (q := e / K) in *. unfold K in *. nra.
Qed.

(** C120: above the cut-offs EI is the expected improvement, epsilon-PI the probability of a value
    below the plugin plus epsilon times the size of the prediction, and MGFI the expectation of
    [exp (t (plugin - y - 1))] over the improving values [y], all for a normally distributed value
    with the predicted mean and deviation. *)
Theorem C120_values_are_expectations :
  forall exp_max minimize s x p, let m := mean minimize s x in let sd := deviation s x in 0 < sd ->
    (EI_cutoff s <= sd ->
       exists v, value exp_max (AEI (Some p)) minimize s x = Some v /\ integral_to (fun y => (p - y) * density m sd y) p v) /\
    (forall eps, exists v, value exp_max (AEpsilonPI eps (Some p)) minimize s x = Some v /\ integral_to (density m sd) (p + eps * Rabs m) v) /\
    (forall t, / 100000000 < sd -> MGFI_exponent t p m sd <= exp_max ->
       exists v, value exp_max (AMGFI t (Some p)) minimize s x = Some v /\ integral_to (fun y => exp (t * (p - y - 1)) * density m sd y) p v).
Proof.
  intros em mi s x p m sd P. split; [|split].
  - intros C. cbn [value]. unfold EI_value. rewrite predict_eq, EI_small_above by auto. unfold EI_formula. fold m sd. destruct (reqb_spec sd 0); [lra|]. eexists; split; [reflexivity|].
    set (F := fun y => (p - m) * cdf ((y - m) / sd + 0) + sd * pdf ((y - m) / sd + 0)). replace ((p - m) * cdf ((p - m) / sd) + sd * pdf ((p - m) / sd)) with (F p) by (unfold F; now rewrite Rplus_0_r).
    apply integral_anti.
    + intros y. unfold F. evar_last.
      * apply (is_derive_plus (fun y => (p - m) * cdf ((y - m) / sd + 0)) (fun y => sd * pdf ((y - m) / sd + 0))); apply is_derive_scal.
        -- apply (is_derive_comp cdf (fun y => (y - m) / sd + 0)); [apply cdf_derive|now apply std_d].
        -- apply (is_derive_comp pdf (fun y => (y - m) / sd + 0)); [apply pdf_derive|now apply std_d].
      * unfold density. rewrite Rplus_0_r. unfold plus, scal; cbn; unfold mult; cbn. set (q := pdf _). clearbody q. field. lra.
    + intros y. apply dens_cont; auto. eexists. instantiate (1 := -1). auto_derive; auto; lra.
    + now apply lim_comb.
  - intros eps. cbn [value]. unfold PI_value. rewrite predict_eq. unfold PI_formula. fold m sd. destruct (reqb_spec sd 0); [lra|]. eexists; split; [reflexivity|].
    set (F := fun y => 1 * cdf ((y - m) / sd + 0) + 0 * pdf ((y - m) / sd + 0)).
    replace (cdf ((p - PI_coef eps m * m) / sd)) with (F (p + eps * Rabs m)).
    2:{ unfold F. rewrite Rplus_0_r. rewrite Rmult_0_l, Rplus_0_r, Rmult_1_l. f_equal. f_equal. unfold PI_coef. destruct (rltb_spec 0 m); [rewrite Rabs_right by lra|rewrite Rabs_left1 by lra]; ring. }
    apply integral_anti.
    + intros y. unfold F. evar_last.
      * apply (is_derive_plus (fun y => 1 * cdf ((y - m) / sd + 0)) (fun y => 0 * pdf ((y - m) / sd + 0))); apply is_derive_scal.
        -- apply (is_derive_comp cdf (fun y => (y - m) / sd + 0)); [apply cdf_derive|now apply std_d].
        -- apply (is_derive_comp pdf (fun y => (y - m) / sd + 0)); [apply pdf_derive|now apply std_d].
      * unfold density. rewrite Rplus_0_r. unfold plus, scal; cbn; unfold mult; cbn. set (q := pdf _). clearbody q. field. lra.
    + intros y. apply continuous_ext with (fun y => 1 * density m sd y); [intros; apply Rmult_1_l|]. apply (dens_cont (fun _ => 1)); auto. eexists. apply (is_derive_const (V := R_NormedModule)).
    + now apply lim_comb.
  - intros t Sm Ov. cbn [value]. eexists; split; [reflexivity|]. unfold MGFI_value. rewrite predict_eq. fold m sd. assert (S' : MGFI_small sd = false) by (unfold MGFI_small; rewrite Rabs_right by lra; destruct (rleb_spec sd (/ 100000000)); auto; lra). rewrite S'.
    unfold MGFI_formula. fold (MGFI_exponent t p m sd). destruct (rltb_spec em (MGFI_exponent t p m sd)); [lra|].
    set (F := fun y => exp (MGFI_exponent t p m sd) * cdf ((y - m) / sd + t * sd) + 0 * pdf ((y - m) / sd + t * sd)).
    replace (cdf ((p - (m - t * (sd * sd))) / sd) * exp (MGFI_exponent t p m sd)) with (F p).
    2:{ unfold F. rewrite Rmult_0_l, Rplus_0_r, Rmult_comm. f_equal. f_equal. field. lra. }
    apply integral_anti.
    + intros y. unfold F. evar_last.
      * apply (is_derive_plus (fun y => exp (MGFI_exponent t p m sd) * cdf ((y - m) / sd + t * sd)) (fun y => 0 * pdf ((y - m) / sd + t * sd))); apply is_derive_scal.
        -- apply (is_derive_comp cdf (fun y => (y - m) / sd + t * sd)); [apply cdf_derive|now apply std_d].
        -- apply (is_derive_comp pdf (fun y => (y - m) / sd + t * sd)); [apply pdf_derive|now apply std_d].
      * unfold density. unfold plus, scal; cbn; unfold mult; cbn.
        assert (Q : exp (MGFI_exponent t p m sd) * gauss ((y - m) / sd + t * sd) = exp (t * (p - y - 1)) * gauss ((y - m) / sd)).
        { unfold gauss. rewrite <- !exp_plus. f_equal. unfold MGFI_exponent. field. lra. }
        unfold pdf. set (w := sqrt (2 * Rtrigo1.PI)) in *. assert (0 < w) by apply two_pi_pos. rewrite Rmult_0_l, Rplus_0_r.
        replace (exp (MGFI_exponent t p m sd) * (/ sd * (gauss ((y - m) / sd + t * sd) / w))) with (exp (MGFI_exponent t p m sd) * gauss ((y - m) / sd + t * sd) / (sd * w)) by (field; lra). rewrite Q. field. lra.
    + intros y. apply (dens_cont (fun y => exp (t * (p - y - 1)))); auto. eexists. auto_derive; auto. 
    + now apply lim_comb.
Qed.
Print Assumptions C120_values_are_expectations.
Example C120_nonvacuous : 0 < deviation line [1] /\ EI_cutoff line <= deviation line [1] /\ / 100000000 < deviation line [1] /\ MGFI_exponent 1 3 (mean true line [1]) (deviation line [1]) <= 700.
Proof. unfold deviation, EI_cutoff, MGFI_exponent, mean; cbn. rewrite sqrt_1. lra. Qed.
