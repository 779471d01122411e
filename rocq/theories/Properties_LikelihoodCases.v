(** * The likelihood that is maximised to fit a Gaussian process: several targets, the scale of the search, and the cases that differ *)
From Coq Require Import Reals List Arith Lia Lra Bool.
From Coquelicot Require Import Coquelicot.
From Verif Require Import Lib_Sum Lib_Chol Lib_GLS Lib_Lapack Model_Kernel Spec_Kernel Proofs_Kernel Properties_Kernel Model_Likelihood Spec_Likelihood Proofs_Likelihood Proofs_LikelihoodGrad Proofs_LikelihoodModes Proofs_LikelihoodParts Proofs_LikelihoodTwo Proofs_LikelihoodMax Proofs_LikelihoodCases Properties_Likelihood.
Import ListNotations.
Open Scope R_scope.

Section Likelihood.
(** Any linear algebra routines that satisfy their contracts. *)
Variable cholesky : nat -> matrix -> option matrix.
Variable qr : nat -> nat -> matrix -> matrix * matrix.
Variable solve_lower : nat -> matrix -> (nat -> R) -> nat -> R.
Variable solve_upper : nat -> matrix -> (nat -> R) -> nat -> R.
Variable cho_solve : nat -> matrix -> matrix -> matrix.
Variable matrix_rank : nat -> matrix -> nat.
Hypothesis LP : lapack cholesky qr solve_lower solve_upper cho_solve matrix_rank.
Notation log_likelihood := (log_likelihood cholesky qr solve_lower matrix_rank).
Notation likelihood_and_gradient := (likelihood_and_gradient cholesky qr solve_lower solve_upper cho_solve matrix_rank).
Notation objective := (objective cholesky qr solve_lower solve_upper cho_solve matrix_rank).
Notation evaluate := (evaluate cholesky qr solve_lower matrix_rank).


(** ** C177: with noise the entries of the correlation parameters are wrong *)
Definition nothing : matrix := fun _ _ => 0.
Definition zero_trend : trend := Known (fun _ => 0).
Lemma noisy_two : exists e v g, evaluate Noisy 1 (two 1 nothing zero_trend) [1; 1] = Value (Some e) /\ likelihood_and_gradient Noisy 1 (two 1 nothing zero_trend) [1; 1] = Value (v, g) /\
  v < 0 /\ v = ll e 0 /\ nth 0 g 0 < 0 /\ length g = 2%nat.
Proof.
  set (d := two 1 nothing zero_trend). pose proof q0_range as Q. destruct two_correlation as (M & EM & HM). set (A := fun i j => (1 * M i j + 1 * eye i j) / (1 + 1)).
  assert (HA : is_two A (q0 / 2)) by (destruct HM as (A0 & A1 & A2 & A3); unfold is_two, A; rewrite A0, A1, A2, A3; unfold eye; cbn; repeat split; field).
  destruct (two_aux _ _ _ _ _ _ LP d eq_refl I A (q0 / 2) ltac:(lra) HA) as (a & C & LD & R01 & R10 & G). destruct (G 0%nat) as (b & G0 & G1 & SS & _).
  assert (RZ : forall i, res d 0 b i = 0) by (intros; unfold d, zero_trend; rewrite known_zero_two; reflexivity). unfold two_form in SS. rewrite !RZ in G0, G1, SS.
  assert (S0 : sum_sq 2 (a_rho a) 0 = 0) by (rewrite SS; field; nra). clear SS.
  assert (E : evaluate Noisy 1 d [1; 1] = Value (Some (Evaluation (fun j => - (1 / 2) * (INR 2 * ln (2 * PI * (1 + 1)) + log_det 2 (a_L a) + sum_sq 2 (a_rho a) j / (1 + 1))) [1] M a (fun _ => 1 + 1)))).
  { unfold Model_Likelihood.evaluate. cbn [removelast last X kern d two length]. rewrite EM. change (Data [[0]; [1]] 1 nothing zero_trend SqExp) with d. fold A. rewrite C. reflexivity. }
  set (e := Evaluation _ _ _ _ _) in E. assert (NV : ll e 0 < 0).
  { cbn [ll e]. rewrite S0, LD. cbn [INR]. pose proof PI_3. assert (0 < 2 * ln (2 * PI * (1 + 1)) + ln (1 - q0 / 2 * (q0 / 2))); [|lra].
    assert (12 <= 2 * PI * (1 + 1)) by lra. assert (3 / 4 <= 1 - q0 / 2 * (q0 / 2)) by nra.
    assert (0 < ln (2 * PI * (1 + 1))) by (rewrite <- ln_1; apply ln_increasing; lra).
    assert (0 <= ln (2 * PI * (1 + 1)) + ln (1 - q0 / 2 * (q0 / 2))) by (rewrite <- ln_mult by lra; rewrite <- ln_1; left; apply ln_increasing; nra). lra. }
  assert (HK : smooth (kern d)) by (now left).
  exists e, (ll e 0). unfold Model_Likelihood.likelihood_and_gradient. rewrite E. cbn [accept d targets two seq existsb]. fold d. destruct (Rlt_dec 0 (ll e 0)); [lra|]. cbn [orb].
  rewrite (gradient_noisy _ _ d HK). eexists. split; [reflexivity|]. split; [rewrite sumn_1; reflexivity|]. split; [exact NV|]. split; [reflexivity|]. split; [|reflexivity].
  cbn [length seq map nth d targets two X Nat.ltb Nat.leb]. rewrite sumn_1. fold d. cbv zeta.
  assert (HM' : is_two (R0 e) q0) by exact HM. destruct (two_slice 1 nothing zero_trend e eq_refl HM') as (S1 & S2 & S3 & S4). fold d in S1, S2, S3, S4.
  rewrite trace_div, form_div, trace_scal, form_scal. change (fun i l : nat => grad_slice d e 0 i l) with (grad_slice d e 0). rewrite form_two, trace_two by auto. rewrite S1, S2. cbn [aux_of e total]. rewrite G0, R01, R10.
  assert (DQ : 0 < 1 - q0 / 2 * (q0 / 2)) by nra.
  match goal with |- ?x < 0 => replace x with (- (q0 * q0 / 2 / (1 - q0 / 2 * (q0 / 2)))) by (field; lra) end.
  assert (0 < q0 * q0 / 2 / (1 - q0 / 2 * (q0 / 2))) by (apply Rdiv_lt_0_compat; nra). lra.
Qed.
Theorem C177_refuted : exists d par v g, smooth (kern d) /\ rectangular (X d) 1 /\ proper (length (X d)) (mean d) /\ targets d = 1%nat /\ length par = 2%nat /\ positive par /\
  likelihood_and_gradient Noisy 1 d par = Value (v, g) /\ v < 0 /\
  (exists g', has_gradient (fun p => finite (log_likelihood Noisy 1 d p)) par g') /\
  ~ has_gradient (fun p => finite (log_likelihood Noisy 1 d p)) par g.
Proof.
  destruct noisy_two as (e & v & g & E & H & NV & EV & G0 & LG). set (d := two 1 nothing zero_trend) in *. exists d, [1; 1], v, g.
  assert (HK : smooth (kern d)) by (now left). split; [exact HK|]. split; [apply two_rectangular|]. split; [exact I|]. split; [reflexivity|]. split; [reflexivity|].
  assert (PP : positive [1; 1]) by (repeat constructor; lra). split; [exact PP|]. split; [exact H|]. split; [exact NV|].
  assert (NG : negative cholesky qr solve_lower matrix_rank Noisy 1 d [1; 1]).
  { intros j Hj. cbn in Hj. replace j with 0%nat by lia. exists v. split; auto. change (single d 0) with d. unfold Model_Likelihood.likelihood_and_gradient in H. unfold Model_Likelihood.log_likelihood. destruct (accept _ _); try discriminate. destruct (gradient _ _ _ _ _ _); [|discriminate]. congruence. }
  destruct (C177_scaled_partial _ _ _ _ _ _ LP 1 d 1 [1; 1] v g HK (two_rectangular _ _ _) I eq_refl PP ltac:(lra) H NG) as (_ & T).
  split; [eexists; exact T|]. intros HG. apply gradient_along in T as (_ & T). apply gradient_along in HG as (_ & HG).
  pose proof (along_unique _ _ _ _ _ _ _ _ _ _ _ (T 0%nat ltac:(cbn; lia)) (HG 0%nat ltac:(cbn; lia))) as U.
  destruct g as [|g0 [|g1 [|? ?]]]; try discriminate. cbn in U, G0. lra.
Qed.

(** ** C178: several targets *)
(** With estimated noise the entry of the noise is right for any number of targets. *)
Theorem C178_noise_entry_partial noise d nf par v g : smooth (kern d) -> rectangular (X d) nf -> proper (length (X d)) (mean d) ->
  length par = Datatypes.S nf ->
  likelihood_and_gradient NoiseEstim noise d par = Value (v, g) -> negative cholesky qr solve_lower matrix_rank NoiseEstim noise d par ->
  length g = length par /\
  exists h, is_derive h (nth nf par 0) (nth nf g 0) /\ locally (nth nf par 0) (fun t => finite (log_likelihood NoiseEstim noise d (set_coord par nf t)) = Some (h t)).
Proof.
  intros HK HX PR LN H NG. destruct (par_split par nf LN) as (EP & LT). set (th := removelast par) in *. set (al := last par 0) in *. rewrite EP in *. clearbody th al. clear EP par.
  destruct (split_value _ _ _ _ _ _ d noise _ _ _ _ H) as (e & E & Hv & G & _).
  assert (NEG : forall j, (j < targets d)%nat -> ll e j < 0) by (intros j Hj; destruct (NG j Hj) as (w & Hw & W); rewrite <- (single_ll _ _ _ _ d noise _ _ e j w E Hw); auto).
  rewrite (gradient_estim _ _ d HK) in G. destruct (eval_fields _ _ _ _ _ _ LP d PR noise _ _ _ E) as (ET & _). rewrite removelast_last in ET. rewrite ET, LT, last_last in G.
  assert (Eg := f_equal (fun o => match o with Some x => x | None => [] end) G). cbv beta iota in Eg. clear G.
  split; [rewrite <- Eg, !app_length, map_length, seq_length, LT; reflexivity|].
  assert (D := estim_alpha _ _ _ _ _ _ LP d PR noise nf th al e LT E NEG).
  match goal with |- exists h, is_derive h ?x ?b /\ _ => match type of D with derivative_along _ _ _ _ _ _ _ _ _ ?a => replace b with a; [exact D|] end end.
  rewrite <- Eg, app_nth2 by (rewrite map_length, seq_length; auto). rewrite map_length, seq_length, Nat.sub_diag. cbn [nth]. apply sumn_ext. intros j Hj. unfold Rdiv. ring.
Qed.

(** Two observations without noise and with the trend zero. *)
Definition g2 (r : nat -> R) (i : nat) : R := match i with 0%nat => (r 0%nat - q0 * r 1%nat) / (1 - q0 * q0) | _ => (r 1%nat - q0 * r 0%nat) / (1 - q0 * q0) end.
Lemma known_two T ys : (forall j, (j < T)%nat -> 1 / 2 <= two_form q0 (fun i => ys i j)) -> let d := two T ys zero_trend in
  exists e, evaluate Noiseless 0 d [1] = Value (Some e) /\
    (forall j, (j < T)%nat -> ll e j < 0 /\ ll e j = two_value (two_form q0 (fun i => ys i j) / 2)) /\
    likelihood_and_gradient Noiseless 0 d [1] = Value (sumn T (ll e), [sumn T (fun j => sumn T (fun j => g2 (fun i => ys i j) 0 * g2 (fun i => ys i j) 1) * - q0 / (two_form q0 (fun i => ys i j) / 2) - q0 * q0 / (1 - q0 * q0))]) /\
    derivative_along cholesky qr solve_lower matrix_rank d 0 Noiseless [1] 0
      (sumn T (fun j => g2 (fun i => ys i j) 0 * g2 (fun i => ys i j) 1 * - q0 / (two_form q0 (fun i => ys i j) / 2) - q0 * q0 / (1 - q0 * q0))).
Proof.
  intros HS d. pose proof q0_range as Q. destruct (two_noiseless _ _ _ _ _ _ LP T ys zero_trend I ltac:(cbn; lia)) as (a & M & HM & C & GA & R01 & R10 & _ & EV). fold d in C, GA, EV.
  assert (GJ : forall j, gam solve_upper d a j 0%nat = g2 (fun i => ys i j) 0 /\ gam solve_upper d a j 1%nat = g2 (fun i => ys i j) 1 /\ sum_sq 2 (a_rho a) j = two_form q0 (fun i => ys i j)).
  { intros j. destruct (GA j) as (b & G0 & G1 & SS & _). unfold two_form in SS |- *. assert (RB : forall i, res d j b i = ys i j) by (intros; unfold d, zero_trend; apply known_zero_two). rewrite !RB in G0, G1, SS. auto. }
  destruct EV as (e & E & ET & ER & EA & TT). { intros j Hj. rewrite (proj2 (proj2 (GJ j))). specialize (HS j Hj). lra. }
  assert (TV : forall j, total e j = two_form q0 (fun i => ys i j) / 2). { intros j. rewrite (proj1 (TT j)), (proj2 (proj2 (GJ j))). cbn. reflexivity. }
  assert (NV : forall j, (j < T)%nat -> ll e j < 0). { intros j Hj. rewrite (proj2 (TT j)). apply two_value_neg. rewrite TV. specialize (HS j Hj). lra. }
  assert (HK : smooth (kern d)) by (now left). assert (HM' : is_two (R0 e) q0) by (rewrite ER; exact HM).
  destruct (two_slice T ys zero_trend e ET HM') as (S1 & S2 & S3 & S4). fold d in S1, S2, S3, S4.
  exists e. split; [exact E|]. split; [intros j Hj; split; [auto|]; rewrite (proj2 (TT j)), TV; reflexivity|]. split.
  - unfold Model_Likelihood.likelihood_and_gradient. rewrite E. cbn [accept]. replace (existsb _ _) with false.
    + rewrite (gradient_noiseless _ _ d HK). rewrite ET. cbn [length seq map]. f_equal. f_equal. f_equal. change (targets d) with T. change (length (X d)) with 2%nat. apply sumn_ext. intros j Hj. rewrite !upper_two, S1, EA, R01, TV.
      rewrite (sumn_ext T (fun j0 => gam solve_upper d a j0 0%nat * gam solve_upper d a j0 1%nat) (fun j => g2 (fun i => ys i j) 0 * g2 (fun i => ys i j) 1)) by (intros k Hk; destruct (GJ k) as (-> & -> & _); reflexivity).
      assert (1 - q0 * q0 <> 0) by nra. specialize (HS j Hj). set (U := sumn _ _). clearbody U. field. lra.
    + symmetry. apply not_true_is_false. intros X. apply existsb_exists in X as (j & Hj & X). apply in_seq in Hj. cbn in Hj. specialize (NV j ltac:(lia)). destruct (Rlt_dec 0 (ll e j)); [lra|discriminate].
  - assert (D := noiseless_theta _ _ _ _ _ _ LP d I 0 1%nat HK (two_rectangular _ _ _) [1] e 0%nat eq_refl ltac:(repeat constructor; lra) ltac:(lia) E NV).
    match type of D with derivative_along _ _ _ _ _ _ _ _ _ ?a => match goal with |- derivative_along _ _ _ _ _ _ _ _ _ ?b => replace b with a; [exact D|] end end.
    cbn [targets d two]. apply sumn_ext. intros j Hj. change (length (X d)) with 2%nat. change (coefficients_of (mean d)) with 0%nat. cbn [Nat.sub INR]. rewrite form_two, trace_two by auto. fold d. rewrite S1, S2, EA, R01, R10, TV.
    destruct (GJ j) as (-> & -> & _). specialize (HS j Hj). assert (1 - q0 * q0 <> 0) by nra. field. lra.
Qed.
(** The entry of a correlation parameter mixes the targets. *)
Definition same : matrix := fun i _ => match i with 0%nat => 1 | _ => 0 end.
Theorem C178_refuted : exists d par v g, smooth (kern d) /\ rectangular (X d) 1 /\ targets d = 2%nat /\ mean d = Known (fun _ => 0) /\ length par = 1%nat /\ positive par /\
  likelihood_and_gradient Noiseless 0 d par = Value (v, g) /\ negative cholesky qr solve_lower matrix_rank Noiseless 0 d par /\
  (exists g', has_gradient (fun p => finite (log_likelihood Noiseless 0 d p)) par g') /\
  ~ has_gradient (fun p => finite (log_likelihood Noiseless 0 d p)) par g.
Proof.
  pose proof q0_range as Q. assert (SF : two_form q0 (fun i => same i 0%nat) = / (1 - q0 * q0)) by (unfold two_form, same; field; nra).
  assert (HS : forall T j, (j < T)%nat -> 1 / 2 <= two_form q0 (fun i => same i j)). { intros T j Hj. change (1 / 2 <= two_form q0 (fun i => same i 0%nat)). rewrite SF. assert (1 <= / (1 - q0 * q0)); [|lra]. rewrite <- Rinv_1 at 1. apply Rinv_le_contravar; nra. }
  destruct (known_two 2 same (HS 2%nat)) as (e & E & NV & H & D). set (d := two 2 same zero_trend) in *.
  eexists d, [1], _, _. split; [now left|]. split; [apply two_rectangular|]. split; [reflexivity|]. split; [reflexivity|]. split; [reflexivity|]. split; [repeat constructor; lra|].
  split; [exact H|]. split.
  { intros j Hj. change (single d j) with (two 1 same zero_trend). destruct (known_two 1 same (HS 1%nat)) as (e1 & E1 & NV1 & _). destruct (NV1 0%nat ltac:(lia)) as (N1 & _). exists (ll e1 0).
    unfold Model_Likelihood.log_likelihood. rewrite E1. cbn [accept targets two seq existsb]. destruct (Rlt_dec 0 (ll e1 0)); [lra|]. cbn [orb]. rewrite sumn_1. auto. }
  split; [match type of D with derivative_along _ _ _ _ _ _ _ _ _ ?z => exists [z] end; apply gradient_along; split; [reflexivity|]; intros c Hc; cbn in Hc; replace c with 0%nat by lia; exact D|].
  intros HG. apply gradient_along in HG as (_ & HG). specialize (HG 0%nat ltac:(cbn; lia)). pose proof (along_unique _ _ _ _ _ _ _ _ _ _ _ D HG) as U. clear HG D. cbn [nth] in U. rewrite !sumn_2 in U.
  change (fun i => same i 1%nat) with (fun i => same i 0%nat) in U. rewrite SF in U. unfold g2, same in U.
  assert (DQ : 1 - q0 * q0 <> 0) by nra.
  match type of U with ?l = ?r => assert (W : r - l = 4 * (q0 * q0) / (1 - q0 * q0)) by (field; auto) end. rewrite U in W.
  assert (0 < 4 * (q0 * q0) / (1 - q0 * q0)) by (apply Rdiv_lt_0_compat; nra). lra.
Qed.

(** ** C179: the search works on the logarithm of the parameters *)
Lemma map_set_coord (f : R -> R) x c t : (c < length x)%nat -> map f (set_coord x c t) = set_coord (map f x) c (f t).
Proof. intros H. unfold set_coord. rewrite map_app, firstn_map. cbn [map]. f_equal. f_equal. symmetry. apply (skipn_map f). Qed.
Lemma objective_value m noise d x : smooth (kern d) -> option_map fst (finite (objective m noise d x)) = option_map (fun v => -1 * v) (finite (log_likelihood m noise d (map (fun v => Rpower 10 v) x))).
Proof.
  intros HK. unfold Model_Likelihood.objective, Model_Likelihood.likelihood_and_gradient, Model_Likelihood.log_likelihood. destruct (accept _ _); auto.
  destruct (gradient _ _ _ _ _ _) eqn:G; auto. exfalso. revert G. unfold Model_Likelihood.gradient. destruct HK as [->|[->| ->]]; discriminate.
Qed.
Lemma chain_log10 (F : list R -> option R) x g : has_gradient F (map (fun v => Rpower 10 v) x) g ->
  has_gradient (fun z => option_map (fun v => -1 * v) (F (map (fun v => Rpower 10 v) z))) x (map (fun c => ln 10 * Rpower 10 (nth c x 0) * (-1 * nth c g 0)) (seq 0 (length x))).
Proof.
  intros (LG & G). rewrite map_length in LG, G. split; [now rewrite map_length, seq_length|]. intros c Hc. rewrite nth_map_seq by auto.
  destruct (G c Hc) as (h & Dh & Lh). assert (EN : nth c (map (fun v => Rpower 10 v) x) 0 = Rpower 10 (nth c x 0)) by (rewrite (nth_indep _ 0 (Rpower 10 0)) by (now rewrite map_length); apply (map_nth (fun v => Rpower 10 v))).
  rewrite EN in Dh, Lh. exists (fun t => -1 * h (Rpower 10 t)).
  assert (DP : is_derive (fun t => Rpower 10 t) (nth c x 0) (ln 10 * Rpower 10 (nth c x 0))) by (unfold Rpower; auto_derive; [exact I|ring]).
  split.
  - assert (DC := is_derive_comp h (fun t => Rpower 10 t) _ _ _ Dh DP). assert (DS := is_derive_scal _ _ (-1) _ DC). cbv beta in DS.
    replace (ln 10 * Rpower 10 (nth c x 0) * (-1 * nth c g 0)) with (-1 * (scal (ln 10 * Rpower 10 (nth c x 0)) (nth c g 0))) by (unfold scal; cbn; unfold mult; cbn; ring). exact DS.
  - assert (CT : continuous (fun t => Rpower 10 t) (nth c x 0)) by (apply (@ex_derive_continuous R_AbsRing R_NormedModule); eexists; exact DP).
    specialize (CT _ Lh). unfold filtermap in CT. revert CT. apply filter_imp. intros t Ft. rewrite map_set_coord by auto. rewrite Ft. reflexivity.
Qed.
(** The derivatives of the objective in the search variables: the reported entries times ln 10 and the parameter. *)
Definition in_log10 (x g : list R) : list R := map (fun c => ln 10 * Rpower 10 (nth c x 0) * nth c g 0) (seq 0 (length x)).
Lemma powers_positive x : positive (map (fun v => Rpower 10 v) x).
Proof. induction x; constructor; auto. apply exp_pos. Qed.
Lemma objective_inv m noise d x v g : objective m noise d x = Value (v, g) -> exists g', likelihood_and_gradient m noise d (map (fun v => Rpower 10 v) x) = Value (- v, g') /\ g = map (fun a => -1 * a) g'.
Proof. unfold Model_Likelihood.objective. destruct (likelihood_and_gradient _ _ _ _) as [| |(v' & g')]; try discriminate. intros E. inversion E. exists g'. split; auto. f_equal. f_equal. ring. Qed.
Lemma gradient_ext F F' x g : (forall z, F z = F' z) -> has_gradient F x g -> has_gradient F' x g.
Proof. intros HF (LG & G). split; auto. intros c Hc. destruct (G c Hc) as (h & D & L). exists h. split; auto. revert L. apply filter_imp. intros t. now rewrite HF. Qed.
Lemma log10_gradient m noise d x v g : smooth (kern d) -> objective m noise d x = Value (v, g) ->
  (forall g', likelihood_and_gradient m noise d (map (fun v => Rpower 10 v) x) = Value (- v, g') -> has_gradient (fun p => finite (log_likelihood m noise d p)) (map (fun v => Rpower 10 v) x) g') ->
  has_gradient (fun z => option_map fst (finite (objective m noise d z))) x (in_log10 x g).
Proof.
  intros HK H HG. destruct (objective_inv _ _ _ _ _ _ H) as (g' & Hg & ->). specialize (HG g' Hg). assert (LG := proj1 HG). rewrite map_length in LG. apply chain_log10 in HG.
  apply (gradient_ext (fun z => option_map (fun v => -1 * v) (finite (log_likelihood m noise d (map (fun v => Rpower 10 v) z))))); [intros; symmetry; now apply objective_value|].
  replace (in_log10 x (map (fun a => -1 * a) g')) with (map (fun c => ln 10 * Rpower 10 (nth c x 0) * (-1 * nth c g' 0)) (seq 0 (length x))); [exact HG|].
  unfold in_log10. apply map_ext_in. intros c Hc. apply in_seq in Hc. f_equal. rewrite (nth_indep (map _ g') 0 (-1 * 0)) by (rewrite map_length; lia). symmetry. apply (map_nth (fun a => -1 * a)).
Qed.
Theorem C179_noise_estimated_partial noise d nf x v g : smooth (kern d) -> rectangular (X d) nf -> proper (length (X d)) (mean d) -> targets d = 1%nat -> length x = Datatypes.S nf ->
  objective NoiseEstim noise d x = Value (v, g) -> 0 < v ->
  has_gradient (fun z => option_map fst (finite (objective NoiseEstim noise d z))) x (in_log10 x g).
Proof.
  intros HK HX PR HT LN H HV. apply (log10_gradient _ _ _ _ v); auto. intros g' Hg. apply (C175_noise_estimated _ _ _ _ _ _ LP noise d nf _ (- v)); auto; [now rewrite map_length| |lra].
  assert (PP := powers_positive x). assert (LM : length (map (fun v => Rpower 10 v) x) = Datatypes.S nf) by (now rewrite map_length). destruct (par_split _ _ LM) as (EP & _). rewrite EP in PP. now apply Forall_app in PP as (PP & _).
Qed.
Theorem C179_noiseless_known_trend_partial noise d nf x v g t : smooth (kern d) -> rectangular (X d) nf -> mean d = Known t -> targets d = 1%nat -> length x = nf ->
  objective Noiseless noise d x = Value (v, g) -> 0 < v ->
  has_gradient (fun z => option_map fst (finite (objective Noiseless noise d z))) x (in_log10 x g).
Proof.
  intros HK HX HM HT LN H HV. apply (log10_gradient _ _ _ _ v); auto. intros g' Hg. apply (C176_noiseless_known_trend_partial _ _ _ _ _ _ LP noise d nf _ (- v) g' t); auto; [now rewrite map_length|apply powers_positive|lra].
Qed.
(** The reported entries are not the derivatives in the search variables. *)
Lemma opposite_value : two_form q0 (fun i => opposite i 0%nat) / 2 = / (1 - q0).
Proof. rewrite opposite_form. pose proof q0_range. field. lra. Qed.
Lemma opposite_big j : (j < 1)%nat -> 1 / 2 <= two_form q0 (fun i => opposite i j).
Proof. intros Hj. change (1 / 2 <= two_form q0 (fun i => opposite i 0%nat)). pose proof q0_range. assert (H1 := opposite_value). assert (1 <= / (1 - q0)) by (rewrite <- Rinv_1 at 1; apply Rinv_le_contravar; lra). lra. Qed.
Lemma ln10 : 1 < ln 10.
Proof. rewrite <- (ln_exp 1). apply ln_increasing; [apply exp_pos|]. pose proof exp_le_3. lra. Qed.
Theorem C179_refuted : exists d x v g, smooth (kern d) /\ rectangular (X d) 1 /\ mean d = Known (fun _ => 0) /\ targets d = 1%nat /\ length x = 1%nat /\
  objective Noiseless 0 d x = Value (v, g) /\ 0 < v /\
  (exists g', has_gradient (fun z => option_map fst (finite (objective Noiseless 0 d z))) x g') /\
  ~ has_gradient (fun z => option_map fst (finite (objective Noiseless 0 d z))) x g.
Proof.
  pose proof q0_range as Q. destruct (known_two 1 opposite opposite_big) as (e & E & NV & H & D). set (d := two 1 opposite zero_trend) in *. destruct (NV 0%nat ltac:(lia)) as (N0 & _). rewrite !sumn_1 in H.
  assert (P0 : map (fun v => Rpower 10 v) [0] = [1]) by (cbn; now rewrite Rpower_O by lra).
  assert (HO : exists g, objective Noiseless 0 d [0] = Value (- ll e 0, [g]) /\ g <> 0).
  { unfold Model_Likelihood.objective. rewrite P0. fold d in H. rewrite H. eexists. split; [cbn [map]; f_equal; f_equal; ring|]. rewrite opposite_value. unfold g2, opposite.
    match goal with |- ?x <> 0 => replace x with (- (q0 / (1 - q0 * q0))) by (field; split; nra) end. assert (0 < q0 / (1 - q0 * q0)) by (apply Rdiv_lt_0_compat; nra). lra. }
  destruct HO as (g & HO & GN). assert (HK : smooth (kern d)) by (now left).
  assert (T := C179_noiseless_known_trend_partial 0 d 1 [0] _ _ (fun _ => 0) HK (two_rectangular _ _ _) eq_refl eq_refl eq_refl HO ltac:(lra)).
  exists d, [0], (- ll e 0), [g]. split; [exact HK|]. split; [apply two_rectangular|]. do 3 (split; [reflexivity|]). split; [exact HO|]. split; [lra|]. split; [eexists; exact T|].
  intros (_ & HG). destruct T as (_ & T). destruct (HG 0%nat ltac:(cbn; lia)) as (h & Dh & Lh). destruct (T 0%nat ltac:(cbn; lia)) as (h' & Dh' & Lh').
  assert (U : nth 0 [g] 0 = nth 0 (in_log10 [0] [g]) 0).
  { rewrite <- (is_derive_unique _ _ _ Dh), <- (is_derive_unique _ _ _ Dh'). apply Derive_ext_loc. generalize (filter_and _ _ Lh Lh'). apply filter_imp. intros t (Ea & Eb). congruence. }
  cbn in U. rewrite Rpower_O in U by lra. pose proof ln10 as L10. assert (Z : (ln 10 - 1) * g = 0) by lra. apply Rmult_integral in Z as [Z|Z]; lra.
Qed.

(** ** C180: without noise and with an estimated trend *)
(** The reported value of a target plus half the number of coefficients is the largest log density over the trend at the unbiased
    estimate of the variance; the reported value is at most the largest log density. *)
Theorem C180_estimated_trend_partial noise d par v : proper (length (X d)) (mean d) -> log_likelihood Noiseless noise d par = Value v ->
  let k := match mean d with Known _ => 0%nat | Estimated p _ => p end in
  exists K w s, correlation_matrix (kern d) par (X d) = Some K /\ v = sumn (targets d) w /\ (k < length (X d))%nat /\
    forall j, (j < targets d)%nat -> 0 < s j /\
      largest (fun u => exists b, gaussian_log_density (length (X d)) (fun i l => s j * K i l) (residuals d j b) u) (w j + INR k / 2) /\
      (exists u, largest (fun u => exists b s, 0 < s /\ gaussian_log_density (length (X d)) (fun i l => s * K i l) (residuals d j b) u) u /\ w j + INR k / 2 <= u).
Proof.
  intros PR H k. unfold Model_Likelihood.log_likelihood in H. destruct (accept _ _) as [| |e] eqn:HA; try discriminate. assert (HV : sumn (targets d) (ll e) = v) by congruence. clear H.
  destruct (evaluate Noiseless noise d par) as [| |[e'|]] eqn:E; try discriminate. cbn [accept] in HA. destruct (existsb _ _); [discriminate|]. inversion HA. subst e'. clear HA.
  unfold Model_Likelihood.evaluate in E. destruct (correlation_matrix (kern d) par (X d)) as [K|] eqn:EK; [|discriminate].
  assert (SA : symmetric (length (X d)) K) by (intros i j Hi Hj; apply (C62_correlation_matrix _ _ _ _ EK i j Hi Hj)).
  destruct (compute_aux_var _ _ _ d K) as [a|] eqn:C; [|discriminate]. rewrite (rank_k _ _ _ _ _ _ LP d PR K a SA C) in E. change (coefficients_of (mean d)) with k in E.
  exists K, (ll e), (fun j => sum_sq (length (X d)) (a_rho a) j / INR (length (X d) - k)). split; auto. split; auto.
  destruct (_ || _)%bool eqn:Z; [discriminate|]. apply orb_false_elim in Z as (Z0 & Z). apply Nat.eqb_neq in Z0. rewrite nonzero_some in Z. inversion E as [Ee]. cbn [ll].
  assert (KN : (k < length (X d))%nat) by lia. split; [exact KN|]. intros j Hj. set (n := length (X d)) in *.
  assert (NK : 0 < INR (n - k)) by (apply lt_0_INR; lia). assert (SN := Z j Hj).
  assert (S0 : sum_sq n (a_rho a) j <> 0) by (intros S0; apply SN; rewrite S0; unfold Rdiv; ring).
  assert (SP : 0 < sum_sq n (a_rho a) j) by (pose proof (sum_sq_nonneg d (a_rho a) j) as SG; fold n in SG; lra).
  assert (TP : 0 < sum_sq n (a_rho a) j / INR (n - k)) by (now apply Rdiv_lt_0_compat). split; [exact TP|].
  assert (B := best_trend _ _ _ _ _ _ LP d PR K a j _ TP SA C). fold n in B.
  assert (EQ : - (1 / 2) * (INR n * ln (2 * PI * (sum_sq n (a_rho a) j / INR (n - k))) + log_det n (a_L a) + INR n) + INR k / 2
    = - (1 / 2) * (INR n * ln (2 * PI * (sum_sq n (a_rho a) j / INR (n - k))) + log_det n (a_L a) + sum_sq n (a_rho a) j / (sum_sq n (a_rho a) j / INR (n - k)))).
  { replace (sum_sq n (a_rho a) j / (sum_sq n (a_rho a) j / INR (n - k))) with (INR n - INR k) by (rewrite minus_INR in * by lia; field; split; lra). field. }
  rewrite EQ. split; [exact B|]. eexists. split; [apply (best_both _ _ _ _ _ _ LP d PR K a j SA C S0)|].
  destruct (best_both _ _ _ _ _ _ LP d PR K a j SA C S0) as (_ & UB). apply UB. destruct B as ((b & Hb) & _). eauto.
Qed.
(** The value is not the largest log density. *)
Theorem C180_refuted : exists d par v K, smooth (kern d) /\ rectangular (X d) 1 /\ proper (length (X d)) (mean d) /\ targets d = 1%nat /\ positive par /\
  log_likelihood Noiseless 0 d par = Value v /\ correlation_matrix (kern d) par (X d) = Some K /\
  ~ largest (fun u => exists b s, 0 < s /\ gaussian_log_density (length (X d)) (fun i l => s * K i l) (residuals d 0 b) u) v.
Proof.
  pose proof q0_range as Q. set (d := two 1 opposite constant_trend).
  destruct (two_noiseless _ _ _ _ _ _ LP 1 opposite constant_trend constant_proper ltac:(cbn; lia)) as (a & M & HM & C & GA & _ & _ & _ & EV). fold d in C, GA, EV.
  destruct (GA 0%nat) as (b & _ & _ & SS & MIN).
  assert (RB : forall b i, res d 0 b i = opposite i 0%nat - b 0%nat) by (intros; unfold res, d; cbn [mean two constant_trend trend_values]; rewrite sumn_1; cbn; ring).
  assert (S2 : 2 / (1 - q0) <= sum_sq 2 (a_rho a) 0).
  { rewrite SS. rewrite <- opposite_form. unfold two_form. rewrite !RB. cbn [opposite]. unfold Rdiv. apply Rmult_le_compat_r; [left; apply Rinv_0_lt_compat; nra|]. assert (0 <= b 0%nat * b 0%nat) by apply Rle_0_sqr. nra. }
  assert (S1 : 2 <= sum_sq 2 (a_rho a) 0). { assert (2 <= 2 / (1 - q0)); [|lra]. apply (Rmult_le_reg_r (1 - q0)); [lra|]. unfold Rdiv. rewrite Rmult_assoc, Rinv_l by lra. lra. }
  destruct EV as (e & E & ET & ER & EA & TT). { intros j Hj. replace j with 0%nat by lia. lra. }
  destruct (TT 0%nat) as (T0 & V0). cbn [coefficients_of constant_trend Nat.sub INR] in T0.
  assert (TP : 2 <= total e 0) by (rewrite T0; lra). assert (NV : ll e 0 < 0) by (rewrite V0; apply two_value_neg; lra).
  assert (HL : log_likelihood Noiseless 0 d [1] = Value (ll e 0)). { unfold Model_Likelihood.log_likelihood. rewrite E. cbn [accept d targets two seq existsb]. destruct (Rlt_dec 0 (ll e 0)); [lra|]. cbn [orb]. now rewrite sumn_1. }
  destruct (C180_estimated_trend_partial 0 d [1] _ constant_proper HL) as (K & w & s & HK & HW & _ & LJ). destruct (LJ 0%nat ltac:(cbn; lia)) as (_ & _ & u & ((bb & ss & Hs & G) & _) & LE). cbn [targets d two] in HW. rewrite sumn_1 in HW. cbn in LE.
  exists d, [1], (ll e 0), K. split; [now left|]. split; [apply two_rectangular|]. split; [exact constant_proper|]. split; [reflexivity|]. split; [repeat constructor; lra|]. split; [exact HL|]. split; [exact HK|].
  intros (_ & UB). specialize (UB u (ex_intro _ bb (ex_intro _ ss (conj Hs G)))). lra.
Qed.

(** ** C181: a likelihood above one *)
Lemma density_ext n K r r' v : (forall i, r i = r' i) -> gaussian_log_density n K r v -> gaussian_log_density n K r' v.
Proof. intros H (L & w & F & E & V). exists L, w. split; auto. split; auto. intros i Hi. rewrite <- H. auto. Qed.
(** Data in a smaller unit: the largest log density is positive, and -inf is reported. *)
Definition small : matrix := fun i _ => match i with 0%nat => 1 / 100 | _ => - (1 / 100) end.
Theorem C181_refuted : exists d par w K, smooth (kern d) /\ rectangular (X d) 1 /\ mean d = Known (fun _ => 0) /\ targets d = 1%nat /\ positive par /\
  correlation_matrix (kern d) par (X d) = Some K /\
  largest (fun u => exists s, 0 < s /\ gaussian_log_density (length (X d)) (fun i l => s * K i l) (fun i => y d i 0%nat) u) w /\ 0 < w /\
  log_likelihood Noiseless 0 d par = MinusInf.
Proof.
  pose proof q0_range as Q. set (d := two 1 small zero_trend).
  destruct (two_noiseless _ _ _ _ _ _ LP 1 small zero_trend I ltac:(cbn; lia)) as (a & M & HM & C & GA & _ & _ & LD & EV). fold d in C, GA, EV.
  destruct (GA 0%nat) as (b & _ & _ & SS & _). assert (RB : forall i, res d 0 b i = small i 0%nat) by (intros; unfold d, zero_trend; apply known_zero_two).
  assert (S0 : sum_sq 2 (a_rho a) 0 = / (5000 * (1 - q0))) by (rewrite SS; unfold two_form; rewrite !RB; unfold small; field; nra).
  assert (SP : 0 < sum_sq 2 (a_rho a) 0) by (rewrite S0; apply Rinv_0_lt_compat; lra).
  destruct EV as (e & E & ET & ER & EA & TT). { intros j Hj. replace j with 0%nat by lia. lra. }
  destruct (TT 0%nat) as (T0 & V0). cbn [coefficients_of zero_trend Nat.sub INR] in T0.
  assert (TP : 0 < total e 0 <= 1 / 5000). { rewrite T0. split; [lra|]. rewrite S0. assert (/ (5000 * (1 - q0)) <= / 2500) by (apply Rinv_le_contravar; lra). lra. }
  assert (PV : 0 < ll e 0).
  { rewrite V0. unfold two_value. pose proof PI_RGT_0. pose proof PI_4. assert (A1 : 0 < 2 * PI * total e 0 < 1 / 3) by nra.
    assert (L1 : ln (2 * PI * total e 0) < - (1)). { rewrite <- (ln_exp (- (1))). apply ln_increasing; [lra|]. rewrite exp_Ropp. assert (/ 3 <= / exp 1) by (apply Rinv_le_contravar; [apply exp_pos|apply exp_le_3]). lra. }
    assert (L2 : ln (1 - q0 * q0) < 0) by (rewrite <- ln_1; apply ln_increasing; nra). lra. }
  destruct (correlation_matrix (kern d) [1] (X d)) as [K|] eqn:EK; [|unfold Model_Likelihood.evaluate in E; cbv zeta in E; rewrite EK in E; discriminate].
  assert (EM : K = M). { unfold Model_Likelihood.evaluate in E. rewrite EK in E. destruct (compute_aux_var _ _ _ d K); [|discriminate]. destruct (_ || _)%bool; [discriminate|]. injection E as E. rewrite <- E in ER. exact ER. } subst K.
  assert (SY : symmetric 2 M) by (exact (two_symmetric M q0 HM)).
  assert (B := best_both _ _ _ _ _ _ LP d I M a 0 SY C ltac:(change (length (X d)) with 2%nat; lra)).
  exists d, [1], (ll e 0), M. split; [now left|]. split; [apply two_rectangular|]. do 2 (split; [reflexivity|]). split; [repeat constructor; lra|]. split; [exact EK|]. split; [|split; [exact PV|]].
  - change (length (X d)) with 2%nat in *. rewrite V0. unfold two_value. rewrite T0, <- LD. destruct B as ((b0 & s0 & Hs & G) & UB).
    split; [exists s0; split; [exact Hs|]|].
    + cbn [INR] in G. revert G. apply density_ext. intros i. unfold d. cbn. ring.
    + intros u (s1 & Hs1 & G1). cbn [INR] in UB. apply UB. exists (fun _ => 0), s1. split; auto. revert G1. apply density_ext. intros i. unfold d. cbn. ring.
  - unfold Model_Likelihood.log_likelihood. rewrite E. cbn [accept d targets two seq existsb]. destruct (Rlt_dec 0 (ll e 0)); [reflexivity|lra].
Qed.
(** If the largest log density exists and is not positive for any target, it is reported. *)
Theorem C181_reported_partial noise d par K w t : mean d = Known t -> (0 < length (X d))%nat -> (0 < targets d)%nat -> correlation_matrix (kern d) par (X d) = Some K ->
  (forall j, (j < targets d)%nat -> w j <= 0 /\
    largest (fun u => exists s, 0 < s /\ gaussian_log_density (length (X d)) (fun i l => s * K i l) (fun i => y d i j - t i) u) (w j)) ->
  log_likelihood Noiseless noise d par = Value (sumn (targets d) w).
Proof.
  intros HM Hn HT EK HW. assert (PR : proper (length (X d)) (mean d)) by (rewrite HM; exact I). set (n := length (X d)) in *. assert (NP : 0 < INR n) by (now apply lt_0_INR).
  assert (SA : symmetric n K) by (intros i j Hi Hj; apply (C62_correlation_matrix _ _ _ _ EK i j Hi Hj)).
  destruct (HW 0%nat HT) as (_ & (s0 & Hs0 & L0 & w0 & F0 & _) & _).
  assert (FK : factor n K (fun i j => sqrt (/ s0) * L0 i j)).
  { destruct (factor_scale n _ L0 (/ s0) ltac:(now apply Rinv_0_lt_compat) F0) as (F1 & F2 & F3). split; [exact F1|]. split; [exact F2|]. intros i j Hi Hj. rewrite F3 by auto. field. lra. }
  assert (C : exists a, compute_aux_var cholesky qr solve_lower d K = Some a). { unfold compute_aux_var. fold n. destruct (cholesky n K) eqn:EL; [|exfalso; now apply (cholesky_found _ _ _ _ _ _ LP n K _ SA FK)]. destruct (mean d); eauto. }
  destruct C as (a & C).
  assert (ALL : forall j, (j < targets d)%nat -> sum_sq n (a_rho a) j <> 0 /\ w j = - (1 / 2) * (INR n * ln (2 * PI * (sum_sq n (a_rho a) j / INR n)) + log_det n (a_L a) + INR n)).
  { intros j Hj. destruct (HW j Hj) as (_ & (W1 & W2)).
    assert (S0 : sum_sq n (a_rho a) j <> 0).
    { intros S0. set (s := exp ((- 2 * (w j + 1) - log_det n (a_L a)) / INR n) / (2 * PI)). pose proof PI_RGT_0 as HP. assert (SP : 0 < s) by (apply Rdiv_lt_0_compat; [apply exp_pos|lra]).
      destruct (best_trend _ _ _ _ _ _ LP d PR K a j s SP SA C) as ((b & G) & _). rewrite HM in G. cbn [trend_values] in G. fold n in G. specialize (W2 _ (ex_intro _ s (conj SP G))). rewrite S0 in W2.
      replace (2 * PI * s) with (exp ((- 2 * (w j + 1) - log_det n (a_L a)) / INR n)) in W2 by (unfold s; field; lra). rewrite ln_exp in W2.
      replace (INR n * ((- 2 * (w j + 1) - log_det n (a_L a)) / INR n)) with (- 2 * (w j + 1) - log_det n (a_L a)) in W2 by (field; lra). unfold Rdiv in W2. rewrite Rmult_0_l in W2. lra. }
    split; [exact S0|]. destruct (best_both _ _ _ _ _ _ LP d PR K a j SA C S0) as ((b & s & Hs & B1) & B2). rewrite HM in B1, B2. cbn [trend_values] in B1, B2. apply Rle_antisym.
    - destruct W1 as (s1 & Hs1 & G1). apply B2. exists (fun _ => 0), s1. auto.
    - apply W2. exists s. auto. }
  unfold Model_Likelihood.log_likelihood, Model_Likelihood.evaluate. cbv zeta. rewrite EK, C. rewrite (rank_k _ _ _ _ _ _ LP d PR K a SA C). rewrite HM. cbn [coefficients_of]. rewrite Nat.sub_0_r. fold n.
  replace (_ || _)%bool with false.
  - cbn [accept ll]. replace (existsb _ _) with false.
    + f_equal. apply sumn_ext. intros j Hj. symmetry. apply ALL. auto.
    + symmetry. apply existsb_seq. intros j Hj. rewrite <- (proj2 (ALL j Hj)). destruct (Rlt_dec 0 (w j)); auto. destruct (HW j Hj). lra.
  - symmetry. apply orb_false_intro; [apply Nat.eqb_neq; lia|]. apply nonzero_some. intros j Hj Z. apply (proj1 (ALL j Hj)). unfold Rdiv in Z. apply Rmult_integral in Z as [Z|Z]; auto. pose proof (Rinv_0_lt_compat _ NP). lra.
Qed.
End Likelihood.
(** ** Cases that meet the hypotheses *)
(** The contracts of the linear algebra routines can be met. *)
Example contracts_met : lapack my_cholesky my_qr my_lower my_upper my_cho_solve my_rank.
Proof. exact lapack_exists. Qed.
(** Two observations (1 and -1) without noise: a negative value with a gradient (C174, C176, C179, C181). *)
Example noiseless_case : exists v g, likelihood_and_gradient my_cholesky my_qr my_lower my_upper my_cho_solve my_rank Noiseless 0 (two 1 opposite zero_trend) [1] = Value (v, [g]) /\ v < 0 /\ g <> 0.
Proof.
  pose proof q0_range as Q. destruct (known_two _ _ _ _ _ _ lapack_exists 1 opposite opposite_big) as (e & E & NV & H & _). destruct (NV 0%nat ltac:(lia)) as (N0 & _). rewrite !sumn_1 in H. rewrite opposite_value in H.
  do 2 eexists. split; [exact H|]. split; [exact N0|]. unfold g2, opposite.
  match goal with |- ?x <> 0 => replace x with (q0 / (1 - q0 * q0)) by (field; split; nra) end. assert (0 < q0 / (1 - q0 * q0)) by (apply Rdiv_lt_0_compat; nra). lra.
Qed.
(** An estimated trend (C180). *)
Example estimated_case : exists v, log_likelihood my_cholesky my_qr my_lower my_rank Noiseless 0 (two 1 opposite constant_trend) [1] = Value v /\ proper 2 constant_trend.
Proof.
  destruct (two_noiseless _ _ _ _ _ _ lapack_exists 1 opposite constant_trend constant_proper ltac:(cbn; lia)) as (a & M & HM & C & GA & _ & _ & _ & EV). pose proof q0_range as Q.
  destruct (GA 0%nat) as (b & _ & _ & SS & MIN). set (d := two 1 opposite constant_trend) in *.
  assert (RB : forall b i, res d 0 b i = opposite i 0%nat - b 0%nat) by (intros; unfold res, d; cbn [mean two constant_trend trend_values]; rewrite sumn_1; cbn; ring).
  assert (S2 : 2 / (1 - q0) <= sum_sq 2 (a_rho a) 0).
  { rewrite SS. rewrite <- opposite_form. unfold two_form. rewrite !RB. cbn [opposite]. unfold Rdiv. apply Rmult_le_compat_r; [left; apply Rinv_0_lt_compat; nra|]. assert (0 <= b 0%nat * b 0%nat) by apply Rle_0_sqr. nra. }
  assert (S1 : 2 <= sum_sq 2 (a_rho a) 0). { assert (2 <= 2 / (1 - q0)); [|lra]. apply (Rmult_le_reg_r (1 - q0)); [lra|]. unfold Rdiv. rewrite Rmult_assoc, Rinv_l by lra. lra. }
  destruct EV as (e & E & ET & ER & EA & TT). { intros j Hj. replace j with 0%nat by lia. lra. }
  destruct (TT 0%nat) as (T0 & V0). cbn [coefficients_of constant_trend Nat.sub INR] in T0.
  assert (TP : 2 <= total e 0) by (rewrite T0; lra). assert (NV : ll e 0 < 0) by (rewrite V0; apply two_value_neg; lra).
  exists (ll e 0). split; [|exact constant_proper]. unfold log_likelihood. rewrite E. cbn [accept d targets two seq existsb]. destruct (Rlt_dec 0 (ll e 0)); [lra|]. cbn [orb]. now rewrite sumn_1.
Qed.
(** Known noise (C174, C177). *)
Example noisy_case : exists v g, likelihood_and_gradient my_cholesky my_qr my_lower my_upper my_cho_solve my_rank Noisy 1 (two 1 nothing zero_trend) [1; 1] = Value (v, g) /\ v < 0 /\ length g = 2%nat.
Proof. destruct (noisy_two _ _ _ _ _ _ lapack_exists) as (e & v & g & _ & H & NV & _ & _ & LG). eauto. Qed.
(** Estimated noise (C174, C175, C178, C179): theta = 1 and alpha = 1/2. *)
Example estim_case : exists v g, likelihood_and_gradient my_cholesky my_qr my_lower my_upper my_cho_solve my_rank NoiseEstim 0 (two 1 opposite zero_trend) [1; 1 / 2] = Value (v, g) /\ v < 0 /\ length g = 2%nat.
Proof.
  set (d := two 1 opposite zero_trend). pose proof q0_range as Q. destruct two_correlation as (M & EM & HM). set (A := fun i j => 1 / 2 * M i j + (1 - 1 / 2) * eye i j).
  assert (HA : is_two A (q0 / 2)) by (destruct HM as (A0 & A1 & A2 & A3); unfold is_two, A; rewrite A0, A1, A2, A3; unfold eye; cbn; repeat split; field).
  destruct (two_aux _ _ _ _ _ _ lapack_exists d eq_refl I A (q0 / 2) ltac:(lra) HA) as (a & C & LD & _ & _ & G). destruct (G 0%nat) as (b & _ & _ & SS & _).
  assert (RZ : forall i, res d 0 b i = opposite i 0%nat) by (intros; unfold d, zero_trend; rewrite known_zero_two; reflexivity). unfold two_form in SS. rewrite !RZ in SS. unfold opposite in SS.
  assert (S0 : sum_sq 2 (a_rho a) 0 = 2 / (1 - q0 / 2)) by (rewrite SS; field; split; nra). clear SS.
  assert (S1 : 2 <= sum_sq 2 (a_rho a) 0). { rewrite S0. apply (Rmult_le_reg_r (1 - q0 / 2)); [lra|]. unfold Rdiv at 2. rewrite Rmult_assoc, Rinv_l by lra. lra. }
  assert (E : evaluate my_cholesky my_qr my_lower my_rank NoiseEstim 0 d [1; 1 / 2] = Value (Some (Evaluation (fun j => - (1 / 2) * (INR 2 * ln (2 * PI * (sum_sq 2 (a_rho a) j / INR 2)) + log_det 2 (a_L a) + INR 2)) [1] M a (fun j => sum_sq 2 (a_rho a) j / INR 2)))).
  { unfold evaluate. cbn [removelast last X kern d two length]. rewrite EM. change (Data [[0]; [1]] 1 opposite zero_trend SqExp) with d. fold A. rewrite C. cbn [targets d two seq existsb]. destruct (Req_EM_T _ _) as [Z|Z]; [change (INR 2) with (1 + 1) in Z; lra|]. reflexivity. }
  set (e := Evaluation _ _ _ _ _) in E. assert (NV : ll e 0 < 0).
  { cbn [ll e]. rewrite LD. cbn [INR]. pose proof PI_3. set (t := sum_sq 2 (a_rho a) 0 / (1 + 1)). assert (1 <= t) by (unfold t; lra).
    assert (0 <= 2 * ln (2 * PI * t) + ln (1 - q0 / 2 * (q0 / 2))); [|lra].
    assert (6 <= 2 * PI * t) by nra. assert (3 / 4 <= 1 - q0 / 2 * (q0 / 2)) by nra. apply ln_pair; nra. }
  exists (ll e 0). unfold likelihood_and_gradient. rewrite E. cbn [accept d targets two seq existsb]. fold d. destruct (Rlt_dec 0 (ll e 0)); [lra|]. cbn [orb].
  rewrite (gradient_estim _ _ d (or_introl eq_refl)). eexists. split; [rewrite sumn_1; reflexivity|]. split; [exact NV|reflexivity].
Qed.
Print Assumptions C177_refuted.
Print Assumptions C178_noise_entry_partial.
Print Assumptions C178_refuted.
Print Assumptions C179_noise_estimated_partial.
Print Assumptions C179_noiseless_known_trend_partial.
Print Assumptions C179_refuted.
Print Assumptions C180_estimated_trend_partial.
Print Assumptions C180_refuted.
Print Assumptions C181_refuted.
Print Assumptions C181_reported_partial.
