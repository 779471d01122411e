(** Properties C187 to C189: the restricted likelihood. *)
From Coq Require Import Reals List Arith Lia Lra Bool.
From Coquelicot Require Import Coquelicot.
From Verif Require Import Lib_Sum Lib_Chol Lib_GLS Lib_Lapack Model_Kernel Spec_Kernel Proofs_Kernel Properties_Kernel Model_Likelihood Spec_Likelihood Proofs_Likelihood Proofs_LikelihoodGrad Proofs_LikelihoodModes Proofs_LikelihoodParts Proofs_LikelihoodTwo Proofs_LikelihoodMax Proofs_LikelihoodCases Properties_Likelihood Properties_LikelihoodCases Model_Restricted Proofs_Restricted Proofs_Restricted2.
Import ListNotations.
Open Scope R_scope.

Section Restricted.
(** Any linear algebra routines that satisfy their contracts; the determinant may be anything. *)
Variable cholesky : nat -> matrix -> option matrix.
Variable qr : nat -> nat -> matrix -> matrix * matrix.
Variable solve_lower : nat -> matrix -> (nat -> R) -> nat -> R.
Variable solve_upper : nat -> matrix -> (nat -> R) -> nat -> R.
Variable cho_solve : nat -> matrix -> matrix -> matrix.
Variable matrix_rank : nat -> matrix -> nat.
Hypothesis LP : lapack cholesky qr solve_lower solve_upper cho_solve matrix_rank.
Variable det : nat -> matrix -> R.
Notation restricted := (log_likelihood_restricted cholesky qr solve_lower det).
Notation both := (restricted_and_gradient cholesky qr solve_lower solve_upper cho_solve det).
Notation concentrated := (log_likelihood cholesky qr solve_lower matrix_rank).

(** ** C187: with a known trend the value is the log density of the data *)
(** One target: it is the log density plus the logarithm of the determinant of the correlation matrix (2 sum log L_ii where
    the matrix is L L^T). *)
Theorem C187_known_trend_partial m noise d par v t : mean d = Known t -> targets d = 1%nat -> restricted m noise d par = Value v ->
  let '(theta, sigma2, noise_var) := parameters m noise par in
  exists K L u, correlation_matrix (kern d) theta (X d) = Some K /\
    factor (length (X d)) (fun i l => (sigma2 * K i l + noise_var * eye i l) / (sigma2 + noise_var)) L /\
    gaussian_log_density (length (X d)) (fun i l => sigma2 * K i l + noise_var * eye i l) (fun i => y d i 0%nat - t i) u /\
    v = u + 2 * sumn (length (X d)) (fun i => ln (L i i)).
Proof. exact (known_density _ _ _ _ _ _ LP det m noise d par v t). Qed.

Lemma two_correlation_at t : exists M, correlation_matrix SqExp [t] [[0]; [1]] = Some M /\ is_two M (exp (- t)).
Proof.
  destruct (C62_defined SqExp [t] [[0]; [1]] 1 ltac:(repeat constructor) ltac:(now left)) as (M & E). exists M. split; auto.
  destruct (C62_correlation_matrix _ _ _ _ E 0%nat 1%nat ltac:(cbn; lia) ltac:(cbn; lia)) as (S01 & D0 & C01).
  destruct (C62_correlation_matrix _ _ _ _ E 1%nat 1%nat ltac:(cbn; lia) ltac:(cbn; lia)) as (_ & D1 & _).
  specialize (C01 ltac:(lia)). cbn in C01. assert (V : M 0%nat 1%nat = exp (- t)).
  { inversion C01 as [V]. f_equal. unfold sum, Rsqr. cbn. replace (0 - 1) with (- (1)) by ring. rewrite Rabs_Ropp, Rabs_R1. ring. }
  unfold is_two. rewrite <- S01, V. auto.
Qed.
Lemma exp_range t : 0 < t -> 0 < exp (- t) < 1.
Proof. intros H. split; [apply exp_pos|]. rewrite <- exp_0. apply exp_increasing. lra. Qed.
(** Two observations, all data and the trend zero, [T] targets. *)
Lemma zero_aux T t : 0 < t -> exists M a, correlation_matrix SqExp [t] [[0]; [1]] = Some M /\ is_two M (exp (- t)) /\
  compute_aux_var cholesky qr solve_lower (two T nothing zero_trend) M = Some a /\ log_det 2 (a_L a) = ln (1 - exp (- t) * exp (- t)) /\
  (forall i j, (i < 2)%nat -> a_rho a i j = 0).
Proof.
  intros Ht. pose proof (exp_range t Ht) as Q. destruct (two_correlation_at t) as (M & EM & HM). set (d := two T nothing zero_trend).
  destruct (two_aux _ _ _ _ _ _ LP d eq_refl I M (exp (- t)) ltac:(lra) HM) as (a & C & LD & _ & _ & G). exists M, a. do 4 (split; [assumption|]).
  intros i j Hi. destruct (G j) as (b & _ & _ & SS & _). assert (RZ : forall i, res d j b i = 0) by (intros; unfold d, zero_trend; rewrite known_zero_two; reflexivity).
  assert (S0 : sum_sq 2 (a_rho a) j = 0) by (rewrite SS; unfold two_form; rewrite !RZ; field; nra). unfold sum_sq in S0. rewrite sumn_2 in S0.
  assert (Z : a_rho a 0%nat j = 0 /\ a_rho a 1%nat j = 0) by (split; nra). revert i Hi. apply two_cases; apply Z.
Qed.
Lemma zero_value T t : 0 < t -> restricted Noiseless 0 (two T nothing zero_trend) [t; 1] = Value (- (1 / 2) * (INR T * (INR T * (2 * ln (2 * PI) - ln (1 - exp (- t) * exp (- t)))))) .
Proof.
  intros Ht. pose proof (exp_range t Ht) as Q. destruct (zero_aux T t Ht) as (M & a & EM & HM & C & LD & RZ). set (d := two T nothing zero_trend) in *.
  assert (V : restricted_value qr solve_lower det d (1 + 0) a = - (1 / 2) * (INR T * (INR T * (2 * ln (2 * PI) - ln (1 - exp (- t) * exp (- t)))))).
  { unfold restricted_value. cbn [mean d two zero_trend targets X length]. rewrite LD. f_equal.
    rewrite (sumn_ext T _ (fun _ => sumn T (fun _ => 2 * ln (2 * PI) - ln (1 - exp (- t) * exp (- t))))); [rewrite !sumn_const; ring|].
    intros j Hj. apply sumn_ext. intros l Hl. rewrite sumn_2. rewrite !RZ by lia. cbn [INR]. rewrite Rplus_0_r, Rmult_1_r. field. }
  destruct (restricted_intro cholesky qr solve_lower det Noiseless 0 d [t; 1] [t] 1 0 M a) as (R1 & _); auto; [lra|now rewrite scaled_zero by lra| |now rewrite R1, V].
  rewrite V. pose proof PI_3. assert (0 < ln (2 * PI)) by (rewrite <- ln_1; apply ln_increasing; lra). assert (ln (1 - exp (- t) * exp (- t)) < 0) by (rewrite <- ln_1; apply ln_increasing; nra).
  pose proof (pos_INR T). assert (0 <= INR T * (INR T * (2 * ln (2 * PI) - ln (1 - exp (- t) * exp (- t))))) by (repeat apply Rmult_le_pos; lra). lra.
Qed.
Lemma zero_density M u : is_two M q0 -> gaussian_log_density 2 (fun i l => 1 * M i l + 0 * eye i l) (fun _ => 0) u -> u = - (1 / 2) * (2 * ln (2 * PI) + ln (1 - q0 * q0)).
Proof.
  intros HM G. pose proof q0_range as Q. assert (F := two_factor M q0 ltac:(lra) HM).
  assert (G' : gaussian_log_density 2 (fun i l => 1 * M i l) (fun _ => 0) u) by (revert G; apply density_ext; intros; ring).
  destruct (density_inv 2 M (L2 q0) 1 _ u ltac:(lra) F G') as (z & Hz & ->). assert (Z0 := Hz 0%nat ltac:(lia)). assert (Z1 := Hz 1%nat ltac:(lia)). rewrite sumn_2 in Z0, Z1. cbn [L2] in Z0, Z1.
  assert (DE : 0 < 1 - q0 * q0) by nra. pose proof (sqrt_lt_R0 _ DE) as SP. pose proof (sqrt_sqrt (1 - q0 * q0) ltac:(lra)) as SS.
  assert (E0 : z 0%nat = 0) by lra. assert (E1 : z 1%nat = 0) by (rewrite E0 in Z1; assert (W : sqrt (1 - q0 * q0) * z 1%nat = 0) by lra; apply Rmult_integral in W as [W|W]; lra).
  unfold density_of, log_det. rewrite !sumn_2, E0, E1. cbn [L2 INR]. rewrite ln_1, Rmult_1_r.
  assert (LS : ln (1 - q0 * q0) = 2 * ln (sqrt (1 - q0 * q0))). { transitivity (ln (sqrt (1 - q0 * q0) * sqrt (1 - q0 * q0))); [now rewrite SS|]. rewrite ln_mult by auto. ring. }
  rewrite LS. field.
Qed.
(** The sign of the determinant is wrong: two observations. *)
Theorem C187_refuted : exists d par v K, targets d = 1%nat /\ mean d = Known (fun _ => 0) /\ par = [1; 1] /\ restricted Noiseless 0 d par = Value v /\
  correlation_matrix (kern d) [1] (X d) = Some K /\
  (exists u, gaussian_log_density (length (X d)) (fun i l => 1 * K i l + 0 * eye i l) (fun i => y d i 0%nat - 0) u) /\
  forall u, gaussian_log_density (length (X d)) (fun i l => 1 * K i l + 0 * eye i l) (fun i => y d i 0%nat - 0) u -> v < u.
Proof.
  pose proof q0_range as Q. assert (HV := zero_value 1 1 ltac:(lra)). destruct (zero_aux 1 1 ltac:(lra)) as (M & a & EM & HM & _). set (d := two 1 nothing zero_trend) in *. exists d, [1; 1], (- (1 / 2) * (INR 1 * (INR 1 * (2 * ln (2 * PI) - ln (1 - exp (- (1)) * exp (- (1))))))), M.
  do 3 (split; [reflexivity|]). split; [exact HV|]. split; [exact EM|]. split.
  - destruct (C187_known_trend_partial Noiseless 0 d [1; 1] _ (fun _ => 0) eq_refl eq_refl HV) as (K & L & u & EK & _ & G & _). cbn [removelast kern d two X] in EK. assert (K = M) by congruence. subst K. exists u. exact G.
  - intros u G. replace (exp (- (1))) with q0 in * by (unfold q0; f_equal; ring). rewrite (zero_density M u HM).
    + cbn [INR]. assert (ln (1 - q0 * q0) < 0) by (rewrite <- ln_1; apply ln_increasing; nra). lra.
    + revert G. apply density_ext; [reflexivity|]. intros i Hi. cbn. unfold nothing. ring.
Qed.
(** Several targets: the value is not the sum of the log densities of the targets, whatever the sign of the determinant: the
    terms of every pair of targets are added. *)
Theorem C187_targets_refuted : exists d par v l K u0 u1, targets d = 2%nat /\ mean d = Known (fun _ => 0) /\ par = [1; 1] /\ restricted Noiseless 0 d par = Value v /\
  correlation_matrix (kern d) [1] (X d) = Some K /\
  gaussian_log_density (length (X d)) (fun i l => 1 * K i l + 0 * eye i l) (fun i => y d i 0%nat - 0) u0 /\
  gaussian_log_density (length (X d)) (fun i l => 1 * K i l + 0 * eye i l) (fun i => y d i 1%nat - 0) u1 /\
  restricted Noiseless 0 (single d 0) par = Value l /\ restricted Noiseless 0 (single d 1) par = Value l /\ v <> u0 + u1 /\ v <> l + l.
Proof.
  pose proof q0_range as Q. assert (HV := zero_value 2 1 ltac:(lra)). assert (HW := zero_value 1 1 ltac:(lra)). destruct (zero_aux 2 1 ltac:(lra)) as (M & a & EM & HM & _).
  destruct (C187_known_trend_partial Noiseless 0 (two 1 nothing zero_trend) [1; 1] _ (fun _ => 0) eq_refl eq_refl HW) as (K & L & u & EK & _ & G & _). cbn [removelast kern two X] in EK. assert (K = M) by congruence. subst K. cbn [last] in G.
  eexists (two 2 nothing zero_trend), [1; 1], _, _, M, u, u. do 3 (split; [reflexivity|]). split; [exact HV|]. split; [exact EM|]. split; [exact G|]. split; [exact G|].
  change (single (two 2 nothing zero_trend) 0) with (two 1 nothing zero_trend). change (single (two 2 nothing zero_trend) 1) with (two 1 nothing zero_trend). split; [exact HW|]. split; [exact HW|].
  replace (exp (- (1))) with q0 in * by (unfold q0; f_equal; ring). rewrite (zero_density M u HM); [|revert G; apply density_ext; [reflexivity|]; intros i Hi; cbn; unfold nothing; ring].
  pose proof PI_3. assert (0 < ln (2 * PI)) by (rewrite <- ln_1; apply ln_increasing; lra). assert (ln (1 - q0 * q0) < 0) by (rewrite <- ln_1; apply ln_increasing; nra). cbn [INR]. split; lra.
Qed.

(** ** C188: with an estimated trend, adding a combination of the basis functions to the data changes neither likelihood *)
Theorem C188_trend_invariant m noise d d' p F b par : (p <= length (X d))%nat -> independent (length (X d)) p F ->
  mean d = Estimated p F -> mean d' = Estimated p F -> X d' = X d -> kern d' = kern d -> targets d' = targets d ->
  (forall i j, (i < length (X d))%nat -> (j < targets d)%nat -> y d' i j = y d i j + sumn p (fun c => F i c * b c j)) ->
  restricted m noise d' par = restricted m noise d par /\ concentrated m noise d' par = concentrated m noise d par.
Proof.
  intros Hp HI HM HM' HX HK HT HY. split.
  - exact (shift_restricted _ _ _ _ _ _ LP det d d' p F b HM (conj Hp HI) HX HT HM' HK HY m noise par).
  - exact (shift_concentrated _ _ _ _ _ _ LP det d d' p F b HM (conj Hp HI) HX HT HM' HK HY m noise par).
Qed.

(** ** C189: the gradient of the restricted likelihood *)
(** No noise: the derivative in the variance is the entry of the gradient, corrected by p/2 (1/s - 1) if p coefficients of a
    trend are estimated; it is right for a known trend, and for an estimated one only at s = 1. *)
Theorem C189_variance_partial noise d nf par v g : rectangular (X d) nf -> X d <> [] -> proper (length (X d)) (mean d) -> length par = Datatypes.S nf ->
  both Noiseless noise d par = Value (v, g) -> v < 0 ->
  let s := nth nf par 0 in
  let p := match mean d with Known _ => 0%nat | Estimated p _ => p end in
  length g = length par /\
  exists h, is_derive h s (nth nf g 0 + INR p / 2 * (/ s - 1)) /\ locally s (fun t => finite (restricted Noiseless noise d (set_coord par nf t)) = Some (h t)).
Proof.
  intros HX NE PR LN H NV. destruct (variance_along _ _ _ _ _ _ LP det noise d nf par v g HX NE PR LN H NV) as (LG & _ & D). split; [exact LG|]. exact D.
Qed.
(** No noise and a known trend: the whole gradient is that of the log density of the data (the concentrated likelihood with a
    known noise of zero, C174), which the value is not. *)
Theorem C189_known_trend_partial noise d nf par v g t : smooth (kern d) -> rectangular (X d) nf -> X d <> [] -> mean d = Known t -> length par = Datatypes.S nf -> positive par ->
  both Noiseless noise d par = Value (v, g) -> negative cholesky qr solve_lower matrix_rank Noisy 0 d par ->
  has_gradient (fun p => finite (concentrated Noisy 0 d p)) par g.
Proof.
  intros HK HX NE HM LN PP H NG. assert (PR : proper (length (X d)) (mean d)) by (rewrite HM; exact I).
  destruct (both_inv _ _ _ _ _ _ _ _ _ _ _ _ H) as (HV & e & E & G). destruct (gradient_inv _ _ _ _ _ _ _ G) as (HT & LG & HG).
  pose proof (restricted_inv _ _ _ _ _ _ _ _ _ HV) as J. cbn [parameters] in J. destruct J as (K & a & EK & Hs & C & V & _ & E'). rewrite E in E'. injection E' as ->.
  assert (NF : length (nth 0 (X d) []) = nf) by (unfold rectangular in HX; destruct (X d) as [|r X']; [congruence|]; now inversion HX).
  assert (EQ : a_Q a = None). { unfold compute_aux_var in C. rewrite HM in C. destruct (cholesky _ _); [|discriminate]. injection C as <-. reflexivity. }
  assert (EV : evaluate cholesky qr solve_lower matrix_rank Noisy 0 d par = Value (Some (Evaluation (fun j => - (1 / 2) * (INR (length (X d)) * ln (2 * PI * (last par 0 + 0)) + log_det (length (X d)) (a_L a) + sum_sq (length (X d)) (a_rho a) j / (last par 0 + 0))) (removelast par) K a (fun _ => last par 0 + 0)))).
  { unfold evaluate. rewrite EK. change (fun i j => (last par 0 * K i j + 0 * eye i j) / (last par 0 + 0)) with (scaled (last par 0) 0 K). rewrite C. reflexivity. }
  set (e' := Evaluation _ _ _ _ _) in EV. assert (GE : gradient solve_upper cho_solve Noisy d e' par = Some g).
  { rewrite (gradient_noisy _ _ d HK). f_equal. apply (nth_ext _ _ 0 0); [rewrite map_length, seq_length; auto|]. rewrite map_length, seq_length. intros c Hc. rewrite nth_map_seq by auto. rewrite HT, sumn_1. destruct (HG c Hc) as (C0 & S0 & ->).
    unfold entry. cbn [aux_of total]. rewrite EQ. destruct (Nat.ltb_spec c (length (nth 0%nat (X d) []))) as [L|L].
    - rewrite slice_feature in S0 by auto. injection S0 as <-. reflexivity.
    - assert (c = length (nth 0%nat (X d) [])) as -> by lia. rewrite slice_variance in S0. injection S0 as <-. reflexivity. }
  assert (NL : forall j, (j < targets d)%nat -> ll e' j < 0) by (intros j Hj; destruct (NG j Hj) as (w & Hw & W); rewrite <- (single_ll _ _ _ _ d 0 _ _ e' j w EV Hw); auto).
  assert (H2 : likelihood_and_gradient cholesky qr solve_lower solve_upper cho_solve matrix_rank Noisy 0 d par = Value (sumn (targets d) (ll e'), g)).
  { unfold likelihood_and_gradient. rewrite EV. cbn [accept]. replace (existsb _ _) with false; [now rewrite GE|]. symmetry. apply existsb_seq. intros j Hj. specialize (NL j Hj). destruct (Rlt_dec 0 (ll e' j)); [lra|reflexivity]. }
  exact (C177_zero_noise _ _ _ _ _ _ LP d nf par _ g HK HX PR LN PP H2 NG).
Qed.

Lemma zero_both : exists v g, both Noiseless 0 (two 1 nothing zero_trend) [1; 1] = Value (v, g) /\ v < 0 /\ length g = 2%nat.
Proof.
  assert (HV := zero_value 1 1 ltac:(lra)). destruct (zero_aux 1 1 ltac:(lra)) as (M & a & EM & HM & _). pose proof q0_range as Q. replace (exp (- (1))) with q0 in * by (unfold q0; f_equal; ring). set (d := two 1 nothing zero_trend) in *. set (v := _ * _) in HV.
  assert (NV : v < 0). { pose proof PI_3. assert (0 < ln (2 * PI)) by (rewrite <- ln_1; apply ln_increasing; lra). assert (ln (1 - q0 * q0) < 0) by (rewrite <- ln_1; apply ln_increasing; nra). unfold v. cbn [INR]. lra. }
  destruct (restricted_inv _ _ _ _ _ _ _ _ _ HV) as (K & b & _ & _ & _ & V & _ & E). set (e := Evaluation _ _ _ _ _) in E.
  destruct (gradient_intro solve_upper cho_solve Noiseless d e [1; 1] eq_refl ltac:(now left) ltac:(cbn; lia)) as (g & G). exists v, g. split; [|split; [exact NV|exact (proj1 (proj2 (gradient_inv _ _ _ _ _ _ _ G)))]].
  unfold restricted_and_gradient. rewrite E. cbn [restricted_accept]. assert (EL : ll e 0 = v) by (rewrite V; reflexivity). rewrite EL. destruct (Rlt_dec 0 v); [lra|]. rewrite G, EL. reflexivity.
Qed.
Lemma zero_noisy t w : 0 < t -> concentrated Noisy 0 (two 1 nothing zero_trend) [t; 1] = Value w -> w = - (1 / 2) * (2 * ln (2 * PI) + ln (1 - exp (- t) * exp (- t))).
Proof.
  intros Ht H. destruct (zero_aux 1 t Ht) as (M & a & EM & HM & C & LD & RZ). set (d := two 1 nothing zero_trend) in *.
  assert (EV : evaluate cholesky qr solve_lower matrix_rank Noisy 0 d [t; 1] = Value (Some (Evaluation (fun j => - (1 / 2) * (INR 2 * ln (2 * PI * (1 + 0)) + log_det 2 (a_L a) + sum_sq 2 (a_rho a) j / (1 + 0))) [t] M a (fun _ => 1 + 0)))).
  { unfold evaluate. cbn [removelast last X kern d two length]. rewrite EM. change (fun i j => (1 * M i j + 0 * eye i j) / (1 + 0)) with (scaled 1 0 M). rewrite scaled_zero by lra. change (Data [[0]; [1]] 1 nothing zero_trend SqExp) with d. rewrite C. reflexivity. }
  unfold log_likelihood in H. rewrite EV in H. cbn [accept targets d two seq existsb ll] in H. destruct (Rlt_dec 0 _); [discriminate|]. cbn [orb] in H. rewrite sumn_1 in H. injection H as <-.
  rewrite LD. unfold sum_sq. rewrite sumn_2, !RZ by lia. cbn [INR]. rewrite Rplus_0_r, Rmult_1_r. field.
Qed.
Lemma zero_negative : negative cholesky qr solve_lower matrix_rank Noisy 0 (two 1 nothing zero_trend) [1; 1].
Proof.
  intros j Hj. cbn in Hj. replace j with 0%nat by lia. change (single (two 1 nothing zero_trend) 0) with (two 1 nothing zero_trend). destruct (zero_aux 1 1 ltac:(lra)) as (M & a & EM & HM & C & LD & RZ). pose proof q0_range as Q. replace (exp (- (1))) with q0 in * by (unfold q0; f_equal; ring). set (d := two 1 nothing zero_trend) in *.
  set (w := - (1 / 2) * (INR 2 * ln (2 * PI * (1 + 0)) + log_det 2 (a_L a) + sum_sq 2 (a_rho a) 0 / (1 + 0))).
  assert (NV : w < 0). { unfold w. rewrite LD. unfold sum_sq. rewrite sumn_2, !RZ by lia. cbn [INR]. pose proof PI_3. assert (0 < 2 * ln (2 * PI) + ln (1 - q0 * q0)).
    { assert (0 < ln (2 * PI)) by (rewrite <- ln_1; apply ln_increasing; lra). assert (0 <= ln (2 * PI) + ln (1 - q0 * q0)); [|lra]. assert (3 / 4 < 1 - q0 * q0) by nra. rewrite <- ln_mult by lra. rewrite <- ln_1. left. apply ln_increasing; [lra|]. nra. }
    replace (2 * PI * (1 + 0)) with (2 * PI) by ring. lra. }
  exists w. split; [|exact NV]. unfold log_likelihood, evaluate. cbn [removelast last X kern d two length]. rewrite EM. change (fun i j => (1 * M i j + 0 * eye i j) / (1 + 0)) with (scaled 1 0 M). rewrite scaled_zero by lra. change (Data [[0]; [1]] 1 nothing zero_trend SqExp) with d. rewrite C.
  cbn [accept targets d two seq existsb ll]. fold w. destruct (Rlt_dec 0 w); [lra|]. cbn [orb]. rewrite sumn_1. reflexivity.
Qed.
(** The entry of a correlation parameter has the wrong value: two observations, known trend. *)
Theorem C189_known_trend_refuted : exists d par v g, smooth (kern d) /\ rectangular (X d) 1 /\ mean d = Known (fun _ => 0) /\ targets d = 1%nat /\ par = [1; 1] /\
  both Noiseless 0 d par = Value (v, g) /\ v < 0 /\
  (exists h D, is_derive h 1 D /\ locally 1 (fun t => finite (restricted Noiseless 0 d [t; 1]) = Some (h t)) /\ nth 0 g 0 < 0 < D) /\
  ~ has_gradient (fun p => finite (restricted Noiseless 0 d p)) par g.
Proof.
  destruct zero_both as (v & g & H & NV & LG). set (d := two 1 nothing zero_trend) in *. exists d, [1; 1], v, g. pose proof q0_range as Q.
  split; [now left|]. split; [apply two_rectangular|]. do 3 (split; [reflexivity|]). split; [exact H|]. split; [exact NV|].
  assert (HG := C189_known_trend_partial 0 d 1 [1; 1] v g (fun _ => 0) ltac:(now left) (two_rectangular _ _ _) ltac:(discriminate) eq_refl eq_refl ltac:(repeat constructor; lra) H zero_negative).
  set (h := fun t => - (1 / 2) * (INR 1 * (INR 1 * (2 * ln (2 * PI) - ln (1 - exp (- t) * exp (- t)))))).
  assert (E1 : exp (- (1)) = q0) by (unfold q0; f_equal; ring). assert (DE : 0 < 1 - q0 * q0) by nra.
  assert (Dh : is_derive h 1 (q0 * q0 / (1 - q0 * q0))).
  { unfold h. cbn [INR]. auto_derive; [repeat split; rewrite ?E1; lra|]. rewrite E1. field. lra. }
  assert (Lh : locally 1 (fun t => finite (restricted Noiseless 0 d [t; 1]) = Some (h t))).
  { assert (L1 : locally 1 (fun t => 0 < t)) by (apply (locally_pos (fun t => t)); [auto_derive; auto|lra]). revert L1. apply filter_imp. intros t Ht. exact (f_equal finite (zero_value 1 t Ht)). }
  assert (G0 : nth 0 g 0 = - (q0 * q0 / (1 - q0 * q0))).
  { destruct HG as (_ & HG). destruct (HG 0%nat ltac:(cbn; lia)) as (k & Dk & Lk). cbn [nth] in Dk, Lk. apply is_derive_unique in Dk. rewrite <- Dk.
    transitivity (Derive (fun t => - (1 / 2) * (2 * ln (2 * PI) + ln (1 - exp (- t) * exp (- t)))) 1).
    - apply Derive_ext_loc. assert (L1 : locally 1 (fun t => 0 < t)) by (apply (locally_pos (fun t => t)); [auto_derive; auto|lra]). generalize (filter_and _ _ L1 Lk). apply filter_imp. intros t (Ht & Et). 
      assert (Et' : finite (concentrated Noisy 0 d [t; 1]) = Some (k t)) by exact Et. clear Et. destruct (concentrated Noisy 0 d [t; 1]) as [| |w] eqn:W; try discriminate. cbn [finite] in Et'. assert (EK : k t = w) by congruence. rewrite EK. exact (zero_noisy t w Ht W).
    - apply is_derive_unique. auto_derive; [repeat split; rewrite ?E1; lra|]. rewrite E1. field. lra. }
  assert (QP : 0 < q0 * q0 / (1 - q0 * q0)) by (apply Rdiv_lt_0_compat; nra).
  split; [exists h, (q0 * q0 / (1 - q0 * q0)); split; [exact Dh|]; split; [exact Lh|]; rewrite G0; lra|].
  intros (_ & N). destruct (N 0%nat ltac:(cbn; lia)) as (k & Dk & Lk). cbn [nth] in Dk, Lk.
  assert (U : Derive k 1 = Derive h 1). { apply Derive_ext_loc. generalize (filter_and _ _ Lh Lk). apply filter_imp. intros t (A & B). change (set_coord [1; 1] 0 t) with [t; 1] in B. congruence. }
  rewrite (is_derive_unique _ _ _ Dk), (is_derive_unique _ _ _ Dh) in U. lra.
Qed.
(** The entry of the variance is wrong if the trend is estimated: two observations, a constant trend. *)
Theorem C189_estimated_trend_refuted : exists d s v g, smooth (kern d) /\ rectangular (X d) 1 /\ proper (length (X d)) (mean d) /\ mean d = Estimated 1 (fun _ _ => 1) /\ targets d = 1%nat /\ 2 <= s /\
  both Noiseless 0 d [1; s] = Value (v, g) /\ v < 0 /\
  exists h D, is_derive h s D /\ locally s (fun t => finite (restricted Noiseless 0 d [1; t]) = Some (h t)) /\ D < nth 1 g 0.
Proof.
  set (d := two 1 opposite constant_trend). pose proof q0_range as Q. destruct two_correlation as (M & EM & HM).
  destruct (two_aux _ _ _ _ _ _ LP d eq_refl constant_proper M q0 ltac:(lra) HM) as (a & C & LD & _). 
  set (c := - ln (det 1 (fun b c => sumn 2 (fun i => 1 * 1))) + log_det 2 (a_L a) + ln (prod_diag 1 (g_factor qr solve_lower 2 1 (a_L a) (fun _ _ => 1)) ^ 2)).
  set (s := 2 + exp (- c)). assert (Hs : 2 <= s) by (unfold s; pose proof (exp_pos (- c)); lra).
  assert (NV : restricted_value qr solve_lower det d (s + 0) a < 0).
  { unfold restricted_value. cbn [mean d two constant_trend targets X length]. rewrite !sumn_1. rewrite Rplus_0_r.
    change (INR (2 - 1)) with 1.
    match goal with |- ?x < 0 => replace x with (- (1 / 2) * (ln (2 * PI * s) + c + sumn 2 (fun i => a_rho a i 0%nat * a_rho a i 0%nat) / s)) by (unfold c; ring) end.
    assert (0 <= sumn 2 (fun i => a_rho a i 0%nat * a_rho a i 0%nat) / s) by (apply Rmult_le_pos; [apply sumn_nonneg; intros; apply Rle_0_sqr|left; apply Rinv_0_lt_compat; lra]).
    assert (0 < ln (2 * PI * s) + c); [|lra]. assert (ln (exp (- c)) < ln (2 * PI * s)); [|rewrite ln_exp in *; lra]. apply ln_increasing; [apply exp_pos|]. pose proof PI_3. pose proof (exp_pos (- c)). unfold s. nra. }
  assert (EM' : correlation_matrix (kern d) [1] (X d) = Some M) by exact EM.
  destruct (restricted_intro cholesky qr solve_lower det Noiseless 0 d [1; s] [1] s 0 M a eq_refl EM' ltac:(lra) ltac:(now rewrite scaled_zero by lra) ltac:(lra)) as (R1 & E).
  set (e := Evaluation _ _ _ _ _) in E. set (v := restricted_value qr solve_lower det d (s + 0) a) in *.
  destruct (gradient_intro solve_upper cho_solve Noiseless d e [1; s] eq_refl ltac:(now left) ltac:(cbn; lia)) as (g & G).
  assert (H : both Noiseless 0 d [1; s] = Value (v, g)). { unfold restricted_and_gradient. rewrite E. cbn [restricted_accept]. change (ll e 0) with v. destruct (Rlt_dec 0 v); [lra|]. rewrite G. reflexivity. }
  exists d, s, v, g. split; [now left|]. split; [apply two_rectangular|]. split; [exact constant_proper|]. do 2 (split; [reflexivity|]). split; [exact Hs|]. split; [exact H|]. split; [exact NV|].
  destruct (C189_variance_partial 0 d 1 [1; s] v g (two_rectangular _ _ _) ltac:(discriminate) constant_proper eq_refl H NV) as (_ & h & Dh & Lh). cbn [nth] in Dh, Lh. cbn [mean d two constant_trend INR] in Dh.
  exists h, (nth 1 g 0 + 1 / 2 * (/ s - 1)). split; [exact Dh|]. split; [exact Lh|]. assert (/ s <= / 2) by (apply Rinv_le_contravar; lra). lra.
Qed.
End Restricted.

(** ** Cases that meet the hypotheses *)
Example C187_case : exists v, log_likelihood_restricted my_cholesky my_qr my_lower (fun _ M => M 0%nat 0%nat) Noiseless 0 (two 1 nothing zero_trend) [1; 1] = Value v.
Proof. rewrite (zero_value _ _ _ _ _ _ lapack_exists _ 1 1) by lra. eauto. Qed.
(** A constant trend: 1 and -1 against 4 and 2. *)
Example C188_case : exists d d' b, (forall i j, (i < length (X d))%nat -> (j < targets d)%nat -> y d' i j = y d i j + sumn 1 (fun c => 1 * b c j)) /\ independent (length (X d)) 1 (fun _ _ => 1)
  /\ mean d = Estimated 1 (fun _ _ => 1) /\ mean d' = Estimated 1 (fun _ _ => 1) /\ X d' = X d /\ kern d' = kern d /\ targets d' = targets d /\ y d' 0%nat 0%nat = 4.
Proof.
  exists (two 1 opposite constant_trend), (two 1 (fun i j => opposite i j + 3) constant_trend), (fun _ _ => 3). split; [intros i j _ _; rewrite sumn_1; cbn [two y]; ring|]. split; [exact (proj2 constant_proper)|]. do 5 (split; [reflexivity|]). cbn. ring.
Qed.
Example C189_case : exists v g, restricted_and_gradient my_cholesky my_qr my_lower my_upper my_cho_solve (fun _ M => M 0%nat 0%nat) Noiseless 0 (two 1 nothing zero_trend) [1; 1] = Value (v, g) /\ v < 0
  /\ negative my_cholesky my_qr my_lower my_rank Noisy 0 (two 1 nothing zero_trend) [1; 1].
Proof.
  destruct (zero_both _ _ _ _ _ _ lapack_exists (fun _ M => M 0%nat 0%nat)) as (v & g & H & NV & _). exists v, g. split; [exact H|]. split; [exact NV|]. exact (zero_negative _ _ _ _ _ _ lapack_exists).
Qed.
Print Assumptions C187_known_trend_partial.
Print Assumptions C187_refuted.
Print Assumptions C187_targets_refuted.
Print Assumptions C188_trend_invariant.
Print Assumptions C189_variance_partial.
Print Assumptions C189_known_trend_partial.
Print Assumptions C189_known_trend_refuted.
Print Assumptions C189_estimated_trend_refuted.
