(** The standard normal density and distribution function over the real numbers: what
    scipy.stats.norm.pdf and scipy.stats.norm.cdf compute (acquisition_fun.py line 8).  The
    distribution function is defined by an integral, and the Gaussian integral is proved, so that
    nothing about it has to be assumed. *)
From Coq Require Import Reals Lra Lia Psatz.
From Coquelicot Require Import Coquelicot.
Open Scope R_scope.

Definition gauss (t : R) : R := exp (- (t * t) / 2).
(** [norm.pdf]. *)
Definition pdf (t : R) : R := gauss t / sqrt (2 * PI).
(** [norm.cdf]. *)
Definition cdf (x : R) : R := / 2 + RInt gauss 0 x / sqrt (2 * PI).

Lemma gauss_pos t : 0 < gauss t.
Proof. apply exp_pos. Qed.
Lemma two_pi_pos : 0 < sqrt (2 * PI).
Proof. apply sqrt_lt_R0. generalize PI_RGT_0. lra. Qed.
Lemma pdf_pos t : 0 < pdf t.
Proof. apply Rdiv_lt_0_compat; [apply gauss_pos|apply two_pi_pos]. Qed.
Lemma gauss_derive t : is_derive gauss t (- t * gauss t).
Proof. unfold gauss. auto_derive; auto. lra. Qed.
Lemma gauss_continuous t : continuous gauss t.
Proof. apply ex_derive_continuous with (f := gauss). eexists. apply gauss_derive. Qed.
Lemma pdf_derive t : is_derive pdf t (- t * pdf t).
Proof.
  unfold pdf. replace (- t * (gauss t / sqrt (2 * PI))) with (scal (/ sqrt (2 * PI)) (- t * gauss t)) by (unfold scal; cbn; unfold mult; cbn; unfold Rdiv; ring).
  apply is_derive_ext with (fun t => scal (/ sqrt (2 * PI)) (gauss t)); [intros; unfold scal; cbn; unfold mult; cbn; unfold Rdiv; ring|].
  apply is_derive_scal. apply gauss_derive.
Qed.
Lemma gauss_int a b : ex_RInt gauss a b.
Proof. apply (ex_RInt_continuous gauss). intros. apply gauss_continuous. Qed.
Lemma int_derive x : is_derive (fun x => RInt gauss 0 x) x (gauss x).
Proof.
  apply is_derive_RInt with (a := 0); [|apply gauss_continuous]. exists (mkposreal 1 Rlt_0_1). intros. apply RInt_correct. apply gauss_int.
Qed.
Lemma cdf_derive x : is_derive cdf x (pdf x).
Proof.
  unfold cdf, pdf. evar_last. { apply (is_derive_plus (fun _ => / 2) (fun x => RInt gauss 0 x / sqrt (2 * PI))); [apply is_derive_const|].
    apply is_derive_ext with (fun x => scal (/ sqrt (2 * PI)) (RInt gauss 0 x)); [intros; unfold scal; cbn; unfold mult; cbn; unfold Rdiv; ring|].
    apply is_derive_scal. apply int_derive. }
  unfold plus, zero, scal; cbn; unfold mult; cbn. unfold Rdiv. ring.
Qed.

(** ** The Gaussian integral *)

Definition gpar (x t : R) : R := 2 * exp (- (x * x) * (1 + t * t) / 2) / (1 + t * t).
Definition gpar' (x t : R) : R := - 2 * x * exp (- (x * x) * (1 + t * t) / 2).
Lemma one_tt t : 0 < 1 + t * t. Proof. nra. Qed.
Lemma gpar_derive x t : is_derive (fun x => gpar x t) x (gpar' x t).
Proof. unfold gpar, gpar'. auto_derive; [pose proof (one_tt t); lra|]. pose proof (one_tt t). replace (- (x * x) * (1 + t * t) * / 2) with (- (x * x) * (1 + t * t) / 2) by reflexivity. set (E := exp _). field. lra. Qed.
Lemma gpar_cont x t : continuous (gpar x) t.
Proof. apply ex_derive_continuous with (f := gpar x). unfold gpar. auto_derive. pose proof (one_tt t); lra. Qed.
Lemma gpar'_cont x t : continuous (gpar' x) t.
Proof. apply ex_derive_continuous with (f := gpar' x). unfold gpar'. auto_derive. auto. Qed.
Lemma gpar'_cont2 x t : continuity_2d_pt gpar' x t.
Proof.
  apply continuity_2d_pt_ext with (fun x t => (- 2 * x) * exp (- (x * x) * (1 + t * t) / 2)); [reflexivity|].
  apply continuity_2d_pt_mult.
  - apply (continuity_1d_2d_pt_comp (fun u => - 2 * u) (fun x t => x)); [|apply continuity_2d_pt_id1].
    apply derivable_continuous_pt. apply ex_derive_Reals_0. auto_derive. auto.
  - apply (continuity_1d_2d_pt_comp exp (fun x t => - (x * x) * (1 + t * t) / 2)); [apply derivable_continuous_pt, derivable_pt_exp|].
    apply continuity_2d_pt_ext with (fun x t => (- (x * x)) * ((1 + t * t) / 2)); [intros; unfold Rdiv; ring|].
    apply continuity_2d_pt_mult.
    + apply (continuity_1d_2d_pt_comp (fun u => - (u * u)) (fun x t => x)); [|apply continuity_2d_pt_id1].
      apply derivable_continuous_pt. apply ex_derive_Reals_0. auto_derive. auto.
    + apply (continuity_1d_2d_pt_comp (fun u => (1 + u * u) / 2) (fun x t => t)); [|apply continuity_2d_pt_id2].
      apply derivable_continuous_pt. apply ex_derive_Reals_0. auto_derive. auto.
Qed.
Lemma G_derive x : is_derive (fun x => RInt (gpar x) 0 1) x (RInt (gpar' x) 0 1).
Proof.
  evar_last. { apply (is_derive_RInt_param gpar 0 1 x).
    - exists (mkposreal 1 Rlt_0_1). intros y _ t _. eexists. apply gpar_derive.
    - intros t _. apply continuity_2d_pt_ext with gpar'; [|apply gpar'_cont2]. intros. symmetry. apply is_derive_unique. apply gpar_derive.
    - exists (mkposreal 1 Rlt_0_1). intros y _. apply (ex_RInt_continuous (gpar y)). intros. apply gpar_cont. }
  apply RInt_ext. intros. apply is_derive_unique. apply gpar_derive.
Qed.
Lemma G_derive_val x : RInt (gpar' x) 0 1 = - 2 * gauss x * RInt gauss 0 x.
Proof.
  transitivity (scal (- 2 * gauss x) (RInt (fun t => scal x (gauss (x * t + 0))) 0 1)).
  - rewrite <- (RInt_scal (V := R_CompleteNormedModule)).
    + apply RInt_ext. intros t _. unfold gpar', gauss, scal; cbn; unfold mult; cbn.
      replace (- (x * x) * (1 + t * t) / 2) with (- (x * x) / 2 + - ((x * t + 0) * (x * t + 0)) / 2) by field. rewrite exp_plus. ring.
    + apply (ex_RInt_continuous (fun t => scal x (gauss (x * t + 0)))). intros z _. apply ex_derive_continuous with (f := fun t => scal x (gauss (x * t + 0))).
      unfold gauss, scal; cbn; unfold mult; cbn. auto_derive. auto.
  - rewrite (RInt_comp_lin (V := R_CompleteNormedModule)); [|apply gauss_int]. rewrite Rmult_0_r, Rmult_1_r, !Rplus_0_r. unfold scal; cbn; unfold mult; cbn. reflexivity.
Qed.
Lemma G_zero : RInt (gpar 0) 0 1 = PI / 2.
Proof.
  apply is_RInt_unique. replace (PI / 2) with (minus (2 * atan 1) (2 * atan 0)).
  - apply (is_RInt_derive (fun t => 2 * atan t)).
    + intros t _. unfold gpar. auto_derive; auto. replace (- (0 * 0) * (1 + t * t) / 2) with 0 by field. rewrite exp_0. field. pose proof (one_tt t). nra.
    + intros. apply gpar_cont.
  - unfold minus, plus, opp; cbn. rewrite atan_0, atan_1. lra.
Qed.
Lemma const_derive (f : R -> R) : (forall x, is_derive f x 0) -> forall x y, f x = f y.
Proof.
  intros H x y. destruct (MVT_gen f x y (fun _ => 0)) as (c & _ & E).
  - intros; apply H.
  - intros. apply derivable_continuous_pt. apply ex_derive_Reals_0. eexists. apply H.
  - lra.
Qed.
Lemma FG x : RInt gauss 0 x * RInt gauss 0 x + RInt (gpar x) 0 1 = PI / 2.
Proof.
  set (h := fun x => RInt gauss 0 x * RInt gauss 0 x + RInt (gpar x) 0 1).
  enough (E : h x = h 0). { unfold h in E at 1. rewrite E. unfold h. rewrite G_zero. rewrite (RInt_point (V := R_CompleteNormedModule)). unfold zero; cbn. lra. }
  apply const_derive. intros z. unfold h. evar_last.
  - apply (is_derive_plus (fun x => RInt gauss 0 x * RInt gauss 0 x) (fun x => RInt (gpar x) 0 1)); [|apply G_derive].
    apply (is_derive_mult (fun x => RInt gauss 0 x) (fun x => RInt gauss 0 x)); [apply int_derive|apply int_derive|intros; apply Rmult_comm].
  - rewrite G_derive_val. unfold plus, mult; cbn. ring.
Qed.
Lemma G_bound x : 0 < RInt (gpar x) 0 1 <= 2 * gauss x.
Proof.
  assert (C : ex_RInt (gpar x) 0 1) by (apply (ex_RInt_continuous (gpar x)); intros; apply gpar_cont).
  split.
  - apply RInt_gt_0; [lra| |intros; apply gpar_cont]. intros. unfold gpar. apply Rdiv_lt_0_compat; [|apply one_tt]. apply Rmult_lt_0_compat; [lra|apply exp_pos].
  - replace (2 * gauss x) with (RInt (fun _ => 2 * gauss x) 0 1).
    + apply RInt_le; [lra|auto|apply (ex_RInt_const (V := R_NormedModule))|]. intros t Ht. unfold gpar, gauss.
      apply Rle_trans with (2 * exp (- (x * x) * (1 + t * t) / 2)).
      * pose proof (exp_pos (- (x * x) * (1 + t * t) / 2)) as E. apply Rmult_le_reg_r with (1 + t * t); [apply one_tt|]. unfold Rdiv at 1. rewrite Rmult_assoc, Rinv_l; [nra|]. pose proof (one_tt t); lra.
      * apply Rmult_le_compat_l; [lra|]. destruct (Req_dec x 0) as [->|Nx]; [right; f_equal; field|].
        left. apply exp_increasing. assert (0 < x * x) by nra. assert (0 < t * t) by nra. nra.
    + rewrite (RInt_const (V := R_CompleteNormedModule)). unfold scal; cbn; unfold mult; cbn. lra.
Qed.
Lemma gauss_small x : gauss x <= 2 / (x * x + 2).
Proof.
  unfold gauss. replace (- (x * x) / 2) with (- (x * x / 2)) by field. rewrite exp_Ropp.
  assert (P : 0 < x * x / 2 + 1) by nra. assert (E : x * x / 2 + 1 <= exp (x * x / 2)).
  { destruct (Req_dec x 0) as [->|N]; [rewrite Rmult_0_l; unfold Rdiv; rewrite Rmult_0_l, exp_0; lra|]. left. rewrite Rplus_comm. apply exp_ineq1. nra. }
  replace (2 / (x * x + 2)) with (/ (x * x / 2 + 1)) by (field; nra). apply Rinv_le_contravar; auto.
Qed.

Lemma cdf_incr x y : x < y -> cdf x < cdf y.
Proof.
  intros L. destruct (MVT_gen cdf x y pdf) as (c & _ & E).
  - intros; apply cdf_derive.
  - intros. apply derivable_continuous_pt. apply ex_derive_Reals_0. eexists. apply cdf_derive.
  - pose proof (pdf_pos c). nra.
Qed.
Lemma cdf_incr_le x y : x <= y -> cdf x <= cdf y.
Proof. intros [L| ->]; [left; now apply cdf_incr|lra]. Qed.
Lemma int_sq_lt x : RInt gauss 0 x * RInt gauss 0 x < PI / 2.
Proof. pose proof (FG x). pose proof (G_bound x). lra. Qed.
Lemma cdf_sq x : (cdf x - / 2) * (cdf x - / 2) = / 4 - RInt (gpar x) 0 1 / (2 * PI).
Proof.
  unfold cdf. replace (/ 2 + RInt gauss 0 x / sqrt (2 * PI) - / 2) with (RInt gauss 0 x / sqrt (2 * PI)) by ring. pose proof two_pi_pos. pose proof PI_RGT_0.
  replace (RInt gauss 0 x / sqrt (2 * PI) * (RInt gauss 0 x / sqrt (2 * PI))) with (RInt gauss 0 x * RInt gauss 0 x / (sqrt (2 * PI) * sqrt (2 * PI))) by (field; lra).
  rewrite sqrt_sqrt by lra. pose proof (FG x) as E. replace (RInt gauss 0 x * RInt gauss 0 x) with (PI / 2 - RInt (gpar x) 0 1) by lra. field. lra.
Qed.
Lemma cdf_bounds x : 0 < cdf x < 1.
Proof.
  pose proof (cdf_sq x) as E. pose proof (G_bound x) as [G _]. pose proof PI_RGT_0. assert (0 < RInt (gpar x) 0 1 / (2 * PI)) by (apply Rdiv_lt_0_compat; lra). split; nra.
Qed.
Lemma cdf_zero : cdf 0 = / 2.
Proof. unfold cdf. rewrite (RInt_point (V := R_CompleteNormedModule)). unfold zero; cbn. unfold Rdiv. rewrite Rmult_0_l. lra. Qed.
(** Tails: the product of the two tail probabilities is below the density's order. *)
Lemma cdf_tail x : cdf x * (1 - cdf x) <= 2 / (x * x + 2).
Proof.
  pose proof (cdf_sq x) as E. pose proof (G_bound x) as [_ G]. pose proof PI_RGT_0. pose proof (gauss_small x) as B.
  assert (RInt (gpar x) 0 1 / (2 * PI) <= gauss x).
  { apply Rmult_le_reg_r with (2 * PI); [lra|]. unfold Rdiv. rewrite Rmult_assoc, Rinv_l by lra. pose proof (gauss_pos x). pose proof PI2_3_2. unfold Rdiv in *. nra. }
  nra.
Qed.
Lemma cdf_lim_minus e : 0 < e -> exists M, forall x, x < M -> cdf x < e.
Proof.
  intros He. set (K := 4 / e). exists (- (K + 1)). assert (0 < K) by (apply Rdiv_lt_0_compat; lra). intros x Hx.
  assert (C : cdf x < / 2) by (rewrite <- cdf_zero; apply cdf_incr; lra). pose proof (cdf_bounds x). pose proof (cdf_tail x) as T.
  assert (T2 : 2 / (x * x + 2) < e / 2).
  { apply Rmult_lt_reg_r with (x * x + 2); [nra|]. unfold Rdiv at 1. rewrite Rmult_assoc, Rinv_l by nra. assert (K * e = 4) by (unfold K; field; lra). nra. }
  nra.
Qed.
Lemma cdf_lim_plus e : 0 < e -> exists M, forall x, M < x -> 1 - e < cdf x.
Proof.
  intros He. set (K := 4 / e). exists (K + 1). assert (0 < K) by (apply Rdiv_lt_0_compat; lra). intros x Hx.
  assert (C : / 2 < cdf x) by (rewrite <- cdf_zero; apply cdf_incr; lra). pose proof (cdf_bounds x). pose proof (cdf_tail x) as T.
  assert (T2 : 2 / (x * x + 2) < e / 2).
  { apply Rmult_lt_reg_r with (x * x + 2); [nra|]. unfold Rdiv at 1. rewrite Rmult_assoc, Rinv_l by nra. assert (K * e = 4) by (unfold K; field; lra). nra. }
  nra.
Qed.

(** ** The expected improvement of a standard normal variable is positive and increasing *)

Definition psi (z : R) : R := z * cdf z + pdf z.
Lemma psi_derive z : is_derive psi z (cdf z).
Proof.
  unfold psi. evar_last. { apply (is_derive_plus (fun z => z * cdf z) pdf); [|apply pdf_derive].
    apply (is_derive_mult (fun z => z) cdf z); [apply (is_derive_id z)|apply cdf_derive|intros; apply Rmult_comm]. }
  unfold plus, mult, one; cbn. ring.
Qed.
Lemma psi_incr x y : x < y -> psi x < psi y.
Proof.
  intros L. destruct (MVT_gen psi x y cdf) as (c & _ & E).
  - intros; apply psi_derive.
  - intros. apply derivable_continuous_pt. apply ex_derive_Reals_0. eexists. apply psi_derive.
  - pose proof (cdf_bounds c). nra.
Qed.
(** Mills' ratio: [cdf z + pdf z / z] decreases on the negative half line and tends to zero. *)
Lemma mills_derive z : z < 0 -> is_derive (fun z => cdf z + pdf z / z) z (- (pdf z / (z * z))).
Proof.
  intros H. evar_last. { apply (is_derive_plus cdf (fun z => pdf z / z)); [apply cdf_derive|].
    apply is_derive_ext with (fun z => mult (pdf z) (/ z)); [reflexivity|].
    apply (is_derive_mult pdf (fun z => / z) z); [apply pdf_derive| |intros; apply Rmult_comm].
    instantiate (1 := - 1 / (z * z)). auto_derive; [lra|]. field. lra. }
  unfold plus, mult; cbn. field. lra.
Qed.
Lemma mills z : z < 0 -> cdf z + pdf z / z <= 0.
Proof.
  intros Hz. apply Rnot_lt_le. intros C. set (d := cdf z + pdf z / z) in *.
  destruct (cdf_lim_minus d C) as [M HM]. set (w := Rmin (M - 1) (z - 1)). assert (W1 : w < M) by (unfold w; pose proof (Rmin_l (M - 1) (z - 1)); lra). assert (W2 : w < z) by (unfold w; pose proof (Rmin_r (M - 1) (z - 1)); lra).
  destruct (MVT_gen (fun z => cdf z + pdf z / z) w z (fun z => - (pdf z / (z * z)))) as (c & [Hc1 Hc2] & E).
  - intros x Hx. rewrite Rmax_right in Hx by lra. apply mills_derive. lra.
  - intros x Hx. rewrite Rmax_right in Hx by lra. apply derivable_continuous_pt. apply ex_derive_Reals_0. eexists. apply mills_derive. lra.
  - rewrite Rmax_right in Hc2 by lra. cbv beta in E. fold d in E.
    assert (0 < pdf c / (c * c)) by (apply Rdiv_lt_0_compat; [apply pdf_pos|nra]).
    assert (pdf w / w < 0). { pose proof (pdf_pos w). assert (/ w < 0) by (apply Rinv_lt_0_compat; lra). unfold Rdiv. nra. }
    pose proof (HM w W1). nra.
Qed.
Lemma psi_nonneg z : 0 <= psi z.
Proof.
  assert (N : forall z, z < 0 -> 0 <= psi z).
  { intros u Hu. pose proof (mills u Hu) as M. unfold psi. assert (u * (cdf u + pdf u / u) = u * cdf u + pdf u) by (field; lra). nra. }
  destruct (Rlt_dec z 0); auto. apply Rle_trans with (psi (- 1)); [apply N; lra|]. left. apply psi_incr. lra.
Qed.
Lemma psi_pos z : 0 < psi z.
Proof. apply Rle_lt_trans with (psi (z - 1)); [apply psi_nonneg|apply psi_incr; lra]. Qed.
