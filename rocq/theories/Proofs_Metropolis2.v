From Coq Require Import Reals ZArith List Bool Arith Lia Lra.
From Coquelicot Require Import Coquelicot.
From Verif Require Import Lib_Sum Lib_Normal Model_Metropolis Spec_Metropolis Proofs_Metropolis.
Import ListNotations.
Open Scope R_scope.

(** ** The schedule *)
Lemma ln10 : 0 < ln 10.
Proof. rewrite <- ln_1. apply ln_increasing; lra. Qed.
Lemma schedule_exp tol k : nu_schedule tol k = exp (ln 10 + INR k * ((ln (tol / 8) - ln 10) / 19)).
Proof. unfold nu_schedule, Rpower. f_equal. replace (INR 19) with 19 by (cbn; ring). pose proof ln10. field. lra. Qed.
Lemma schedule_first tol : nu_schedule tol 0 = 10.
Proof. rewrite schedule_exp. cbn [INR]. rewrite Rmult_0_l, Rplus_0_r. apply exp_ln. lra. Qed.
Lemma schedule_last tol : 0 < tol -> nu_schedule tol 19 = tol / 8.
Proof. intros H. rewrite schedule_exp. replace (INR 19) with 19 by (cbn; ring). replace (ln 10 + 19 * ((ln (tol / 8) - ln 10) / 19)) with (ln (tol / 8)) by field. apply exp_ln. lra. Qed.
Lemma schedule_decreases tol j k : 0 < tol < 80 -> (j < k)%nat -> nu_schedule tol k < nu_schedule tol j.
Proof.
  intros H L. rewrite !schedule_exp. apply exp_increasing. apply lt_INR in L. assert (ln (tol / 8) < ln 10) by (apply ln_increasing; lra). nra.
Qed.

(** ** The tails *)
Lemma sqrt_2pi : 1 <= sqrt (2 * PI).
Proof. rewrite <- sqrt_1. apply sqrt_le_1_alt. pose proof PI2_3_2. unfold PI2 in *. lra. Qed.
Lemma tail z : 1 <= z -> ln (cdf (- z)) <= - (z * z / 2).
Proof.
  intros H. pose proof (mills (- z)) as M. assert (D : cdf (- z) <= pdf (- z) / z). { replace (pdf (- z) / - z) with (- (pdf (- z) / z)) in M by (field; lra). specialize (M ltac:(lra)). lra. }
  assert (E : pdf (- z) / z <= exp (- (z * z / 2))).
  { assert (G : gauss (- z) = exp (- (z * z / 2))) by (unfold gauss; f_equal; field). unfold pdf. rewrite G. pose proof (exp_pos (- (z * z / 2))) as EP. pose proof sqrt_2pi. set (e := exp (- (z * z / 2))) in *. set (r := sqrt (2 * PI)) in *.
    apply (Rmult_le_reg_r (r * z)); [nra|]. replace (e / r / z * (r * z)) with (e * 1) by (field; lra). apply Rmult_le_compat_l; nra. }
  rewrite <- (ln_exp (- (z * z / 2))). apply Rcomplements.ln_le; [apply cdf_bounds|lra].
Qed.
Lemma ln_cdf_le x y : x <= y -> ln (cdf x) <= ln (cdf y).
Proof. intros H. apply Rcomplements.ln_le; [apply cdf_bounds|now apply cdf_incr_le]. Qed.
Lemma ln_cdf_neg x : ln (cdf x) <= 0.
Proof. rewrite <- ln_1. apply Rcomplements.ln_le; [apply cdf_bounds|]. left; apply cdf_bounds. Qed.
Lemma scaled_le v nu nu' : v <= 0 -> 0 < nu' <= nu -> -1 * v / nu <= -1 * v / nu'.
Proof. intros Hv (H1 & H2). unfold Rdiv. apply Rmult_le_compat_l; [lra|]. apply Rinv_le_contravar; lra. Qed.
Lemma total_le l m : Forall2 Rle l m -> total l <= total m.
Proof. unfold total. induction 1; cbn; lra. Qed.
Lemma total_feasible c nu nu' : List.Forall (fun v => v <= 0) c -> 0 < nu' <= nu ->
  total (map (fun v => ln (cdf (-1 * v / nu))) c) <= total (map (fun v => ln (cdf (-1 * v / nu'))) c).
Proof. intros H N. apply total_le. induction H; cbn; constructor; auto. apply ln_cdf_le. now apply scaled_le. Qed.
Lemma total_half c nu : List.Forall (fun v => v <= 0) c -> 0 < nu -> - INR (length c) * ln 2 <= total (map (fun v => ln (cdf (-1 * v / nu))) c).
Proof.
  intros H N. unfold total. induction H as [|v c Hv H IH]; cbn [map fold_right length]; [cbn; lra|]. rewrite S_INR. assert (ln (cdf 0) <= ln (cdf (-1 * v / nu))). { apply ln_cdf_le. unfold Rdiv. apply Rmult_le_pos; [lra|]. left. now apply Rinv_0_lt_compat. } rewrite cdf_zero, ln_Rinv in H0 by lra. lra.
Qed.
Lemma total_violated c tol : List.Exists (fun v => tol <= v) c -> 0 < tol -> total (map (fun v => ln (cdf (-1 * v / (tol / 8)))) c) <= - 32.
Proof.
  intros H T. unfold total. induction H as [v c Hv|v c H IH]; cbn [map fold_right].
  - assert (A : ln (cdf (-1 * v / (tol / 8))) <= ln (cdf (- (8)))). { apply ln_cdf_le. replace (-1 * v / (tol / 8)) with (- 8 * (v / tol)) by (field; lra). assert (1 <= v / tol); [|lra]. apply (Rmult_le_reg_r tol); auto. unfold Rdiv. rewrite Rmult_assoc, Rinv_l by lra. lra. }
    assert (B := tail 8 ltac:(lra)). assert (C : fold_right Rplus 0 (map (fun v => ln (cdf (-1 * v / (tol / 8)))) c) <= 0). { clear. induction c as [|w c IH]; cbn; [lra|]. pose proof (ln_cdf_neg (-1 * w / (tol / 8))). lra. } lra.
  - pose proof (ln_cdf_neg (-1 * v / (tol / 8))). lra.
Qed.

(** ** The integer proposal *)
Lemma geom_series p : 0 < p < 1 -> is_series (fun a => p * (1 - p) ^ a) 1.
Proof.
  intros H. assert (G := is_series_scal p (fun a => (1 - p) ^ a) (/ (1 - (1 - p)))). unfold scal in G; cbn in G; unfold mult in G; cbn in G. replace (p * / (1 - (1 - p))) with 1 in G by (field; lra). apply G. apply is_series_geom. rewrite Rabs_right; lra.
Qed.
Lemma weight_pos p a : 0 < p < 1 -> 0 < p * (1 - p) ^ a.
Proof. intros H. apply Rmult_lt_0_compat; [lra|]. apply pow_lt. lra. Qed.
(** A series below the weights and strictly below at one place is below one. *)
Lemma series_lt p h k : 0 < p < 1 -> (forall a, 0 <= h a <= 1) -> h k < 1 -> Series (fun a => p * (1 - p) ^ a * h a) < 1.
Proof.
  intros Hp Hh Hk. set (w := fun a => p * (1 - p) ^ a). assert (W := geom_series p Hp). fold w in W.
  assert (E1 : ex_series (fun a => w a * h a)). { apply (@ex_series_le R_AbsRing R_CompleteNormedModule _ w); [|eexists; exact W]. intros a. unfold norm; cbn; unfold abs; cbn. pose proof (weight_pos p a Hp). fold (w a) in H. specialize (Hh a). rewrite Rabs_right by (apply Rle_ge, Rmult_le_pos; lra). nra. }
  assert (E2 : ex_series (fun a => w a - w a * h a)). { apply (ex_series_minus w (fun a => w a * h a)); [eexists; exact W|exact E1]. }
  assert (D : Series (fun a => w a - w a * h a) = 1 - Series (fun a => w a * h a)). { rewrite Series_minus; [|eexists; exact W|exact E1]. f_equal. now apply is_series_unique. }
  assert (P : 0 < Series (fun a => w a - w a * h a)).
  { assert (N : forall a, 0 <= w a - w a * h a) by (intros a; pose proof (weight_pos p a Hp) as HH; fold (w a) in HH; specialize (Hh a); nra).
    rewrite (Series_incr_n _ (S k)) by (lia || exact E2). assert (0 <= Series (fun j => w (S k + j)%nat - w (S k + j)%nat * h (S k + j)%nat)).
    { rewrite <- (Rmult_0_l (Series (fun j => w (S k + j)%nat - w (S k + j)%nat * h (S k + j)%nat))), <- Series_scal_l. apply Series_le; [intros j; specialize (N (S k + j)%nat); split; lra|]. apply (ex_series_incr_n (fun a => w a - w a * h a) (S k)). exact E2. }
    cbn [pred]. assert (0 < sum_f_R0 (fun a => w a - w a * h a) k); [|lra]. pose proof (weight_pos p k Hp) as HH. fold (w k) in HH. assert (H1 : 0 < w k - w k * h k) by nra. destruct k; [exact H1|]. cbn [sum_f_R0]. assert (0 <= sum_f_R0 (fun a => w a - w a * h a) k) by (apply cond_pos_sum; auto). lra. }
  change (Series (fun a => w a * h a) < 1). lra.
Qed.
Lemma series_range p h : 0 < p < 1 -> (forall a, 0 <= h a <= 1) -> 0 <= Series (fun a => p * (1 - p) ^ a * h a) <= 1.
Proof.
  intros Hp Hh. assert (W := geom_series p Hp).
  assert (N : forall a, 0 <= p * (1 - p) ^ a * h a <= p * (1 - p) ^ a) by (intros a; pose proof (weight_pos p a Hp); specialize (Hh a); nra).
  split.
  - rewrite <- (Rmult_0_l (Series (fun a => p * (1 - p) ^ a * h a))), <- Series_scal_l. apply Series_le; [intros j; specialize (N j); split; lra|]. apply (@ex_series_le R_AbsRing R_CompleteNormedModule _ (fun a => p * (1 - p) ^ a)); [|eexists; exact W]. intros a. unfold norm; cbn; unfold abs; cbn. rewrite Rabs_right by (apply Rle_ge, N). apply N.
  - apply Rle_trans with (Series (fun a => p * (1 - p) ^ a)); [|right; now apply is_series_unique]. apply Series_le; [exact N|eexists; exact W].
Qed.
Lemma expect_geometric_lt p h : 0 < p < 1 -> (forall d, 0 <= h d <= 1) -> h 2%Z = 0 -> expect_geometric p h < 1.
Proof.
  intros Hp Hh H2. unfold expect_geometric. apply (series_lt p _ 2); auto; [intros a; apply series_range; auto|]. apply (series_lt p _ 0); auto. rewrite Z.sub_0_r. change (Z.of_nat 2) with 2%Z. lra.
Qed.
