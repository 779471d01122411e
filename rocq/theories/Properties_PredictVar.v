(** The predictive variance of the Gaussian process with its own correlation functions, and the prior covariance: C280 - C282. *)
From Coq Require Import Reals Lra Lia List Arith.
From Verif Require Import Lib_Sum Lib_Chol Lib_GLS Lib_Lapack Spec_Psd Lib_Psd Model_Kernel Spec_Kernel Properties_Kernel Model_PriorCov Properties_PriorCov
  Model_Likelihood Spec_Likelihood Proofs_Psd Properties_Psd Model_PredictVar Spec_PredictVar Proofs_PredictVar.
Import ListNotations.
Open Scope R_scope.

Lemma clamp_nonneg v : 0 <= v -> clamp v = v.
Proof. intros H. unfold clamp. destruct (Rlt_dec v 0); lra. Qed.
Lemma clamp_neg v : v <= 0 -> clamp v = 0.
Proof. intros H. unfold clamp. destruct (Rlt_dec v 0); lra. Qed.
Lemma clamp_le v u : 0 <= u -> v <= u -> clamp v <= u.
Proof. intros H. unfold clamp. destruct (Rlt_dec v 0); lra. Qed.
(** The error of a predictor, factored. *)
Lemma squared_error_form k th s v X x w : squared_error k th s v X x w =
  s * (1 - 2 * sumn (length X) (fun i => w i * rho k th x (nth i X [])) + form (length X) (fun i j => rho k th (nth i X []) (nth j X [])) w) + v * sumn (length X) (fun i => w i * w i).
Proof.
  unfold squared_error. rewrite <- (form_identity (length X) w). unfold form.
  rewrite (sumn_ext _ (fun i => w i * (s * rho k th x (nth i X []))) (fun i => s * (w i * rho k th x (nth i X [])))) by (intros; ring). rewrite sumn_scal.
  rewrite (sumn_ext _ (fun i => sumn _ (fun j => w i * w j * (s * rho k th (nth i X []) (nth j X []) + v * identity i j)))
    (fun i => s * sumn (length X) (fun j => w i * w j * rho k th (nth i X []) (nth j X [])) + v * sumn (length X) (fun j => w i * w j * identity i j))).
  - rewrite sumn_plus, !sumn_scal. ring.
  - intros i _. rewrite <- !sumn_scal, <- sumn_plus. apply sumn_ext. intros; ring.
Qed.

Section Predict.
(** Any linear algebra routines that satisfy their contracts. *)
Variable cholesky : nat -> matrix -> option matrix.
Variable qr : nat -> nat -> matrix -> matrix * matrix.
Variable solve_lower : nat -> matrix -> (nat -> R) -> nat -> R.
Variable solve_upper : nat -> matrix -> (nat -> R) -> nat -> R.
Variable cho_solve : nat -> matrix -> matrix -> matrix.
Variable matrix_rank : nat -> matrix -> nat.
Hypothesis LP : lapack cholesky qr solve_lower solve_upper cho_solve matrix_rank.
Notation evaluate := (evaluate cholesky qr solve_lower matrix_rank).
Notation predict_mse := (predict_mse qr solve_lower).
Notation mse_factor := (mse_factor qr solve_lower).

(** The factor and the error of predictors, for a matrix A with the factor L. *)
Lemma factor_best d A L f x r : factor (length (X d)) A L -> proper (length (X d)) (mean d) ->
  (forall w, unbiased (mean d) (length (X d)) f x w -> mse_factor d L f x r <= 1 - 2 * sumn (length (X d)) (fun i => w i * nth i r 0) + form (length (X d)) A w) /\
  exists w, unbiased (mean d) (length (X d)) f x w /\ mse_factor d L f x r = 1 - 2 * sumn (length (X d)) (fun i => w i * nth i r 0) + form (length (X d)) A w.
Proof.
  intros FA PR. set (n := length (X d)) in *. pose proof FA as (LO & DI & _).
  assert (NS : nonsingular n L) by (intros i Hi; specialize (DI i Hi); lra).
  set (rt := solve_lower n L (fun i => nth i r 0)).
  assert (HR : forall i, (i < n)%nat -> sumn n (fun k => L i k * rt k) = nth i r 0) by (intros i Hi; apply (lower_solved _ _ _ _ _ _ LP n L (fun i => nth i r 0) i LO NS Hi)).
  unfold Model_PredictVar.mse_factor. fold n. fold rt. unfold unbiased. destruct (mean d) as [t|p F].
  - split.
    + intros w _. rewrite (completed n A L (fun i => nth i r 0) rt FA HR w).
      assert (0 <= sumn n (fun k => (lifted n L w k - rt k) * (lifted n L w k - rt k))) by (apply sumn_nonneg; intros; apply Rle_0_sqr). lra.
    + destruct (lifted_onto n A L FA rt) as (w & W). exists w. split; auto. rewrite (completed n A L (fun i => nth i r 0) rt FA HR w).
      rewrite (sumn_zero n (fun k => (lifted n L w k - rt k) * (lifted n L w k - rt k))) by (intros k Hk; rewrite W by auto; ring). ring.
  - destruct PR as (_ & IF). cbv zeta. set (Ft := fun i c => solve_lower n L (fun k => F k c) i). set (G := snd (qr n p Ft)). set (u := solve_lower p _ _).
    assert (HFt : forall i c, (i < n)%nat -> (c < p)%nat -> sumn n (fun k => L i k * Ft k c) = F i c) by (intros i c Hi Hc; apply (lower_solved _ _ _ _ _ _ LP n L (fun k => F k c) i LO NS Hi)).
    assert (HQ : is_qr n p Ft (fst (qr n p Ft)) G).
    { apply (qr_factors _ _ _ _ _ _ LP). intros b Hb. apply IF. intros i Hi.
      rewrite (sumn_ext p _ (fun c => sumn n (fun k => L i k * (Ft k c * b c)))).
      - rewrite sumn_swap. apply sumn_zero. intros k Hk. rewrite sumn_scal, Hb by auto. ring.
      - intros c Hc. rewrite <- HFt by auto. rewrite <- sumn_scal_r. apply sumn_ext. intros; ring. }
    assert (HG : forall a, (a < p)%nat -> G a a <> 0) by (intros a Ha; apply (G_diagonal n p L F Ft (fst (qr n p Ft)) G HFt HQ IF a Ha)).
    assert (HU : forall c, (c < p)%nat -> sumn p (fun a => G a c * u a) = sumn n (fun i => Ft i c * rt i) - f x c).
    { intros c Hc. apply (lower_solved _ _ _ _ _ _ LP p (fun a b => G b a) (fun c => sumn n (fun i => Ft i c * rt i) - f x c) c); auto. intros a b H. destruct HQ as (_ & _ & U). apply U. lia. }
    split.
    + intros w UB. rewrite (completed n A L (fun i => nth i r 0) rt FA HR w).
      pose proof (bessel n p Ft (fst (qr n p Ft)) G HQ (fun k => lifted n L w k - rt k) (fun a => - u a) (unbiased_part n L rt p F Ft _ G (f x) u HFt HQ HG HU w UB)) as B.
      cbv beta in B. rewrite (sumn_ext p (fun a => - u a * - u a) (fun a => u a * u a)) in B by (intros; ring). lra.
    + destruct (unbiased_attained n A L rt FA p F Ft _ G (f x) u HFt HQ HU) as (w & UB & W). exists w. split; auto.
      rewrite (completed n A L (fun i => nth i r 0) rt FA HR w), W. ring.
Qed.

(** ** C280: predictions without noise *)
(** The reported variance is the smallest mean squared error of a linear predictor that is unbiased for the trend. *)
Theorem C280_best noise d mm par e f Xn : evaluate Noiseless noise d par = Value (Some e) -> smooth (kern d) -> positive (theta e) -> accepted (theta e) mm ->
  rectangular (X d) mm -> rectangular Xn mm -> proper (length (X d)) (mean d) ->
  exists V, predict_mse Noiseless d par e f Xn = Some V /\ length V = length Xn /\
    forall i j, (i < length Xn)%nat -> (j < targets d)%nat -> let x := nth i Xn [] in let v := nth j (nth i V []) 0 in
      (forall w, unbiased (mean d) (length (X d)) f x w -> v <= squared_error (kern d) (theta e) (sigma2_of Noiseless par e j) 0 (X d) x w) /\
      exists w, unbiased (mean d) (length (X d)) f x w /\ v = squared_error (kern d) (theta e) (sigma2_of Noiseless par e j) 0 (X d) x w.
Proof.
  intros E SK P AC RX RN PR. destruct (fitted_matrix _ _ _ _ _ _ LP Noiseless noise d par e E I) as (M & A & EM & FA & EA & T). rewrite (EA eq_refl) in FA. clear EA.
  destruct (predicted _ qr solve_lower _ Noiseless mm noise d par e f Xn E SK P AC RX RN) as (r & V & EV & LV & _ & HV). exists V. split; auto. split; auto.
  intros i j Hi Hj x v. destruct (HV i Hi) as (_ & Hr & Hv). specialize (Hv j Hj). fold v x in Hv. destruct (T j Hj) as (_ & _ & S0 & _). set (s := sigma2_of Noiseless par e j) in *.
  assert (LX : length x = mm) by (apply (row_length Xn mm i RN Hi)).
  destruct (factor_best d M _ f x (nth i r []) FA PR) as (B1 & w0 & U0 & B2).
  assert (EQ : forall w, squared_error (kern d) (theta e) s 0 (X d) x w = s * (1 - 2 * sumn (length (X d)) (fun l => w l * nth l (nth i r []) 0) + form (length (X d)) M w)).
  { intros w. rewrite squared_error_form. rewrite (sumn_ext _ (fun l => w l * nth l (nth i r []) 0) (fun l => w l * rho (kern d) (theta e) x (nth l (X d) []))) by (intros l Hl; now rewrite Hr).
    rewrite (form_ext _ M (fun a b => rho (kern d) (theta e) (nth a (X d) []) (nth b (X d) []))) by (intros; apply (rho_matrix (kern d) (theta e) mm (X d) M SK P AC RX EM); auto). ring. }
  assert (NN : 0 <= mse_factor d (a_L (aux_of e)) f x (nth i r [])).
  { rewrite B2. rewrite (sumn_ext _ (fun l => w0 l * nth l (nth i r []) 0) (fun l => w0 l * rho (kern d) (theta e) x (nth l (X d) []))) by (intros l Hl; now rewrite Hr).
    rewrite (form_ext _ M (fun a b => rho (kern d) (theta e) (nth a (X d) []) (nth b (X d) []))) by (intros; apply (rho_matrix (kern d) (theta e) mm (X d) M SK P AC RX EM); auto).
    apply (error_nonneg (kern d) (theta e) mm (X d) x SK P AC RX LX). }
  rewrite clamp_nonneg in Hv by (apply Rmult_le_pos; lra). split.
  - intros w U. rewrite EQ, Hv, Rmult_comm. apply Rmult_le_compat_l; [lra|]. now apply B1.
  - exists w0. split; auto. rewrite EQ, Hv, <- B2. ring.
Qed.
(** It is never negative, and it vanishes at the points of the data and nowhere else. *)
Theorem C280_zero_exactly noise d mm par e f Xn : evaluate Noiseless noise d par = Value (Some e) -> smooth (kern d) -> positive (theta e) -> accepted (theta e) mm ->
  rectangular (X d) mm -> rectangular Xn mm -> proper (length (X d)) (mean d) -> basis_at (mean d) (X d) f ->
  exists V, predict_mse Noiseless d par e f Xn = Some V /\ length V = length Xn /\
    forall i j, (i < length Xn)%nat -> (j < targets d)%nat -> 0 <= nth j (nth i V []) 0 /\ (nth j (nth i V []) 0 = 0 <-> In (nth i Xn []) (X d)).
Proof.
  intros E SK P AC RX RN PR BA. destruct (C280_best noise d mm par e f Xn E SK P AC RX RN PR) as (V & EV & LV & HV). exists V. split; auto. split; auto.
  intros i j Hi Hj. destruct (HV i j Hi Hj) as (B1 & w & U & B2). clear HV. cbv zeta in *. set (x := nth i Xn []) in *. set (v := nth j (nth i V []) 0) in *.
  destruct (fitted_matrix _ _ _ _ _ _ LP Noiseless noise d par e E I) as (M & A & EM & FA & EA & T). rewrite (EA eq_refl) in FA. clear EA.
  destruct (T j Hj) as (_ & _ & S0 & _). set (s := sigma2_of Noiseless par e j) in *. assert (LX : length x = mm) by (apply (row_length Xn mm i RN Hi)).
  assert (NN : 0 <= v).
  { rewrite B2, squared_error_form. pose proof (error_nonneg (kern d) (theta e) mm (X d) x SK P AC RX LX w). nra. }
  split; auto. split.
  - intros Z. destruct (in_dec (list_eq_dec Req_EM_T) x (X d)) as [|NI]; auto. exfalso.
    assert (ND : NoDup (X d)).
    { rewrite NoDup_nth with (d := []). intros a b Ha Hb Q. destruct (Nat.eq_dec a b) as [|N]; auto. exfalso.
      pose proof (rho_matrix (kern d) (theta e) mm (X d) M SK P AC RX EM) as RM.
      apply (equal_rows _ M _ a b FA); auto; rewrite !RM by auto; rewrite Q; auto. }
    rewrite B2, squared_error_form in Z. pose proof (error_positive (kern d) (theta e) mm (X d) x SK P AC RX LX w ND NI). nra.
  - intros IN. apply (In_nth _ _ []) in IN as (a & Ha & Ea). apply Rle_antisym; auto.
    assert (UA : unbiased (mean d) (length (X d)) f x (fun l => identity a l)).
    { unfold unbiased. unfold basis_at in BA. destruct (mean d) as [|p F]; auto. intros c Hc. rewrite (sumn_identity (length (X d)) (fun l => F l c) a Ha). rewrite <- Ea. now apply BA. }
    specialize (B1 _ UA). rewrite squared_error_form in B1. rewrite (sumn_identity (length (X d)) (fun l => rho (kern d) (theta e) x (nth l (X d) [])) a Ha) in B1.
    assert (EF : form (length (X d)) (fun b c => rho (kern d) (theta e) (nth b (X d) []) (nth c (X d) [])) (fun l => identity a l) = rho (kern d) (theta e) x x).
    { unfold form. rewrite (sumn_ext _ _ (fun b => identity a b * sumn (length (X d)) (fun c => identity a c * rho (kern d) (theta e) (nth b (X d) []) (nth c (X d) [])))).
      - rewrite (sumn_identity _ _ a Ha). rewrite (sumn_identity (length (X d)) (fun c => rho (kern d) (theta e) (nth a (X d) []) (nth c (X d) [])) a Ha). now rewrite Ea.
      - intros b _. rewrite <- sumn_scal. apply sumn_ext. intros; ring. }
    rewrite EF, Ea, (rho_self (kern d) (theta e) mm x SK P AC LX) in B1. lra.
Qed.

(** ** C282: predictions with noise, known trend *)
(** The reported variance never exceeds the mean squared error of any linear predictor: it is at most the smallest one. *)
Theorem C282_optimistic_partial m noise d mm par e f Xn t : evaluate m noise d par = Value (Some e) -> admissible m noise par -> mean d = Known t ->
  smooth (kern d) -> positive (theta e) -> accepted (theta e) mm -> rectangular (X d) mm -> rectangular Xn mm ->
  exists V, predict_mse m d par e f Xn = Some V /\ length V = length Xn /\
    forall i j w, (i < length Xn)%nat -> (j < targets d)%nat ->
      0 <= nth j (nth i V []) 0 <= squared_error (kern d) (theta e) (sigma2_of m par e j) (noise_of m noise par e j) (X d) (nth i Xn []) w.
Proof.
  intros E AD KN SK P AC RX RN. destruct (fitted_matrix _ _ _ _ _ _ LP m noise d par e E AD) as (M & A & EM & FA & _ & T).
  destruct (predicted _ qr solve_lower _ m mm noise d par e f Xn E SK P AC RX RN) as (r & V & EV & LV & _ & HV). exists V. split; auto. split; auto.
  intros i j w Hi Hj. destruct (HV i Hi) as (_ & Hr & Hv). specialize (Hv j Hj). destruct (T j Hj) as (T0 & T1 & S0 & N0 & TA). set (s := sigma2_of m par e j) in *. set (v := noise_of m noise par e j) in *.
  set (x := nth i Xn []) in *. assert (LX : length x = mm) by (apply (row_length Xn mm i RN Hi)).
  assert (PR : proper (length (X d)) (mean d)) by (rewrite KN; exact I).
  destruct (factor_best d A _ f x (nth i r []) FA PR) as (B1 & _). specialize (B1 w). rewrite KN in B1. specialize (B1 I).
  rewrite Hv. split; [unfold clamp; destruct (Rlt_dec _ 0); lra|].
  rewrite (sumn_ext _ (fun l => w l * nth l (nth i r []) 0) (fun l => w l * rho (kern d) (theta e) x (nth l (X d) []))) in B1 by (intros l Hl; now rewrite Hr).
  pose proof (error_nonneg (kern d) (theta e) mm (X d) x SK P AC RX LX w) as NN.
  rewrite squared_error_form. set (c := sumn (length (X d)) (fun l => w l * rho (kern d) (theta e) x (nth l (X d) []))) in *.
  set (q := form (length (X d)) (fun a b => rho (kern d) (theta e) (nth a (X d) []) (nth b (X d) [])) w) in *. set (ww := sumn (length (X d)) (fun a => w a * w a)).
  assert (EQ : total e j * form (length (X d)) A w = s * q + v * ww).
  { unfold q, ww. rewrite <- (form_identity (length (X d)) w), <- !form_scal, <- form_plus. apply form_ext. intros a b Ha Hb. rewrite TA. f_equal. f_equal. apply (rho_matrix (kern d) (theta e) mm (X d) M SK P AC RX EM); auto. }
  assert (W0 : 0 <= ww) by (apply sumn_nonneg; intros; apply Rle_0_sqr).
  assert (FA0 : 0 <= form (length (X d)) A w) by (apply (factor_semi _ _ _ FA)).
  apply clamp_le; [nra|]. nra.
Qed.
(** At the points of the data it is zero, whatever the noise; but every linear predictor has a positive mean squared error there. *)
Theorem C282_every_fit m noise d mm par e f t : evaluate m noise d par = Value (Some e) -> admissible m noise par -> mean d = Known t ->
  smooth (kern d) -> positive (theta e) -> accepted (theta e) mm -> rectangular (X d) mm ->
  exists V, predict_mse m d par e f (X d) = Some V /\ length V = length (X d) /\
    forall i j, (i < length (X d))%nat -> (j < targets d)%nat -> nth j (nth i V []) 0 = 0 /\
      (0 < noise_of m noise par e j -> forall w, 0 < squared_error (kern d) (theta e) (sigma2_of m par e j) (noise_of m noise par e j) (X d) (nth i (X d) []) w).
Proof.
  intros E AD KN SK P AC RX. destruct (fitted_matrix _ _ _ _ _ _ LP m noise d par e E AD) as (M & A & EM & FA & _ & T).
  destruct (predicted _ qr solve_lower _ m mm noise d par e f (X d) E SK P AC RX RX) as (r & V & EV & LV & _ & HV). exists V. split; auto. split; auto.
  intros i j Hi Hj. destruct (HV i Hi) as (_ & Hr & Hv). specialize (Hv j Hj). destruct (T j Hj) as (T0 & T1 & S0 & N0 & TA). set (s := sigma2_of m par e j) in *. set (v := noise_of m noise par e j) in *.
  set (x := nth i (X d) []) in *. assert (LX : length x = mm) by (apply (row_length (X d) mm i RX Hi)). split.
  - rewrite Hv. apply clamp_neg. unfold Model_PredictVar.mse_factor. rewrite KN. set (rt := solve_lower _ _ _). pose proof FA as (LO & DI & _).
    assert (NS : nonsingular (length (X d)) (a_L (aux_of e))) by (intros a Ha; specialize (DI a Ha); lra).
    assert (HR : forall a, (a < length (X d))%nat -> sumn (length (X d)) (fun k => a_L (aux_of e) a k * rt k) = nth a (nth i r []) 0) by (intros a Ha; apply (lower_solved _ _ _ _ _ _ LP _ _ (fun a => nth a (nth i r []) 0) a LO NS Ha)).
    assert (AI : A i i = 1).
    { pose proof (TA i i) as Q. rewrite (rho_matrix (kern d) (theta e) mm (X d) M SK P AC RX EM) in Q by auto. fold x in Q. rewrite (rho_self (kern d) (theta e) mm x SK P AC LX) in Q.
      unfold identity in Q. rewrite Nat.eqb_refl in Q. apply (Rmult_eq_reg_l (total e j)); lra. }
    assert (RI : nth i (nth i r []) 0 = 1) by (rewrite Hr by auto; apply (rho_self (kern d) (theta e) mm x SK P AC LX)).
    pose proof (unit_norm _ A _ (fun a => nth a (nth i r []) 0) rt FA HR i Hi AI RI). nra.
  - intros VP w. rewrite squared_error_form. pose proof (error_nonneg (kern d) (theta e) mm (X d) x SK P AC RX LX w) as NN.
    assert (W0 : 0 <= sumn (length (X d)) (fun a => w a * w a)) by (apply sumn_nonneg; intros; apply Rle_0_sqr).
    destruct (Rle_lt_or_eq_dec 0 _ W0) as [W1|W1]; [nra|].
    assert (WZ : forall a, (a < length (X d))%nat -> w a = 0) by (apply sum_squares_zero; lra).
    rewrite (sumn_zero _ (fun a => w a * rho (kern d) (theta e) x (nth a (X d) []))) by (intros a Ha; rewrite WZ by auto; ring). rewrite zero_form by auto. rewrite <- W1. lra.
Qed.
End Predict.
Print Assumptions C280_best.
Print Assumptions C280_zero_exactly.
Print Assumptions C282_optimistic_partial.
Print Assumptions C282_every_fit.

(** ** C281: the prior covariance of one set of points *)
Lemma sumsq_scaled r l : sumsq (map (fun s => s * r) l) = r * r * sumsq l.
Proof. unfold sumsq. induction l as [|a l IH]; cbn; [ring|]. rewrite IH. ring. Qed.
Lemma sumsq_nonneg l : 0 <= sumsq l.
Proof. unfold sumsq. induction l as [|a l IH]; cbn; [lra|]. pose proof (Rle_0_sqr a). unfold Rsqr in *. lra. Qed.
Lemma sumsq_zero l : sumsq l = 0 -> List.Forall (fun v => v = 0) l.
Proof. induction l as [|a l IH]; constructor; cbn in *; pose proof (sumsq_nonneg l); pose proof (Rle_0_sqr a); unfold Rsqr in *; unfold sumsq in *; cbn in *; [nra|]. apply IH. lra. Qed.
(** prior_cov(X1) is a symmetric, positive semi-definite matrix; it is positive definite if the points are pairwise different and the
    variances are not all zero. *)
Theorem C281_covariance k theta d sigma2 X1 only_corr : smooth k -> positive theta -> accepted theta d -> rectangular X1 d -> X1 <> [] -> sigma2 <> [] ->
  exists C, prior_cov k theta d sigma2 X1 Absent only_corr = Some C /\ length C = length X1 /\
    (forall i j, (i < length X1)%nat -> (j < length X1)%nat -> nth j (nth i C []) 0 = nth i (nth j C []) 0) /\
    semidefinite (length X1) (fun i j => nth j (nth i C []) 0) /\
    (NoDup X1 -> (only_corr = false -> exists s, In s sigma2 /\ s <> 0) -> definite (length X1) (fun i j => nth j (nth i C []) 0)).
Proof.
  intros SK P AC RX NE NS. unfold prior_cov. cbn [second_points].
  assert (CO : columns X1 = d) by (destruct X1 as [|x X1]; [congruence|]; inversion RX; auto). rewrite CO, Nat.eqb_refl. cbn [andb].
  destruct (cross_defined k theta d X1 X1 SK P AC RX RX) as (r & -> & LR & HR).
  destruct (C62_defined k theta X1 d RX) as (M & EM); [destruct SK as [-> | [-> | ->]]; exact AC|].
  pose proof (rho_matrix k theta d X1 M SK P AC RX EM) as HM.
  assert (LN : 0 < INR (length sigma2)) by (apply lt_0_INR; destruct sigma2; [congruence|cbn; lia]).
  set (q := sumsq sigma2 / INR (length sigma2)). assert (Q0 : 0 <= q) by (apply Rmult_le_pos; [apply sumsq_nonneg|left; now apply Rinv_0_lt_compat]).
  set (sc := if only_corr then 1 else sqrt q).
  assert (SC : 0 <= sc) by (unfold sc; destruct only_corr; [lra|apply sqrt_pos]).
  eexists. split; [reflexivity|]. set (C := if only_corr then r else _).
  assert (EC : forall i j, (i < length X1)%nat -> (j < length X1)%nat -> nth j (nth i C []) 0 = sc * M i j).
  { intros i j Hi Hj. destruct (HR i Hi) as (L2 & H2). rewrite HM by auto. rewrite <- H2 by auto. unfold C, sc. destruct only_corr; [ring|].
    rewrite (map_get _ [] []) by lia. rewrite (map_get _ 0 0) by lia. rewrite sumsq_scaled. set (v := nth j (nth i r []) 0).
    assert (V : 0 <= v) by (unfold v; rewrite H2, <- HM by auto; destruct (Nat.eq_dec i j) as [<-|N]; [rewrite (proj1 (proj2 (C62_correlation_matrix _ _ _ _ EM i i Hi Hi))); lra|];
      apply (C62_range k theta _ _ P (proj2 (proj2 (C62_correlation_matrix _ _ _ _ EM i j Hi Hj)) N))).
    replace (v * v * sumsq sigma2 / INR (length sigma2)) with (v * v * q) by (unfold q; field; lra). rewrite sqrt_mult by nra. rewrite sqrt_square by auto. ring. }
  split; [unfold C; destruct only_corr; [|rewrite map_length]; auto|]. split.
  { intros i j Hi Hj. rewrite !EC by auto. f_equal. apply (C62_correlation_matrix _ _ _ _ EM i j Hi Hj). }
  split.
  - intros c. rewrite (form_ext _ _ (fun i j => sc * M i j)) by (intros; now apply EC). rewrite form_scal. apply Rmult_le_pos; auto. apply (correlation_semi k theta X1 d M SK P RX EM).
  - intros ND S0 c HC. rewrite (form_ext _ _ (fun i j => sc * M i j)) by (intros; now apply EC). rewrite form_scal. apply Rmult_lt_0_compat; [|apply (correlation_definite k theta X1 d M SK P RX ND EM c HC)].
    unfold sc. destruct only_corr; [lra|]. destruct (S0 eq_refl) as (s & IN & NZ). apply sqrt_lt_R0. apply Rmult_lt_0_compat; [|now apply Rinv_0_lt_compat].
    destruct (Rle_lt_or_eq_dec 0 _ (sumsq_nonneg sigma2)) as [|Z]; auto. exfalso. symmetry in Z. apply sumsq_zero in Z. rewrite Forall_forall in Z. apply NZ. now apply Z.
Qed.
Print Assumptions C281_covariance.
Example C281_case : exists C, prior_cov Matern [1; 2] 2 [3; 4] [[0; 0]; [1; 0]; [0; 3]] Absent false = Some C /\ definite 3 (fun i j => nth j (nth i C []) 0).
Proof.
  destruct (C281_covariance Matern [1; 2] 2 [3; 4] [[0; 0]; [1; 0]; [0; 3]] false) as (C & E & _ & _ & _ & D); try discriminate.
  - right; right; reflexivity.
  - repeat constructor; lra.
  - right; reflexivity.
  - repeat constructor.
  - exists C. split; auto. apply D.
    + repeat constructor; cbn; intros H; repeat (destruct H as [H|H]; [injection H; intros; lra|]); exact H.
    + intros _. exists 3. split; [left; reflexivity|lra].
Qed.

(** ** Data that meet the hypotheses *)
Definition one_line (tr : trend) : data := Data [[0]; [1]] 1 (fun i _ => if (i =? 0)%nat then 1 else 0) tr SqExp.
Lemma one_line_fit : exists e, evaluate my_cholesky my_qr my_lower my_rank Noiseless 0 (one_line (Known (fun _ => 0))) [1] = Value (Some e) /\ theta e = [1].
Proof.
  set (d := one_line (Known (fun _ => 0))).
  assert (P : positive [1]) by (repeat constructor; lra). assert (RX : rectangular (X d) 1) by (repeat constructor).
  assert (ND : NoDup (X d)) by (repeat constructor; cbn; intros H; repeat (destruct H as [H|H]; [injection H; intros; lra|]); exact H).
  destruct (C62_defined SqExp [1] (X d) 1 RX) as (M & E); [left; reflexivity|].
  destruct (C278_noiseless _ _ _ _ _ _ lapack_exists d 1 [1] M ltac:(left; reflexivity) RX P ND E) as (a & EA).
  pose proof (aux_L _ _ _ _ _ _ lapack_exists d M a (corr_symmetric _ _ _ _ E) EA) as FA.
  unfold evaluate. change (kern d) with SqExp. rewrite E, EA.
  assert (QN : a_Q a = None /\ a_rho a 0%nat 0%nat <> 0).
  { revert EA. unfold compute_aux_var. destruct (my_cholesky (length (X d)) M) as [L|] eqn:EL; [|discriminate]. change (mean d) with (Known (fun _ => 0)). cbv iota zeta. intros [= <-]. cbn [a_Q a_rho a_L] in *. split; auto.
    destruct FA as (LO & DI & _). change (length (X d)) with 2%nat in *. assert (NS : nonsingular 2 L) by (intros i Hi; specialize (DI i Hi); lra).
    pose proof (lower_solved _ _ _ _ _ _ lapack_exists 2 L (fun k => y d k 0) 0 LO NS ltac:(lia))%nat as H1.
    pose proof (lower_solved _ _ _ _ _ _ lapack_exists 2 L (fun _ => 0) 0%nat LO NS ltac:(lia)) as H2.
    rewrite !sumn_S, !sumn_0, (LO 0 1)%nat in H1, H2 by lia. intros Z. assert (Y0 : y d 0%nat 0%nat = 1) by reflexivity. cbv beta in H1, H2, Z. rewrite Y0 in H1. set (a1 := my_lower 2 L (fun k => y d k 0%nat) 0%nat) in *. set (a2 := my_lower 2 L (fun _ => 0) 0%nat) in *. assert (QQ : a1 = a2) by (apply Rminus_diag_uniq; exact Z). rewrite QQ in H1. lra. }
  destruct QN as (-> & NZ). cbv zeta. change (length (X d)) with 2%nat. change (targets d) with 1%nat. cbn [Nat.sub Nat.eqb orb seq existsb].
  assert (SP : 0 < sum_sq 2 (a_rho a) 0).
  { unfold sum_sq. rewrite !sumn_S, sumn_0. pose proof (pow2_ge_0 (a_rho a 1 0))%nat. assert (0 < a_rho a 0%nat 0%nat ^ 2) by (rewrite <- Rsqr_pow2; now apply Rsqr_pos_lt). lra. }
  destruct (Req_EM_T (sum_sq 2 (a_rho a) 0 / INR 2) 0) as [Z|_]; [exfalso; cbn [INR] in Z; lra|]. eexists. split; reflexivity.
Qed.
(** Without noise: the variance at 0 and 1 is zero, at 1/2 it is positive. *)
Example C280_case : exists e V, evaluate my_cholesky my_qr my_lower my_rank Noiseless 0 (one_line (Known (fun _ => 0))) [1] = Value (Some e) /\
  predict_mse my_qr my_lower Noiseless (one_line (Known (fun _ => 0))) [1] e (fun _ _ => 0) [[0]; [/ 2]; [1]] = Some V /\
  nth 0 (nth 0 V []) 0 = 0 /\ 0 < nth 0 (nth 1 V []) 0 /\ nth 0 (nth 2 V []) 0 = 0.
Proof.
  destruct one_line_fit as (e & E & ET). exists e.
  destruct (C280_zero_exactly _ _ _ _ _ _ lapack_exists 0 (one_line (Known (fun _ => 0))) 1 [1] e (fun _ _ => 0) [[0]; [/ 2]; [1]] E) as (V & EV & _ & H); try rewrite ET.
  - left; reflexivity.
  - repeat constructor; lra.
  - left; reflexivity.
  - repeat constructor.
  - repeat constructor.
  - exact I.
  - exact I.
  - exists V. split; auto. split; auto. split; [apply (H 0 0)%nat; cbn; auto; lia|]. split; [|apply (H 2 0)%nat; cbn; auto; lia].
    destruct (H 1 0)%nat as (H1 & H2); cbn; try lia. destruct (Rle_lt_or_eq_dec 0 _ H1) as [|Z]; auto. symmetry in Z. apply H2 in Z. exfalso. cbn in Z.
    repeat (destruct Z as [Z|Z]; [injection Z; intros; lra|]). exact Z.
Qed.
(** C282: repeated measurements of a noisy function: the reported variance is zero where it is at least positive. *)
Theorem C282_refuted : exists noise d par e V, kern d = Matern /\ mean d = Known (fun _ => 0) /\ rectangular (X d) 2 /\ 0 < noise /\
  evaluate my_cholesky my_qr my_lower my_rank Noisy noise d par = Value (Some e) /\ positive par /\
  predict_mse my_qr my_lower Noisy d par e (fun _ _ => 0) (X d) = Some V /\
  nth 0 (nth 0 V []) 0 = 0 /\ forall w, 0 < squared_error (kern d) (theta e) (sigma2_of Noisy par e 0) (noise_of Noisy noise par e 0) (X d) (nth 0 (X d) []) w.
Proof.
  destruct C278_case as (e & E). exists (/ 1000000), repeated_data, [1; 2; 5], e.
  assert (ET : theta e = [1; 2]).
  { revert E. unfold evaluate. destruct (correlation_matrix _ _ _); [|discriminate]. intros [= E]. destruct (compute_aux_var _ _ _ _ _) in E; [|discriminate]. injection E as <-. reflexivity. }
  destruct (C282_every_fit _ _ _ _ _ _ lapack_exists Noisy (/ 1000000) repeated_data 2 [1; 2; 5] e (fun _ _ => 0) (fun _ => 0) E) as (V & EV & _ & H); try rewrite ET.
  - cbn. lra.
  - reflexivity.
  - right; right; reflexivity.
  - repeat constructor; lra.
  - right; reflexivity.
  - repeat constructor.
  - exists V. split; [reflexivity|]. split; [reflexivity|]. split; [repeat constructor|]. split; [lra|]. split; [exact E|]. split; [repeat constructor; lra|]. split; [exact EV|].
    destruct (H 0 0)%nat as (H1 & H2); cbn; try lia. split; auto. rewrite ET in H2. apply H2. cbn. lra.
Qed.
Print Assumptions C282_refuted.
