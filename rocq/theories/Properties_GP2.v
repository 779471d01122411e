(** Properties of the Gaussian process: C129 (equivariance) and C130 (the order of the data), which
    compare two fitted models. *)
From mathcomp Require Import all_ssreflect all_algebra fingroup perm.
From Verif Require Import Model_GP Spec_GP Proofs_GP Properties_GP.
Set Implicit Arguments.
Unset Strict Implicit.
Unset Printing Implicit Defensive.
Import Order.Theory GRing.Theory Num.Theory.
Local Open Scope ring_scope.

Section Equivariance.
Variables (F : realFieldType) (n p t : nat) (R : 'M[F]_n) (k : 'rV[F]_n) (H : 'M[F]_(n, p)) (h : 'rV[F]_p).
Variables (y : 'M[F]_(n, t)) (a : F) (c : 'M[F]_(p, t)).

Lemma gls_affine : H^T *m invmx R *m H \in unitmx ->
  gls_beta R H (a *: y + H *m c) = a *: gls_beta R H y + c.
Proof.
move=> U; rewrite /gls_beta mulmxDr -scalemxAr mulmxDr -scalemxAr; congr (_ + _).
by rewrite [_ *m invmx R *m (H *m c)]mulmxA mulKmx.
Qed.
Lemma residual_affine : H^T *m invmx R *m H \in unitmx ->
  a *: y + H *m c - H *m gls_beta R H (a *: y + H *m c) = a *: (y - H *m gls_beta R H y).
Proof. by move=> U; rewrite gls_affine // mulmxDr opprD -scalemxAr scalerBr addrACA subrr addr0. Qed.
Lemma mean_affine : H^T *m invmx R *m H \in unitmx ->
  posterior_mean_estimated R k H h (a *: y + H *m c) = a *: posterior_mean_estimated R k H h y + h *m c.
Proof.
move=> U; rewrite /posterior_mean_estimated /posterior_mean_known residual_affine // gls_affine //.
by rewrite mulmxDr -!scalemxAr scalerDr -!addrA [h *m c + _]addrC.
Qed.
End Equivariance.

Section Order.
Variables (F : realFieldType) (n p t : nat) (R : 'M[F]_n) (k : 'rV[F]_n) (v : F) (H : 'M[F]_(n, p)) (h : 'rV[F]_p).
Variables (y : 'M[F]_(n, t)) (W : 'M[F]_n).
Hypotheses (OW : W^T *m W = 1%:M) (UR : R \in unitmx).

Lemma UW : W \in unitmx.
Proof. by have [] := mulmx1_unit OW. Qed.
Lemma inv_conj : invmx (W *m R *m W^T) = W *m invmx R *m W^T.
Proof.
have U : W *m R *m W^T \in unitmx by rewrite !unitmx_mul UW UR unitmx_tr UW.
apply: (can_inj (mulKmx U)); rewrite mulmxV //.
rewrite !mulmxA -[_ *m W^T *m W]mulmxA OW mulmx1 -[_ *m R *m invmx R]mulmxA mulmxV // mulmx1.
exact/esym/mulmx1C.
Qed.
Lemma kinv_conj : (k *m W^T) *m invmx (W *m R *m W^T) = k *m invmx R *m W^T.
Proof. by rewrite inv_conj !mulmxA -[k *m W^T *m W]mulmxA OW mulmx1. Qed.
Lemma cancel m (A : 'M[F]_(n, m)) (l : 'rV[F]_n) : l *m W^T *m (W *m A) = l *m A.
Proof. by rewrite mulmxA -[l *m W^T *m W]mulmxA OW mulmx1. Qed.
Lemma mean_conj b : posterior_mean_known (W *m R *m W^T) (k *m W^T) (W *m H) h (W *m y) b = posterior_mean_known R k H h y b.
Proof. by rewrite /posterior_mean_known kinv_conj -[W *m H *m b]mulmxA -mulmxBr cancel. Qed.
Lemma var_conj : posterior_var_known (W *m R *m W^T) (k *m W^T) v = posterior_var_known R k v.
Proof. by rewrite /posterior_var_known kinv_conj trmx_mul trmxK cancel. Qed.
Lemma quad_conj a b (A : 'M[F]_(n, a)) (B : 'M[F]_(n, b)) :
  (W *m A)^T *m invmx (W *m R *m W^T) *m (W *m B) = A^T *m invmx R *m B.
Proof.
by rewrite inv_conj trmx_mul !mulmxA -[A^T *m W^T *m W]mulmxA OW mulmx1 -[_ *m W^T *m W]mulmxA OW mulmx1.
Qed.
Lemma gls_conj : gls_beta (W *m R *m W^T) (W *m H) (W *m y) = gls_beta R H y.
Proof. by rewrite /gls_beta !quad_conj. Qed.
Lemma var_estimated_conj : posterior_var_estimated (W *m R *m W^T) (k *m W^T) v (W *m H) h = posterior_var_estimated R k v H h.
Proof. by rewrite /posterior_var_estimated var_conj quad_conj kinv_conj cancel. Qed.
End Order.

Section Props.
Variables (F : realFieldType) (P Theta : Type) (n p t : nat).
Variable corr : Theta -> P -> P -> F.
Variable cholesky : 'M[F]_n -> option 'M[F]_n.
Variable qr : 'M[F]_(n, p) -> 'M[F]_(n, p) * 'M[F]_p.
Variables accept accept' : mode -> par F Theta -> env F n p t -> bool.
Variables best best' : nat -> par F Theta.
Hypotheses (HC : cholesky_contract cholesky) (HQ : qr_contract qr).
Hypothesis HK : forall th, is_correlation (corr th).

(** The predictions, from the posterior with unit process variance. *)
Lemma noiseless_predict acc bst fuel lik m noise f b X (y : 'M[F]_(n, t)) g :
  fit corr cholesky qr acc bst fuel lik m noise (Basis f b) X y = Some (Ok g) -> g_mode g = Noiseless ->
  let R := obs_cov (corr (g_theta g)) 1 0 X in let k := new_cov (corr (g_theta g)) 1 X in
  R \in unitmx /\
  (if b is None then (trend_at f X)^T *m invmx R *m trend_at f X \in unitmx else true) /\
  (forall x, predict_mean corr g x = match b with
     | None => posterior_mean_estimated R (k x) (trend_at f X) (f x) y
     | Some b => posterior_mean_known R (k x) (trend_at f X) (f x) y (b *m const_mx 1)
     end) /\
  (forall x, mse_factor corr g x = match b with
     | None => posterior_var_estimated R (k x) 1 (trend_at f X) (f x)
     | Some b => posterior_var_known R (k x) 1
     end).
Proof.
move=> H Em; have [f' [b' [e [[<- <-] [Ef [EX [Et [E1 [E2 [Er EM]]]]]]]]]] := noiseless_fit HK H Em.
have [UR [UN [_ [H1 [H2 _]]]]] := fit_posterior HC HQ E1 E2; move: UR UN H1 H2; rewrite EM => UR UN H1 H2 R k.
split=> //; split; first by move: UN; case: (b).
by split=> x; rewrite ?H1 ?H2 Er.
Qed.

(** C129: with an estimated trend and the same kernel parameters, scaling the observations by a and
    adding a combination of the trend functions to them does the same to every prediction, and scales
    the predictive variance by a^2.  In particular observations on the trend are extrapolated exactly
    (a = 0 is excluded since the process variance would be zero). *)
Theorem C129_equivariance fuel fuel' lik lik' m m' noise noise' f X (y : 'M[F]_(n, t)) a c g g' :
  fit corr cholesky qr accept best fuel lik m noise (Basis f None) X y = Some (Ok g) -> g_mode g = Noiseless ->
  fit corr cholesky qr accept' best' fuel' lik' m' noise' (Basis f None) X (a *: y + trend_at f X *m c) = Some (Ok g') ->
  g_mode g' = Noiseless -> g_theta g = g_theta g' ->
  forall x, predict_mean corr g' x = a *: predict_mean corr g x + f x *m c /\
            predict_mse corr g' x = a ^+ 2 *: predict_mse corr g x.
Proof.
move=> H Em H' Em' Eth x.
have [UR [UN [H1 H2]]] := noiseless_predict H Em; have [UR' [UN' [H1' H2']]] := noiseless_predict H' Em'.
have [_ [_ S]] := C131_variance_estimate HC HQ HK H Em; have [_ [_ S']] := C131_variance_estimate HC HQ HK H' Em'.
move: UR UN H1 H2 S; rewrite Eth => UR UN H1 H2 S.
split; first by rewrite H1 H1' mean_affine.
apply/rowP=> j; rewrite mxE [in RHS]mxE /= /predict_mse !mxE /= H2 H2'.
have [ES _] := S j; have [ES' _] := S' j.
have -> : g_sigma2 g' 0 j = a ^+ 2 * g_sigma2 g 0 j.
  rewrite ES ES' residual_affine //; set z := y - _; set B := invmx _.
  have -> : (a *: z)^T = a *: z^T by apply/matrixP=> i i'; rewrite !mxE.
  by rewrite -!scalemxAl -scalemxAr scalerA -expr2 [in LHS]mxE mulrA.
have [->|a0] := eqVneq a 0; first by rewrite expr0n /= !mul0r mulr0 ltxx.
have a2 : 0 < a ^+ 2 by rewrite exprn_even_gt0.
rewrite mulrCA pmulr_rlt0 //; case: ifP => // _.
by rewrite mulr0.
Qed.

(** C130: presenting the observations in another order changes neither the predictions nor their
    variances (for the same kernel parameters). *)
Theorem C130_order fuel fuel' lik lik' m m' noise noise' f b X (y : 'M[F]_(n, t)) (s : 'S_n) g g' :
  fit corr cholesky qr accept best fuel lik m noise (Basis f b) X y = Some (Ok g) -> g_mode g = Noiseless ->
  fit corr cholesky qr accept' best' fuel' lik' m' noise' (Basis f b) (X \o s) (\matrix_(i, j) y (s i) j) = Some (Ok g') ->
  g_mode g' = Noiseless -> g_theta g = g_theta g' ->
  forall x, predict_mean corr g' x = predict_mean corr g x /\ predict_mse corr g' x = predict_mse corr g x.
Proof.
move=> H Em H' Em' Eth x.
have [UR [UN [H1 H2]]] := noiseless_predict H Em; have [UR' [UN' [H1' H2']]] := noiseless_predict H' Em'.
have [Eb [_ S]] := C131_variance_estimate HC HQ HK H Em; have [Eb' [_ S']] := C131_variance_estimate HC HQ HK H' Em'.
move: UR UN H1 H2 S; rewrite Eth => UR UN H1 H2 S.
set th := g_theta g' in UR UR' UN UN' H1 H1' H2 H2' S S'.
have OW : (perm_mx s)^T *m perm_mx s = 1%:M :> 'M[F]_n by rewrite tr_perm_mx -perm_mxM mulVg perm_mx1.
have Ey : (\matrix_(i, j) y (s i) j) = perm_mx s *m y by rewrite -row_permE; apply/matrixP=> i j; rewrite !mxE.
have EH : trend_at f (X \o s) = perm_mx s *m trend_at f X by rewrite -row_permE; apply/matrixP=> i j; rewrite !mxE.
have Ek z : new_cov (corr th) 1 (X \o s) z = new_cov (corr th) 1 X z *m (perm_mx s)^T.
  by rewrite tr_perm_mx -col_permE; apply/matrixP=> i j; rewrite !mxE.
have ER : obs_cov (corr th) 1 0 (X \o s) = perm_mx s *m obs_cov (corr th) 1 0 X *m (perm_mx s)^T.
  rewrite tr_perm_mx -row_permE -col_permE; apply/matrixP=> i j; rewrite !mxE (inj_eq perm_inj).
  by [].
have EM : mse_factor corr g' x = mse_factor corr g x.
  rewrite H2 H2' ER Ek EH; case: (b) => [b1|]; first exact: var_conj.
  exact: var_estimated_conj.
split.
  rewrite H1 H1' ER Ek EH Ey; case: (b) => [b1|]; first exact: mean_conj.
  by rewrite /posterior_mean_estimated gls_conj // mean_conj.
apply/rowP=> j; rewrite !mxE EM; have [-> _] := S j; have [-> _] := S' j.
have Q1 (B : 'M[F]_(p, t)) : perm_mx s *m y - perm_mx s *m trend_at f X *m B = perm_mx s *m (y - trend_at f X *m B).
  by rewrite mulmxBr mulmxA.
rewrite ER EH Ey; case: (b) => [b1|]; first by rewrite Q1 quad_conj.
by rewrite gls_conj // Q1 quad_conj.
Qed.
End Props.
Print Assumptions C129_equivariance.
Print Assumptions C130_order.
