(** Proofs about the Gaussian process: the predictions in terms of the inverse correlation matrix. *)
From mathcomp Require Import all_ssreflect all_algebra.
From Verif Require Import Model_GP Spec_GP.
Set Implicit Arguments.
Unset Strict Implicit.
Unset Printing Implicit Defensive.
Import Order.Theory GRing.Theory Num.Theory.
Local Open Scope ring_scope.

Section Tri.
Variable F : realFieldType.
Lemma tril_id m (A : 'M[F]_m) : (forall i j : 'I_m, (i < j)%N -> A i j = 0) -> tril A = A.
Proof. by move=> H; apply/matrixP=> i j; rewrite !mxE; case: leqP => // h; rewrite H. Qed.
Lemma triu_id m (A : 'M[F]_m) : (forall i j : 'I_m, (j < i)%N -> A i j = 0) -> triu A = A.
Proof. by move=> H; apply/matrixP=> i j; rewrite !mxE; case: leqP => // h; rewrite H. Qed.
Lemma tril_tr m (A : 'M[F]_m) : tril A^T = (triu A)^T.
Proof. by apply/matrixP=> i j; rewrite !mxE. Qed.
Lemma triu_tr m (A : 'M[F]_m) : triu A^T = (tril A)^T.
Proof. by apply/matrixP=> i j; rewrite !mxE. Qed.
Lemma trig_unit m (A : 'M[F]_m) : (forall i j : 'I_m, (i < j)%N -> A i j = 0) -> (forall i, 0 < A i i) -> A \in unitmx.
Proof.
move=> H1 H2; rewrite unitmxE det_trig; last by apply/is_trig_mxP.
by rewrite unitfE; apply/prodf_neq0 => i _; rewrite gt_eqF.
Qed.
Lemma sumsq_col m (A : 'cV[F]_m) : \sum_i A i 0 ^+ 2 = (A^T *m A) 0 0.
Proof. by rewrite mxE; apply: eq_bigr => i _; rewrite mxE. Qed.
Lemma colsq_mx m k (A : 'M[F]_(m, k)) j : \sum_i A i j ^+ 2 = (A^T *m A) j j.
Proof. by rewrite mxE; apply: eq_bigr => i _; rewrite mxE. Qed.
End Tri.

(** With a factor L of R and the factorisation Q G of L^-1 H, the quantities of gpr.py are those of the
    posterior. *)
Section Algebra.
Variables (F : realFieldType) (n p t : nat).
Variables (R L : 'M[F]_n) (H Q : 'M[F]_(n, p)) (G : 'M[F]_p) (y : 'M[F]_(n, t)) (k : 'rV[F]_n) (h : 'rV[F]_p).
Hypotheses (UL : L \in unitmx) (ER : L *m L^T = R).

Lemma R_inv : invmx R = (invmx L)^T *m invmx L.
Proof.
rewrite -ER; have UT : L^T \in unitmx by rewrite unitmx_tr.
have U : L *m L^T \in unitmx by rewrite unitmx_mul UL UT.
apply: (can_inj (mulKmx U)); rewrite mulmxV // trmx_inv -[RHS]mulmxA [L^T *m _]mulmxA mulmxV //.
by rewrite mul1mx mulmxV.
Qed.
Lemma R_unit : R \in unitmx.
Proof. by rewrite -ER unitmx_mul unitmx_tr UL. Qed.

Lemma rt_norm : ((invmx L *m k^T)^T *m (invmx L *m k^T)) = k *m invmx R *m k^T.
Proof. by rewrite trmx_mul trmxK R_inv !mulmxA. Qed.

Hypotheses (EQ : invmx L *m H = Q *m G) (OQ : Q^T *m Q = 1%:M) (UG : G \in unitmx).

Lemma H_QG : H = L *m Q *m G.
Proof. by rewrite -mulmxA -EQ mulKVmx. Qed.

Lemma normal_eq : H^T *m invmx R *m H = G^T *m G.
Proof.
rewrite R_inv.
have -> : H^T *m ((invmx L)^T *m invmx L) *m H = (invmx L *m H)^T *m (invmx L *m H).
  by rewrite trmx_mul !mulmxA.
by rewrite EQ trmx_mul mulmxA -[G^T *m Q^T *m Q]mulmxA OQ mulmx1.
Qed.

Lemma normal_unit : H^T *m invmx R *m H \in unitmx.
Proof. by rewrite normal_eq unitmx_mul unitmx_tr UG. Qed.

Lemma normal_inv : invmx (H^T *m invmx R *m H) = invmx G *m (invmx G)^T.
Proof.
rewrite normal_eq; have UT : G^T \in unitmx by rewrite unitmx_tr.
have U : G^T *m G \in unitmx by rewrite unitmx_mul UT UG.
apply: (can_inj (mulKmx U)); rewrite mulmxV // trmx_inv -[RHS]mulmxA [G *m _]mulmxA mulmxV //.
by rewrite mul1mx mulmxV.
Qed.

Lemma beta_gls : invmx G *m (Q^T *m (invmx L *m y)) = gls_beta R H y.
Proof.
rewrite /gls_beta normal_inv R_inv.
have -> : H^T *m ((invmx L)^T *m invmx L) *m y = (invmx L *m H)^T *m (invmx L *m y).
  by rewrite trmx_mul !mulmxA.
rewrite EQ trmx_mul !mulmxA; congr (_ *m _ *m _ *m _).
by rewrite -mulmxA -trmx_mul mulmxV // trmx1 mulmx1.
Qed.

(** 790-811, 784-788, 462: the prediction, with the trend estimated. *)
Lemma mean_estimated :
  let rho := invmx L *m y - (Q *m Q^T) *m (invmx L *m y) in
  h *m gls_beta R H y + k *m (invmx L^T *m rho) = posterior_mean_estimated R k H h y.
Proof.
move=> rho; rewrite /posterior_mean_estimated /posterior_mean_known; congr (_ + _).
rewrite -mulmxA; congr (_ *m _); rewrite R_inv trmx_inv -mulmxA; congr (_ *m _).
rewrite /rho mulmxBr mulmxA EQ -beta_gls -!mulmxA [G *m (invmx G *m _)]mulmxA.
by rewrite mulmxV // mul1mx.
Qed.

(** 466-480: the variance factor, with the trend estimated. *)
Lemma var_estimated :
  let rt := invmx L *m k^T in
  let u := invmx G^T *m ((invmx L *m H)^T *m rt - h^T) in
  1 - (rt^T *m rt) 0 0 + (u^T *m u) 0 0 = posterior_var_estimated R k 1 H h.
Proof.
move=> rt u; rewrite /posterior_var_estimated /posterior_var_known rt_norm; congr (_ + _).
rewrite normal_inv /u.
have -> : (invmx L *m H)^T *m rt - h^T = - (h - k *m invmx R *m H)^T.
  rewrite /rt R_inv linearB /= opprB; congr (_ - _).
  by rewrite !trmx_mul trmxK !mulmxA.
set w := h - _.
have -> : invmx G^T *m (- w^T) = - (invmx G^T *m w^T) by rewrite mulmxN.
have N m (A : 'cV[F]_m) : (- A)^T *m (- A) = A^T *m A by rewrite mulmxN linearN mulNmx opprK.
by rewrite N trmx_mul trmxK -!trmx_inv trmxK !mulmxA.
Qed.

(** The trend known. *)
Lemma mean_known (b : 'M[F]_(p, t)) :
  h *m b + k *m (invmx L^T *m (invmx L *m y - invmx L *m (H *m b))) = posterior_mean_known R k H h y b.
Proof.
rewrite /posterior_mean_known; congr (_ + _); rewrite -mulmxBr mulmxA mulmxA mulmxA; congr (_ *m _).
by rewrite R_inv trmx_inv !mulmxA.
Qed.
Lemma var_known :
  let rt := invmx L *m k^T in
  1 - (rt^T *m rt) 0 0 = posterior_var_known R k 1.
Proof. by move=> rt; rewrite /posterior_var_known rt_norm. Qed.
End Algebra.

Section Fit.
Variables (F : realFieldType) (P Theta : Type) (n p t : nat).
Variable corr : Theta -> P -> P -> F.
Variable cholesky : 'M[F]_n -> option 'M[F]_n.
Variable qr : 'M[F]_(n, p) -> 'M[F]_(n, p) * 'M[F]_p.
Variable accept : mode -> par F Theta -> env F n p t -> bool.
Variable best : nat -> par F Theta.
Hypotheses (HC : cholesky_contract cholesky) (HQ : qr_contract qr).

Notation fit := (fit corr cholesky qr accept best).
Notation attempts := (attempts corr cholesky qr accept best).
Notation concentrated := (concentrated corr cholesky qr).

(** The matrix that is factorised. *)
Definition mode_matrix (m : mode) (noise : F) (q : par F Theta) X : 'M[F]_n :=
  let R0 := correlation_matrix corr (theta q) X in
  match m with
  | Noiseless => R0
  | NoiseEstim => extra q *: R0 + (1 - extra q) *: 1%:M
  | Noisy => (extra q + noise)^-1 *: (extra q *: R0 + noise *: 1%:M)
  end.

Lemma concentrated_aux m noise f b X (y : 'M[F]_(n, t)) q e : concentrated m noise f b X y q = Some e ->
  compute_aux_var cholesky qr f b X y (mode_matrix m noise q X) = Some (e_aux e) /\
  match m with
  | Noiseless =>
      let k := if atrend (e_aux e) is Some (_, Q, _) then \rank (Q *m Q^T) else 0%N in
      e_sigma2 e = (n - k)%:R^-1 *: colsq (arho (e_aux e)) /\ e_noise e = 0 /\ (n - k)%N <> 0%N /\
      forall j, e_sigma2 e 0 j != 0
  | NoiseEstim => True
  | Noisy => e_sigma2 e = const_mx (extra q) /\ e_noise e = const_mx noise
  end.
Proof.
case: m; rewrite /concentrated /mode_matrix /=; case: compute_aux_var => // a.
- case: ifP => // /negbT; rewrite negb_or => /andP[/eqP h1 /existsPn h2] [<-] /=; split=> //; split=> //.
- by case: ifP => // _ [<-].
- by case=> <-.
Qed.

Lemma attempts_ok fuel i m noise f b X (y : 'M[F]_(n, t)) m' q e : attempts fuel i m noise f b X y = Some (m', q, e) ->
  exists i' noise', q = best i' /\ concentrated m' noise' f b X y q = Some e /\ accept m' q e.
Proof.
elim: fuel i m noise => // k IH i m noise /=.
case E: concentrated => [e1|]; last by case: m {E} => /IH.
case: ifP => A; last by case: m {E A} => /IH.
by case=> <- <- <-; exists i, noise.
Qed.

Lemma attempts_mode fuel i m noise f b X (y : 'M[F]_(n, t)) q e :
  attempts fuel i m noise f b X y = Some (Noiseless, q, e) -> m = Noiseless /\ q = best i.
Proof.
have N : forall k i m noise, m <> Noiseless -> attempts k i m noise f b X y <> Some (Noiseless, q, e).
  elim=> // k IH i0 m0 noise0 H /=; case: concentrated => [e1|]; last by case: m0 H => // H; exact: IH.
  case: ifP => A; last by case: m0 H A => // H _; exact: IH.
  by case=> E; rewrite E in H.
case: fuel => // k /=; case: concentrated => [e1|]; last by case: m => H; exfalso; move: H; exact: N.
case: ifP => A; last by case: m A => _ H; exfalso; move: H; exact: N.
by case=> -> -> _.
Qed.

(** Everything that a successful [fit] says about the model it returns. *)
Lemma fit_ok fuel lik m noise tr X (y : 'M[F]_(n, t)) g : fit fuel lik m noise tr X y = Some (Ok g) ->
  exists f b q noise' e, tr = Basis f b /\ lik = Concentrated /\
    concentrated (g_mode g) noise' f b X y q = Some e /\ accept (g_mode g) q e /\
    attempts fuel 0 m noise f b X y = Some (g_mode g, q, e) /\
    finish (g_mode g) q e f b X = Ok g.
Proof.
case: tr => [f b|] //=; case: ifP => // _; case: lik => //.
case E: attempts => [[[m' q] e]|] //.
case E2: finish => [g'|] // [EG]; rewrite -{}EG.
have EM : g_mode g' = m'.
  move: E2; rewrite /finish; case: atrend => [[[Ft Q] G]|]; last by case: b {E} => // b [<-].
  by case: ifP => // _; case: ifP => // _ [<-].
have [i' [nz [_ [H1 H2]]]] := attempts_ok E.
by exists f, b, q, nz, e; rewrite EM.
Qed.

Lemma finish_ok m (q : par F Theta) (e : env F n p t) f b X (g : gp F P Theta n p t) : finish m q e f b X = Ok g ->
  [/\ g_theta g = theta q, g_X g = X, g_f g = f, g_C g = aL (e_aux e) & g_sigma2 g = e_sigma2 e] /\
  g_rho g = arho (e_aux e) /\ g_noise g = e_noise e /\
  g_gamma g = solve_upper (aL (e_aux e))^T (arho (e_aux e)) /\
  match atrend (e_aux e) with
  | Some (Ft, Q, G) => triu G \in unitmx /\ g_beta g = solve_upper G (Q^T *m aYt (e_aux e)) /\
      g_trend g = Some (Ft, G) /\ (p * t)%N = p
  | None => exists b', b = Some b' /\ g_beta g = broadcast t b' /\ g_trend g = None
  end.
Proof.
rewrite /finish; case: atrend => [[[Ft Q] G]|]; last by case: b => // b [<-] /=; split=> //; do ! split=> //; exists b.
by case: ifP => // /negbFE U; case: ifP => // /negbFE/eqP U2 [<-] /=.
Qed.

(** The predictions of a fitted model are those of a posterior with the factorised matrix. *)
Definition trend_beta (R : 'M[F]_n) (b : option 'cV[F]_p) (f : P -> 'rV[F]_p) X (y : 'M[F]_(n, t)) : 'M[F]_(p, t) :=
  match b with Some b => broadcast t b | None => gls_beta R (basis_matrix f X) y end.

Lemma fit_posterior m noise f b q X (y : 'M[F]_(n, t)) e g :
  concentrated m noise f b X y q = Some e -> finish m q e f b X = Ok g ->
  let R := mode_matrix m noise q X in
  R \in unitmx /\
  (if b is None then (basis_matrix f X)^T *m invmx R *m basis_matrix f X \in unitmx else true) /\
  g_beta g = trend_beta R b f X y /\
  (forall x, predict_mean corr g x = match b with
     | None => posterior_mean_estimated R (corr_row corr g x) (basis_matrix f X) (f x) y
     | Some b => posterior_mean_known R (corr_row corr g x) (basis_matrix f X) (f x) y (broadcast t b)
     end) /\
  (forall x, mse_factor corr g x = match b with
     | None => posterior_var_estimated R (corr_row corr g x) 1 (basis_matrix f X) (f x)
     | Some b => posterior_var_known R (corr_row corr g x) 1
     end) /\
  (forall j, colsq (g_rho g) 0 j =
     ((y - basis_matrix f X *m g_beta g)^T *m invmx R *m (y - basis_matrix f X *m g_beta g)) j j) /\
  (if b is None then exists Q : 'M[F]_(n, p), Q^T *m Q = 1%:M /\ exists Ft G, atrend (e_aux e) = Some (Ft, Q, G)
   else atrend (e_aux e) = None).
Proof.
move=> /concentrated_aux[+ _] /finish_ok[[_ _ Ef EC _] [Er [_ [Eg]]]]; set R := mode_matrix _ _ _ _ => + + R'.
rewrite /R' {R'} /compute_aux_var; case EL: cholesky => [L|] //; have [T D ER] := HC EL.
have UL := trig_unit T D; have EtL := tril_id T.
have EuL : triu L^T = L^T by rewrite triu_tr EtL.
rewrite /predict_mean /mse_factor Ef EC Eg Er.
have -> : R \in unitmx by exact: R_unit UL ER.
case: b => [b|] [<-] /=; rewrite /solve_lower /solve_upper EtL EuL.
- case=> b' [[<-] [Eb Et]]; rewrite Eb Et; split=> //; split=> //; split=> //; split=> [x|].
    exact: mean_known.
  split=> [x|]; first by rewrite addr0 sumsq_col; exact: var_known.
  split=> // j; by rewrite mxE colsq_mx -!mulmxBr trmx_mul (R_inv UL ER) !mulmxA.
- have [A1 A2 A3] := HQ (invmx L *m basis_matrix f X); move: A1 A2 A3.
  case: (qr _) => Q G /= A1 A2 A3; rewrite (triu_id A3) => -[UG [Eb [Et _]]]; rewrite Eb Et.
  have Ebeta := beta_gls y UL ER A1 A2 UG.
  rewrite (normal_unit UL ER A1 A2 UG); split=> //; split=> //; split=> //; split=> [x|].
    by rewrite Ebeta; exact: (mean_estimated _ _ _ UL ER A1 A2 UG).
  split=> [x|].
    rewrite tril_tr (triu_id A3) !sumsq_col; rewrite -(var_estimated _ _ UL ER A1 A2 UG) /=; by rewrite trmx_mul.
  split=> [j|]; last by exists Q; split=> //; exists (invmx L *m basis_matrix f X), G.
  rewrite mxE colsq_mx.
  have E1 : invmx L *m y - Q *m Q^T *m (invmx L *m y) =
            invmx L *m (y - basis_matrix f X *m (invmx G *m (Q^T *m (invmx L *m y)))).
    rewrite mulmxBr; congr (_ - _).
    rewrite [invmx L *m (basis_matrix f X *m _)]mulmxA A1 -!mulmxA; congr (_ *m _).
    by rewrite mulKVmx.
  by rewrite E1 trmx_mul (R_inv UL ER) !mulmxA.
Qed.
End Fit.
