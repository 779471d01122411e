(** C138: the gradient of the prediction. *)
From Coq Require Import Field.
From mathcomp Require Import all_ssreflect all_algebra realalg.
From Verif Require Import Lib_Field Model_GP Spec_GP Proofs_GP Properties_GP Properties_GP2 Properties_GP3.
Set Implicit Arguments.
Unset Strict Implicit.
Unset Printing Implicit Defensive.
Import Order.Theory GRing.Theory Num.Theory.
Local Open Scope ring_scope.

(** ** Specification: [d] is the derivative of [g] at 0. *)
Definition derivative (F : realFieldType) (g : F -> F) (d : F) : Prop :=
  forall e, 0 < e -> exists2 r, 0 < r & forall h, `|h| < r -> `|g h - g 0 - d * h| <= e * `|h|.

Section Calculus.
Variable F : realFieldType.
Implicit Types (g k : F -> F) (a b c d e : F).
Lemma fld : field_theory (0 : F) 1 +%R *%R (fun x y => x - y) -%R (fun x y => x / y) GRing.inv eq.
Proof.
split; [split|..] => //.
- exact: add0r. - exact: addrC. - exact: addrA. - exact: mul1r. - exact: mulrC. - exact: mulrA.
- exact: mulrDl. - exact: subrr.
- by apply/eqP; rewrite oner_neq0.
- by move=> x /eqP x0; rewrite mulVf.
Qed.

Lemma derivative_const c : derivative (fun=> c) 0.
Proof. by move=> e e0; exists 1 => // h _; rewrite subrr mul0r subr0 normr0 mulr_ge0 // ltW. Qed.
Lemma derivative_ext g k d : (forall h, g h = k h) -> derivative g d -> derivative k d.
Proof. by move=> E D e /D[r r0 H]; exists r => // h /H; rewrite !E. Qed.
Lemma derivative_local g k d s : 0 < s -> (forall h, `|h| < s -> g h = k h) -> derivative g d -> derivative k d.
Proof.
move=> s0 E D e /D[r r0 H]; exists (Num.min r s); first by rewrite lt_minr r0.
by move=> h; rewrite lt_minr => /andP[/H + hs]; rewrite E // E // normr0.
Qed.
Lemma half e : 0 < e -> 0 < e / 2%:R.
Proof. by move=> e0; rewrite divr_gt0 // ltr0n. Qed.
Lemma halves e : e / 2%:R + e / 2%:R = e.
Proof. by rewrite -mulrDr -mulr2n -[_ *+ 2]mulr_natr mulVf ?mulr1 // pnatr_eq0. Qed.
Lemma derivative_add g k a b : derivative g a -> derivative k b -> derivative (fun h => g h + k h) (a + b).
Proof.
move=> A B e e0; have [r r0 Hr] := A _ (half e0); have [s s0 Hs] := B _ (half e0).
exists (Num.min r s); first by rewrite lt_minr r0.
move=> h; rewrite lt_minr => /andP[/Hr H1 /Hs H2]; rewrite (f_d_add fld).
apply: le_trans (ler_norm_add _ _) _; apply: le_trans (ler_add H1 H2) _.
by rewrite -mulrDl halves.
Qed.
Lemma derivative_bound g a : derivative g a -> exists2 r, 0 < r & forall h, `|h| < r -> `|g h - g 0| <= (`|a| + 1) * `|h|.
Proof.
move=> /(_ 1 ltr01)[r r0 H]; exists r => // h /H {}H; rewrite (f_d_split fld _ _ a h).
apply: le_trans (ler_norm_add _ _) _; rewrite normrM mulrDl addrC ler_add2l; exact: H.
Qed.
Lemma derivative_mul g k a b : derivative g a -> derivative k b -> derivative (fun h => g h * k h) (a * k 0 + g 0 * b).
Proof.
move=> A B e e0; have p1 c : 0 < `|c| + 1 by rewrite ltr_paddl.
have shrink c w : 0 < w -> w / (`|c| + 1) * `|c| <= w.
  move=> w0; rewrite -mulrA -[X in _ <= X]mulr1 ler_pmul2l // mulrC ler_pdivr_mulr // mul1r.
  by rewrite ler_addl ler01.
have q1 := half (half e0).
have [r r0 Hr] := A _ (divr_gt0 q1 (p1 (k 0))); have [s s0 Hs] := B _ (divr_gt0 q1 (p1 (g 0))).
have [r' r'0 Hr'] := derivative_bound A; have [s' s'0 Hs'] := derivative_bound B.
have z0 : 0 < (e / 2%:R) / ((`|a| + 1) * (`|b| + 1)) by rewrite divr_gt0 ?half // mulr_gt0.
exists (Num.min (Num.min r s) (Num.min (Num.min r' s') ((e / 2%:R) / ((`|a| + 1) * (`|b| + 1))))).
  by rewrite !lt_minr r0 s0 r'0 s'0 z0.
move=> h; rewrite !lt_minr => /andP[/andP[/Hr H1 /Hs H2]] /andP[/andP[/Hr' H3 /Hs' H4]] H5; rewrite (f_d_mul fld).
apply: le_trans (ler_norm_add _ _) _; rewrite -[X in _ <= X * _](halves e) [X in _ <= X]mulrDl; apply: ler_add.
  apply: le_trans (ler_norm_add _ _) _; rewrite -[X in _ <= X * _](halves (e / 2%:R)) [X in _ <= X]mulrDl; apply: ler_add.
    rewrite normrM; apply: le_trans (ler_wpmul2r (normr_ge0 _) H1) _.
    by rewrite mulrAC; apply: ler_wpmul2r => //; exact: shrink.
  rewrite normrM; apply: le_trans (ler_wpmul2l (normr_ge0 _) H2) _.
  by rewrite mulrA; apply: ler_wpmul2r => //; rewrite mulrC; exact: shrink.
rewrite normrM; apply: le_trans (ler_pmul (normr_ge0 _) (normr_ge0 _) H3 H4) _.
rewrite mulrACA mulrA; apply: ler_wpmul2r => //; rewrite mulrC -ler_pdivl_mulr ?mulr_gt0 //; exact: ltW.
Qed.
Lemma derivative_scale c g a : derivative g a -> derivative (fun h => c * g h) (c * a).
Proof. by move=> A; have := derivative_mul (derivative_const c) A; rewrite mul0r add0r. Qed.
Lemma derivative_sum (I : finType) (g : I -> F -> F) (a : I -> F) :
  (forall i, derivative (g i) (a i)) -> derivative (fun h => \sum_i g i h) (\sum_i a i).
Proof.
move=> A; elim: (index_enum I) => [|i s IH].
  by rewrite big_nil; apply: derivative_ext (derivative_const 0) => h; rewrite big_nil.
by rewrite big_cons; apply: derivative_ext (derivative_add (A i) IH) => h; rewrite big_cons.
Qed.
(** Columns *)
Definition colderiv m (A : F -> 'cV[F]_m) (d : 'cV[F]_m) : Prop := forall i, derivative (fun h => A h i 0) (d i 0).
Lemma colderiv_mul m l (B : 'M[F]_(l, m)) (A : F -> 'cV[F]_m) (d : 'cV[F]_m) : colderiv A d -> colderiv (fun h => B *m A h) (B *m d).
Proof.
move=> D i; rewrite mxE; apply: (@derivative_ext (fun h => \sum_j B i j * A h j 0)) => [h|]; first by rewrite mxE.
by apply: derivative_sum => j; apply: derivative_scale.
Qed.
Lemma colderiv_sub m (A B : F -> 'cV[F]_m) (a b : 'cV[F]_m) : colderiv A a -> colderiv B b -> colderiv (fun h => A h - B h) (a - b).
Proof.
move=> DA DB i; rewrite !mxE; apply: (@derivative_ext (fun h => A h i 0 + -1 * B h i 0)) => [h|]; first by rewrite !mxE mulN1r.
by rewrite -[- b i 0]mulN1r; exact: derivative_add (DA i) (derivative_scale (-1) (DB i)).
Qed.
Lemma colderiv_sumsq m (A : F -> 'cV[F]_m) (a : 'cV[F]_m) : colderiv A a -> derivative (fun h => \sum_i A h i 0 ^+ 2) (2%:R * ((A 0)^T *m a) 0 0).
Proof.
move=> D; rewrite [in X in derivative _ X]mxE mulr_sumr; apply: derivative_sum => i; rewrite mxE.
apply: (@derivative_ext (fun h => A h i 0 * A h i 0)) => [h|]; first by rewrite expr2.
by have := derivative_mul (D i) (D i); rewrite [X in X + _]mulrC -mulr2n -[_ *+ 2]mulr_natl.
Qed.
(** Where a differentiable function is positive it stays positive. *)
Lemma derivative_pos g a : derivative g a -> 0 < g 0 -> exists2 s, 0 < s & forall h, `|h| < s -> 0 < g h.
Proof.
move=> /derivative_bound[r r0 H] g0; have p1 : 0 < `|a| + 1 by rewrite ltr_paddl.
exists (Num.min r (g 0 / (`|a| + 1))); first by rewrite lt_minr r0 divr_gt0.
move=> h; rewrite lt_minr => /andP[/H H1 H2]; have H3 : `|g h - g 0| < g 0.
  by apply: le_lt_trans H1 _; rewrite mulrC -ltr_pdivl_mulr.
by move: H3; rewrite ltr_distl subrr => /andP[].
Qed.
End Calculus.

Section C138.
Variables (F : realFieldType) (P Theta : Type) (n p : nat).
Variable corr : Theta -> P -> P -> F.
Variable cholesky : 'M[F]_n -> option 'M[F]_n.
Variable qr : 'M[F]_(n, p) -> 'M[F]_(n, p) * 'M[F]_p.
Variable accept : mode -> par F Theta -> env F n p 1 -> bool.
Variable best : nat -> par F Theta.
Hypothesis HC : cholesky_contract cholesky.
Hypothesis HQ : qr_contract qr.

(** Move the query point along a curve through x (a coordinate line, say); if the k-th columns of the
    given matrices are the derivatives of the correlations with the training points and of the trend
    functions, then the k-th entries of the result are those of the predicted mean and, where it is
    positive, of the predicted variance. *)
Theorem C138_gradient fuel lik m noise tr (X : 'I_n -> P) (y : 'M[F]_(n, 1)) g d (r_dx : 'M[F]_(n, d)) (f_dx : 'M[F]_(p, d)) (curve : F -> P) (k : 'I_d) :
  fit corr cholesky qr accept best fuel lik m noise tr X y = Some (Ok g) ->
  (forall j, derivative (fun h => corr (g_theta g) (curve h) (X j)) (r_dx j k)) ->
  (forall j, derivative (fun h => g_f g (curve h) 0 j) (f_dx j k)) ->
  exists y_dx mse_dx, gradient corr g (curve 0) r_dx f_dx = Ok (y_dx, mse_dx) /\
    derivative (fun h => predict_mean corr g (curve h) 0 0) (y_dx 0 k) /\
    (0 < predict_mse corr g (curve 0) 0 0 -> derivative (fun h => predict_mse corr g (curve h) 0 0) (mse_dx 0 k)).
Proof.
move=> /fit_ok[f [b [q [noise' [e [_ [_ [E [_ [_ Fi]]]]]]]]]] Dr Df.
have [[_ EX _ EC _] [_ [_ [_ Et]]]] := finish_ok Fi.
have [Ea _] := concentrated_aux E.
pose rc h : 'cV[F]_n := (corr_row corr g (curve h))^T; pose fc h : 'cV[F]_p := (g_f g (curve h))^T.
have DR : colderiv rc (col k r_dx).
  by move=> j; rewrite mxE; apply: derivative_ext (Dr j) => h; rewrite !mxE EX.
have DF : colderiv fc (col k f_dx) by move=> j; rewrite mxE; apply: derivative_ext (Df j) => h; rewrite !mxE.
have Dmean : derivative (fun h => predict_mean corr g (curve h) 0 0) (((g_beta g)^T *m f_dx + (g_gamma g)^T *m r_dx) 0 k).
  have D1 := colderiv_mul (g_beta g)^T DF; have D2 := colderiv_mul (g_gamma g)^T DR.
  have := derivative_add (D1 0) (D2 0).
  have -> : ((g_beta g)^T *m col k f_dx) 0 0 + ((g_gamma g)^T *m col k r_dx) 0 0 = ((g_beta g)^T *m f_dx + (g_gamma g)^T *m r_dx) 0 k.
    by rewrite [RHS]mxE; congr (_ + _); rewrite !mxE; apply: eq_bigr => i _; rewrite !mxE.
  apply: derivative_ext => h; rewrite /predict_mean [RHS]mxE; congr (_ + _).
    by rewrite -[_ *m fc h]trmxK trmx_mul !trmxK [LHS]mxE.
  by rewrite -[_ *m rc h]trmxK trmx_mul !trmxK [LHS]mxE.
set Li := invmx (tril (g_C g)).
have Drt : colderiv (fun h => Li *m rc h) (Li *m col k r_dx) by apply: colderiv_mul.
have Dsq := colderiv_sumsq Drt.
(* from the derivative of the factor to that of the clipped variance *)
have clip (fd : F) : derivative (fun h => mse_factor corr g (curve h)) fd -> 0 < predict_mse corr g (curve 0) 0 0 ->
    derivative (fun h => predict_mse corr g (curve h) 0 0) (fd * g_sigma2 g 0 0).
  have EP x : predict_mse corr g x 0 0 = if mse_factor corr g x * g_sigma2 g 0 0 < 0 then 0 else mse_factor corr g x * g_sigma2 g 0 0 by rewrite mxE.
  move=> Dm; rewrite EP; case: ifP => [_|_ P0]; first by rewrite ltxx.
  have Dv : derivative (fun h => mse_factor corr g (curve h) * g_sigma2 g 0 0) (fd * g_sigma2 g 0 0).
    by rewrite mulrC; apply: derivative_ext (derivative_scale (g_sigma2 g 0 0) Dm) => h; rewrite mulrC.
  have [s s0 Hs] := derivative_pos Dv P0; apply: derivative_local s0 _ Dv => h /Hs {}Hs.
  by rewrite EP ltNge (ltW Hs).
move: Ea Et; rewrite /gradient /mse_factor in Dsq clip *; rewrite /compute_aux_var; case: cholesky => [L|] //; case Eb: b => [b'|] [<-] /=.
- move=> [? [_ [_ Et]]]; rewrite Et in clip *.
  eexists _, _; split; first reflexivity; split=> // P0.
  have := clip (-1 * (2%:R * ((Li *m rc 0)^T *m (Li *m col k r_dx)) 0 0)) _ P0.
  set c := _ * g_sigma2 g 0 0; suff -> : c = (\row_k0 (2%:R * (\sum_(j < 1) g_sigma2 g 0 j) * (- ((Li *m rc 0)^T *m (Li *m r_dx))) 0 k0)) 0 k.
    apply; rewrite -[X in derivative _ X]add0r; apply: derivative_ext (derivative_add (derivative_const 1) (derivative_scale (-1) Dsq)) => h.
    by rewrite addr0 mulN1r.
  rewrite /c [RHS]mxE big_ord1 mulN1r [X in _ = _ * X]mxE mulrN !mulNr; congr (- _); rewrite mulrAC; congr (_ * _).
  by rewrite !mxE; apply: eq_bigr => i _; rewrite !mxE; congr (_ * _); apply: eq_bigr => j _; rewrite !mxE.
- case EQ: (qr _) => [Q G] /= [UG [_ [Et _]]]; rewrite Et in clip *; set Ft := solve_lower L _ in EQ Et clip *.
  have [A1 A2 A3] := HQ Ft; rewrite EQ /= in A1 A2 A3; have TG := triu_id A3; rewrite TG in UG.
  have EG : Ft^T *m Ft = G^T *m G by rewrite A1 trmx_mul -mulmxA [Q^T *m _]mulmxA A2 mul1mx.
  have UGG : Ft^T *m Ft \in unitmx by rewrite EG unitmx_mul unitmx_tr UG.
  have IG : invmx (Ft^T *m Ft) = invmx G *m (invmx G)^T.
    have UT : G^T \in unitmx by rewrite unitmx_tr.
    by rewrite EG; apply: (can_inj (mulKmx (_ : G^T *m G \in unitmx))); rewrite ?unitmx_mul ?UT ?UG // mulmxV ?unitmx_mul ?UT ?UG // trmx_inv -[RHS]mulmxA [G *m _]mulmxA mulmxV // mul1mx mulmxV.
  rewrite UGG /=; eexists _, _; split; first reflexivity; split=> // P0.
  pose w h := Ft^T *m (Li *m rc h) - fc h.
  have Dw : colderiv w (Ft^T *m (Li *m col k r_dx) - col k f_dx) by apply: colderiv_sub => //; apply: colderiv_mul.
  have Du := colderiv_sumsq (colderiv_mul (invmx (tril G^T)) Dw).
  have := clip (-1 * (2%:R * ((Li *m rc 0)^T *m (Li *m col k r_dx)) 0 0) + 2%:R * ((invmx (tril G^T) *m w 0)^T *m (invmx (tril G^T) *m (Ft^T *m (Li *m col k r_dx) - col k f_dx))) 0 0) _ P0.
  set c := _ * g_sigma2 g 0 0; set target := (X in _ -> derivative _ X); suff -> : c = target.
    apply; rewrite -[X in derivative _ (X + _)]add0r; apply: derivative_ext (derivative_add (derivative_add (derivative_const 1) (derivative_scale (-1) Dsq)) Du) => h.
    by rewrite mulN1r.
  rewrite /c /target [RHS]mxE big_ord1 mulN1r -mulrN -mulrDr mulrAC; congr (_ * _).
  rewrite [RHS]mxE [X in _ = X + _]mxE; congr (_ + _).
    congr (- _); rewrite !mxE; apply: eq_bigr => i _; rewrite !mxE; congr (_ * _); apply: eq_bigr => j _; by rewrite !mxE.
  rewrite tril_tr TG IG trmx_mul -trmx_inv trmxK /solve_lower -/Li.
  have -> : Ft^T *m (Li *m col k r_dx) - col k f_dx = col k (Ft^T *m (Li *m r_dx) - f_dx).
    by rewrite !colE mulmxBl !mulmxA.
  rewrite colE !mulmxA -colE [LHS]mxE /w !mulmxA.
  by [].
Qed.
End C138.
Print Assumptions C138_gradient.

(** Non-vacuity: one observation y = 1 at 0, estimated constant mean, correlation 1 - (x - x')^2 (near 0),
    process variance 1, no noise: at 1/2 + h the correlation is 1 - (1/2 + h)^2, with derivative -1, and the
    variance there is 1/2. *)
Section Nonvacuous.
Variable F : rcfType.
Definition kq (_ : unit) (x x' : F) : F := 1 - (x - x') * (x - x').
Definition X0 (_ : 'I_1) : F := 0.
Definition onef (x : F) : 'rV[F]_1 := 1.
Definition qrI (A : 'M[F]_1) : 'M[F]_1 * 'M[F]_1 := (1%:M, A).
Lemma qrI_ok : qr_contract qrI.
Proof. by move=> A; split; rewrite /= ?mul1mx ?trmx1 ?mulmx1 // => i j; rewrite !ord1. Qed.
Lemma derivative_id : derivative (fun h : F => h) 1.
Proof. by move=> e e0; exists 1 => // h _; rewrite subr0 mul1r subrr normr0 mulr_ge0 // ltW. Qed.

Example C138_nonvacuous :
  cholesky_contract (@chol1 F) /\ qr_contract qrI /\
  exists g, fit kq (@chol1 F) qrI (@yes1 F) (@bn F) 1 Concentrated Noisy 0 (Basis onef None) X0 (@y1 F) = Some (Ok g) /\
    (forall j : 'I_1, derivative (fun h => kq (g_theta g) (2%:R^-1 + h) (X0 j)) (((-1)%:M : 'M[F]_1) j 0)) /\
    (forall j, derivative (fun h => g_f g (2%:R^-1 + h) 0 j) ((0 : 'M[F]_1) j 0)) /\
    0 < predict_mse kq g (2%:R^-1 + 0) 0 0.
Proof.
split; first exact: chol1_ok. split; first exact: qrI_ok.
have EK : correlation_matrix kq tt X0 = 1%:M by apply/matrixP=> i j; rewrite !mxE !ord1 /kq /X0 subrr mul0r subr0.
have E1 : (1 + 0)^-1 *: (1 *: 1%:M + 0 *: 1%:M) = 1%:M :> 'M[F]_1 by rewrite addr0 invr1 !scale1r scale0r addr0.
rewrite /fit /= /concentrated EK /= E1 /compute_aux_var chol1_1 /= /finish /=.
have EB : basis_matrix onef X0 = 1%:M by apply/matrixP=> i j; rewrite !mxE !ord1.
rewrite EB /solve_lower tril1 invmx1 !mul1mx triu1 unitmx1 /=.
eexists; split; first reflexivity; split; [|split] => /=.
- move=> j; rewrite mxE !ord1 eqxx /kq /X0.
  have D1 : derivative (fun h : F => 2%:R^-1 + h) (0 + 1) by apply: derivative_add (derivative_const _) derivative_id.
  have := derivative_add (derivative_const 1) (derivative_scale (-1) (derivative_mul D1 D1)).
  have -> : 0 + -1 * ((0 + 1) * (2%:R^-1 + 0) + (2%:R^-1 + 0) * (0 + 1)) = (-1) *+ 1 :> F.
    by rewrite !add0r addr0 mul1r mulr1 -mulr2n -[_ *+ 2]mulr_natr mulVf ?two0 // mulr1.
  by apply: derivative_ext => h; rewrite !subr0 mulN1r.
- by move=> j; rewrite [X in derivative _ X]mxE; apply: derivative_ext (derivative_const 1) => h; rewrite mxE !ord1.
- match goal with |- context [predict_mse _ ?g' _] => set g := g' end.
  have Ev : mse_factor kq g (2%:R^-1 + 0) = 2%:R^-1.
    rewrite /mse_factor /= /solve_lower trmx1 !tril1 invmx1 !mul1mx !big_ord1 !mxE /kq /X0 subr0 addr0.
    rewrite !expr2 (f_var1 (fld F)) -mulrDl.
    by rewrite -{1 2}[2%:R^-1]mulr1 -mulrDr -mulr2n mulVf ?two0 // mul1r.
  have -> : predict_mse kq g (2%:R^-1 + 0) 0 0 = if 2%:R^-1 * g_sigma2 g 0 0 < 0 then 0 else 2%:R^-1 * g_sigma2 g 0 0 by rewrite mxE Ev.
  have P0 : 0 < 2%:R^-1 :> F by rewrite invr_gt0 ltr0n.
  by rewrite mxE mulr1 (lt_gtF P0).
Qed.
End Nonvacuous.
