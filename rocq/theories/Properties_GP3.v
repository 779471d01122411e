(** Examples for the properties of the Gaussian process, and what fails: C128 (noise), C133 (batches),
    C134 (configurations that cannot be fitted), C135 (termination of [fit]). *)
From mathcomp Require Import all_ssreflect all_algebra fingroup perm realalg.
From Verif Require Import Model_GP Spec_GP Proofs_GP Properties_GP Properties_GP2.
Set Implicit Arguments.
Unset Strict Implicit.
Unset Printing Implicit Defensive.
Import Order.Theory GRing.Theory Num.Theory.
Local Open Scope ring_scope.

(** Two training points, [true] and [false], with correlation 3/5; constant trend. *)
Section Ex.
Variable F : rcfType.
Definition phi (x : bool) : 'rV[F]_2 :=
  \row_j (if x then (if j == 0 then 1 else 0) else (if j == 0 then 3%:R / 5%:R else 4%:R / 5%:R)).
Definition kern (_ : unit) (x x' : bool) : F := (phi x *m (phi x')^T) 0 0.
Definition X2 (i : 'I_2) : bool := i == 0.
Definition L2 : 'M[F]_2 := \matrix_(i, j) phi (X2 i) 0 j.
Definition chol2 (A : 'M[F]_2) : option 'M[F]_2 := if A == L2 *m L2^T then Some L2 else None.
(** The economic QR factorisation of one column. *)
Definition norm2 n (A : 'cV[F]_n) : F := Num.sqrt ((A^T *m A) 0 0).
Definition qr1 n (A : 'cV[F]_n.+1) : 'cV[F]_n.+1 * 'M[F]_1 :=
  if norm2 A == 0 then (delta_mx 0 0, 0) else ((norm2 A)^-1 *: A, (norm2 A)%:M).
Definition one (x : bool) : 'rV[F]_1 := 1.
Definition y2 : 'M[F]_(2, 1) := \matrix_(i, j) (if i == 0 then 1 else 0).
Definition yes (m : mode) (q : par F unit) (e : env F 2 1 1) : bool := true.
Definition b0 (i : nat) : par F unit := Par tt 1.

Lemma norm2_ge n (A : 'cV[F]_n) : 0 <= (A^T *m A) 0 0.
Proof. by rewrite -sumsq_col; apply: sumr_ge0 => i _; exact: sqr_ge0. Qed.
Lemma norm2_eq0 n (A : 'cV[F]_n) : (A^T *m A) 0 0 = 0 -> A = 0.
Proof.
rewrite -sumsq_col => H; apply/colP=> i; rewrite mxE; apply/eqP; rewrite -sqrf_eq0.
have /psumr_eq0P/(_ H)/(_ i isT) -> // : forall i, true -> 0 <= A i 0 ^+ 2 by move=> *; exact: sqr_ge0.
Qed.
Lemma norm2_0 n (A : 'cV[F]_n) : norm2 A = 0 -> A = 0.
Proof. by move/eqP; rewrite sqrtr_eq0 => H; apply: norm2_eq0; apply/eqP; rewrite eq_le H norm2_ge. Qed.
Lemma norm2_sq n (A : 'cV[F]_n) : A^T *m A = ((norm2 A) ^+ 2)%:M.
Proof. by rewrite [LHS]mx11_scalar sqr_sqrtr // norm2_ge. Qed.
Lemma tr_scale m n c (A : 'M[F]_(m, n)) : (c *: A)^T = c *: A^T.
Proof. by apply/matrixP=> i j; rewrite !mxE. Qed.
Lemma qr1_ok n : qr_contract (@qr1 n).
Proof.
move=> A; rewrite /qr1; case: eqP => [E|/eqP N] /=; split.
- by rewrite mulmx0; exact: norm2_0.
- rewrite [LHS]mx11_scalar mxE (bigD1 0) //= !mxE !eqxx mulr1 big1 ?addr0 // => i Ni.
  by rewrite !mxE (negbTE Ni) mul0r.
- by move=> i j; rewrite mxE.
- by rewrite mul_mx_scalar scalerA divff // scale1r.
- rewrite tr_scale -scalemxAl -scalemxAr scalerA norm2_sq -expr2 scale_scalar_mx exprVn mulVf //.
  by rewrite expf_neq0.
- by move=> i j; rewrite !ord1.
Qed.
Lemma phi_unit x : kern tt x x = 1.
Proof.
rewrite /kern mxE big_ord_recl big_ord1 !mxE /=; case: x; first by rewrite mulr1 mulr0 addr0.
by rewrite -!expr2 !expr_div_n -mulrDl -!natrX -natrD divff // pnatr_eq0.
Qed.
Lemma kern_ok th : is_correlation (kern th).
Proof.
split=> [x|x x']; first by case: th; exact: phi_unit.
by rewrite /kern -[phi x' *m _]trmxK trmx_mul trmxK [RHS]mxE.
Qed.
Lemma kern_psd th : psd (kern th).
Proof.
move=> m Z v; have -> : \sum_i \sum_j v 0 i * v 0 j * kern th (Z i) (Z j) = \sum_l (\sum_i v 0 i * phi (Z i) 0 l) ^+ 2.
  transitivity (\sum_i \sum_j \sum_l (v 0 i * phi (Z i) 0 l) * (v 0 j * phi (Z j) 0 l)).
    apply: eq_bigr => i _; apply: eq_bigr => j _; rewrite /kern mxE mulr_sumr; apply: eq_bigr => l _.
    by rewrite [(phi (Z j))^T _ _]mxE mulrACA.
  transitivity (\sum_l \sum_i \sum_j (v 0 i * phi (Z i) 0 l) * (v 0 j * phi (Z j) 0 l)).
    rewrite exchange_big /= ; under eq_bigr do rewrite exchange_big /=; rewrite exchange_big /=.
    by apply: eq_bigr => l _; rewrite exchange_big.
  by apply: eq_bigr => l _; rewrite expr2 mulr_suml; apply: eq_bigr => i _; rewrite mulr_sumr.
by apply: sumr_ge0 => l _; exact: sqr_ge0.
Qed.
Lemma L2_trig (i j : 'I_2) : (i < j)%N -> L2 i j = 0.
Proof. by case: i j => [[|[|//]] hi] [[|[|//]] hj] //= _; rewrite !mxE /X2. Qed.
Lemma L2_diag i : 0 < L2 i i.
Proof. by case: i => [[|[|//]] hi]; rewrite !mxE /X2 /= ?ltr01 // divr_gt0 // ltr0n. Qed.
Lemma chol2_ok : cholesky_contract chol2.
Proof.
move=> A L; rewrite /chol2; case: eqP => // -> [<-]; split=> //; [exact: L2_trig|exact: L2_diag].
Qed.
Lemma L2_R : correlation_matrix kern tt X2 = L2 *m L2^T.
Proof.
rewrite (matrix_corr kern_ok); apply/matrixP=> i j; rewrite !mxE /kern mxE mul1r; case: ifP => _; rewrite addr0.
  by apply: eq_bigr => l _; rewrite !mxE.
by apply: eq_bigr => l _; rewrite !mxE.
Qed.

Lemma L2_unit : L2 \in unitmx.
Proof. exact: trig_unit L2_trig L2_diag. Qed.
Section Data.
Variables (X : 'I_2 -> bool) (y : 'M[F]_(2, 1)).
Hypotheses (HR : correlation_matrix kern tt X = L2 *m L2^T) (Hy : y 0 0 != y 1 0).
Lemma off_trend (be : 'M[F]_1) : y <> basis_matrix one X *m be.
Proof.
move=> E; have := congr1 (fun A : 'cV[F]_2 => A 0 0 - A 1 0) E.
by rewrite /= [in RHS]mxE [in RHS]mxE !big_ord1 !mxE subrr => /eqP; rewrite subr_eq0 (negbTE Hy).
Qed.
Lemma resid_pos (be : 'M[F]_1) (c : F) : c != 0 -> forall j,
  (c *: colsq (invmx L2 *m y - invmx L2 *m (basis_matrix one X *m be))) 0 j != 0.
Proof.
move=> c0 j; rewrite !mxE mulf_neq0 // !ord1 sumsq_col; apply/eqP => /norm2_eq0 E.
apply: (@off_trend be); apply/eqP; rewrite -subr_eq0; apply/eqP.
by rewrite -[LHS](mulKVmx L2_unit) mulmxBr E mulmx0.
Qed.
Lemma Ft_norm : norm2 (invmx L2 *m basis_matrix one X) != 0.
Proof.
apply/eqP => /norm2_0 E; have := congr1 (fun A => (L2 *m A) 0 0) E.
by rewrite mulKVmx ?L2_unit // mulmx0 !mxE /= => /eqP; rewrite oner_eq0.
Qed.

(** Both kinds of kriging succeed and stay noiseless. *)
Lemma fit_ex b : exists g, fit kern chol2 (@qr1 1) yes b0 1 Concentrated Noiseless 0 (Basis one b) X y = Some (Ok g) /\
  g_mode g = Noiseless /\ g_theta g = tt.
Proof.
rewrite /fit andbF /attempts /concentrated /compute_aux_var HR /chol2 eqxx.
rewrite /solve_lower (tril_id L2_trig); case: b => [b|] /=.
  case: ifP => [/existsP[j]|_]; last by eexists; split; first reflexivity.
  by rewrite (negbTE (resid_pos _ _ j)) // invr_neq0 // pnatr_eq0.
have [A1 A2 A3] := qr1_ok (invmx L2 *m basis_matrix one X); move: A1 A2 A3.
have UG : (qr1 (invmx L2 *m basis_matrix one X)).2 \in unitmx.
  by rewrite /qr1 (negbTE Ft_norm) /= -scalemx1 unitmxZ ?unitmx1 // unitfE Ft_norm.
case: (qr1 _) UG => Q G /= UG A1 A2 A3; rewrite rank_QQ //=.
have E1 : invmx L2 *m y - Q *m Q^T *m (invmx L2 *m y) =
          invmx L2 *m y - invmx L2 *m (basis_matrix one X *m (invmx G *m (Q^T *m (invmx L2 *m y)))).
  congr (_ - _); rewrite [invmx L2 *m (basis_matrix one X *m _)]mulmxA A1 -!mulmxA; congr (_ *m _).
  by rewrite mulKVmx.
rewrite E1; case: ifP => [/existsP[j]|_].
  by rewrite (negbTE (resid_pos _ _ j)) // invr_neq0 // pnatr_eq0.
rewrite /finish /= (triu_id A3) UG /=.
by eexists; split; first reflexivity.
Qed.
End Data.
Lemma y2_ok : y2 0 0 != y2 1 0.
Proof. by rewrite !mxE /= oner_neq0. Qed.
End Ex.

(** The hypotheses of C61, C128, C131 and C132 hold for both kinds of kriging. *)
Example GP_example : let F := [rcfType of realalg] in
  cholesky_contract (@chol2 F) /\ qr_contract (@qr1 F 1) /\ (forall th, is_correlation (@kern F th)) /\
  (forall th, psd (@kern F th)) /\
  forall b, exists g, fit (@kern F) (@chol2 F) (@qr1 F 1) (@yes F) (@b0 F) 1 Concentrated Noiseless 0
      (Basis (@one F) b) X2 (@y2 F) = Some (Ok g) /\ g_mode g = Noiseless /\
      predict_mean (@kern F) g false = 0 /\ predict_mean (@kern F) g true = 1 /\ g_sigma2 g <> 0.
Proof.
move=> F; split; first exact: chol2_ok.
split; first exact: qr1_ok. split; first exact: kern_ok. split; first exact: kern_psd.
move=> b; have [g [E [Em _]]] := fit_ex (@L2_R _) (@y2_ok _) b; exists g; split=> //; split=> //.
have I := C61_interpolation (@chol2_ok _) (@qr1_ok _ _) (@kern_ok _) E Em.
have [-> _] := I 1; have [-> _] := I 0.
split; first by apply/rowP=> j; rewrite !mxE.
split; first by apply/rowP=> j; rewrite !mxE !ord1.
have [_ [_ /(_ 0)[_ H]]] := C131_variance_estimate (@chol2_ok _) (@qr1_ok _ _) (@kern_ok _) E Em.
by move=> Z; move: H; rewrite Z mxE ltxx.
Qed.

(** The hypotheses of C129 (scaling by 2 and adding 3 times the trend) and C130 (swapping the points). *)
Definition swap2 : 'S_2 := tperm 0 1.
Example GP_example_two : let F := [rcfType of realalg] in
  exists g g1 g2, fit (@kern F) (@chol2 F) (@qr1 F 1) (@yes F) (@b0 F) 1 Concentrated Noiseless 0 (Basis (@one F) None) X2 (@y2 F) = Some (Ok g) /\
    fit (@kern F) (@chol2 F) (@qr1 F 1) (@yes F) (@b0 F) 1 Concentrated Noiseless 0 (Basis (@one F) None) X2
      (2%:R *: (@y2 F) + trend_at (@one F) X2 *m 3%:R%:M) = Some (Ok g1) /\
    fit (@kern F) (@chol2 F) (@qr1 F 1) (@yes F) (@b0 F) 1 Concentrated Noiseless 0 (Basis (@one F) None) (X2 \o swap2)
      (\matrix_(i, j) (@y2 F) (swap2 i) j) = Some (Ok g2) /\
    g_mode g = Noiseless /\ g_mode g1 = Noiseless /\ g_mode g2 = Noiseless /\
    g_theta g1 = g_theta g /\ g_theta g2 = g_theta g.
Proof.
move=> F.
have [g [E [Em Et]]] := @fit_ex F X2 (@y2 F) (@L2_R F) (@y2_ok F) None.
have [g1 [E1 [Em1 Et1]]] : exists g1, fit (@kern F) (@chol2 F) (@qr1 F 1) (@yes F) (@b0 F) 1 Concentrated Noiseless 0
   (Basis (@one F) None) X2 (2%:R *: (@y2 F) + trend_at (@one F) X2 *m 3%:R%:M) = Some (Ok g1) /\ g_mode g1 = Noiseless /\ g_theta g1 = tt.
  apply: fit_ex; first exact: L2_R.
  by rewrite !mxE !big_ord1 !mxE /= mulr1 mulr0 add0r -subr_eq0 addrK pnatr_eq0.
have [g2 [E2 [Em2 Et2]]] : exists g2, fit (@kern F) (@chol2 F) (@qr1 F 1) (@yes F) (@b0 F) 1 Concentrated Noiseless 0
   (Basis (@one F) None) (X2 \o swap2) (\matrix_(i, j) (@y2 F) (swap2 i) j) = Some (Ok g2) /\ g_mode g2 = Noiseless /\ g_theta g2 = tt.
  apply: fit_ex.
    rewrite -L2_R (matrix_corr (@kern_ok F)) (matrix_corr (@kern_ok F)); apply/matrixP=> i j.
    rewrite mxE [in RHS]mxE; have [K1 K2] := @kern_ok F tt; congr (_ * _ + _).
    case: i j => [[|[|//]] hi] [[|[|//]] hj]; rewrite /= /swap2 /X2 !permE /= ?K1 //; by rewrite K2.
  by rewrite !mxE /swap2 !permE /= eq_sym oner_neq0.
by exists g, g1, g2; rewrite Et Et1 Et2.
Qed.

(** ** C128 refuted with noise: one observation y = 1 at a point, zero mean, process variance 1 and noise
    variance 1 (in both modes): the prediction there is 1 with variance 0; given the noise it is 1/2 with
    variance 1/2. *)
Section Noise.
Variable F : rcfType.
Definition kern1 (_ : unit) (x x' : unit) : F := 1.
Definition X1 (_ : 'I_1) : unit := tt.
Definition y1 : 'M[F]_1 := 1%:M.
Definition chol1 (A : 'M[F]_1) : option 'M[F]_1 := if 0 < A 0 0 then Some (Num.sqrt (A 0 0))%:M else None.
Definition oneu (x : unit) : 'rV[F]_1 := 1.
Definition yes1 (m : mode) (q : par F unit) (e : env F 1 1 1) : bool := true.
Definition bn (i : nat) : par F unit := Par tt 1.
Definition be (i : nat) : par F unit := Par tt (2%:R^-1).

Lemma chol1_ok : cholesky_contract chol1.
Proof.
move=> A L; rewrite /chol1; case: ifP => // A0 [<-]; split.
- by move=> i j; rewrite !ord1.
- by move=> i; rewrite !ord1 mxE eqxx mulr1n sqrtr_gt0.
- by rewrite tr_scalar_mx mul_scalar_mx scale_scalar_mx -expr2 sqr_sqrtr ?ltW // -mx11_scalar.
Qed.
Lemma kern1_ok th : is_correlation (kern1 th).
Proof. by split. Qed.
Lemma corr1 th (X : 'I_1 -> unit) : correlation_matrix kern1 th X = 1%:M.
Proof. by apply/matrixP=> i j; rewrite !mxE !ord1. Qed.
Lemma chol1_1 : chol1 1%:M = Some 1%:M.
Proof. by rewrite /chol1 mxE eqxx mulr1n ltr01 sqrtr1. Qed.
Lemma tril1 (A : 'M[F]_1) : tril A = A. Proof. by apply: tril_id => i j; rewrite !ord1. Qed.
Lemma triu1 (A : 'M[F]_1) : triu A = A. Proof. by apply: triu_id => i j; rewrite !ord1. Qed.
Lemma inv1 : invmx 1%:M = 1%:M :> 'M[F]_1. Proof. by rewrite invmx1. Qed.
Lemma broadcast0 : broadcast 1 (0 : 'M[F]_1) = 0. Proof. exact: mul0mx. Qed.

Lemma two0 : 2%:R != 0 :> F. Proof. by rewrite pnatr_eq0. Qed.
(** What the model computes when the factorised matrix is 1. *)
Lemma predict1 (m : mode) (sg nz : 'rV[F]_1) :
  let g := GP m tt X1 oneu 1%:M (invmx 1%:M *m y1 - invmx 1%:M *m (basis_matrix oneu X1 *m broadcast 1 0))
    (solve_upper 1%:M^T (invmx 1%:M *m y1 - invmx 1%:M *m (basis_matrix oneu X1 *m broadcast 1 0))) (broadcast 1 0) None sg nz in
  predict_mean kern1 g tt = 1 /\ predict_mse kern1 g tt = 0.
Proof.
rewrite broadcast0 !mulmx0 subr0 invmx1 mul1mx; split.
  rewrite /predict_mean /= /solve_upper triu1 trmx1 invmx1 mul1mx mulmx0 add0r /y1 mulmx1.
  by apply/rowP=> j; rewrite !mxE !ord1.
apply/rowP=> j; rewrite mxE [RHS]mxE /mse_factor /= /solve_lower tril1 invmx1 mul1mx big_ord1 !mxE.
by rewrite expr1n subrr addr0 mul0r ltxx.
Qed.
Lemma process1 (nz : F) : 1 + nz != 0 ->
  process_mean (kern1 tt) 1 nz oneu (Some 0) X1 y1 tt = (1 + nz)^-1%:M /\
  process_var (kern1 tt) 1 nz oneu (Some (0 : 'M[F]_1)) X1 tt = 1 - (1 + nz)^-1.
Proof.
move=> N; have EK : obs_cov (kern1 tt) 1 nz X1 = (1 + nz)%:M.
  by apply/matrixP=> i j; rewrite !mxE !ord1 mul1r.
have Ek : new_cov (kern1 tt) 1 X1 tt = 1%:M by apply/matrixP=> i j; rewrite !mxE !ord1 mul1r.
rewrite /process_mean /process_var /posterior_mean_known /posterior_var_known EK Ek invmx_scalar.
rewrite mul0mx !mulmx0 subr0 add0r mul1mx /y1 mulmx1 trmx1 mulmx1; split=> //.
by rewrite mxE.
Qed.

Theorem C128_noisy_refuted :
  exists g, fit kern1 chol1 (@qr1 F 0) yes1 bn 1 Concentrated Noisy 1 (Basis oneu (Some 0)) X1 y1 = Some (Ok g) /\
    g_sigma2 g = 1 /\ g_noise g = 1 /\
    predict_mean kern1 g tt = 1 /\ predict_mse kern1 g tt = 0 /\
    process_mean (kern1 tt) 1 1 oneu (Some 0) X1 y1 tt = (2%:R^-1)%:M /\
    process_var (kern1 tt) 1 1 oneu (Some (0 : 'M[F]_1)) X1 tt = 1 - 2%:R^-1.
Proof.
have N : 1 + 1 != 0 :> F by exact: two0.
rewrite /fit andbF /attempts /concentrated /compute_aux_var corr1 /=.
have -> : (1 + 1)^-1 *: (1 *: 1%:M + 1 *: 1%:M) = 1%:M :> 'M[F]_1 by rewrite -scalerDl scalerA mulVf // scale1r.
rewrite chol1_1 /= /solve_lower tril1 /finish /=.
have [H1 H2] := predict1 Noisy (const_mx 1) (const_mx 1); have [H3 H4] := process1 N.
eexists; split; first reflexivity.
split; first by apply/matrixP=> i j; rewrite !mxE !ord1.
split; first by apply/matrixP=> i j; rewrite !mxE !ord1.
by [].
Qed.

(** The same with estimated noise: half of the variance is noise. *)
Theorem C128_noise_estim_refuted :
  exists g, fit kern1 chol1 (@qr1 F 0) yes1 be 1 Concentrated NoiseEstim 0 (Basis oneu (Some 0)) X1 y1 = Some (Ok g) /\
    g_sigma2 g = (2%:R^-1)%:M /\ g_noise g = (2%:R^-1)%:M /\
    predict_mean kern1 g tt = 1 /\ predict_mse kern1 g tt = 0 /\
    process_mean (kern1 tt) (2%:R^-1) (2%:R^-1) oneu (Some 0) X1 y1 tt = (2%:R^-1)%:M.
Proof.
have H : 2%:R^-1 + 2%:R^-1 = 1 :> F by rewrite -[2%:R^-1]mulr1 -mulrDr mulVf // two0.
have H' : 1 - 2%:R^-1 = 2%:R^-1 :> F by rewrite -{1}H addrK.
rewrite /fit andbF /attempts /concentrated /compute_aux_var corr1 /= H'.
have -> : 2%:R^-1 *: 1%:M + 2%:R^-1 *: 1%:M = 1%:M :> 'M[F]_1 by rewrite -scalerDl H scale1r.
rewrite chol1_1 /= /solve_lower tril1.
have ET : 1%:R^-1 *: colsq (invmx 1%:M *m y1 - invmx 1%:M *m (basis_matrix oneu X1 *m broadcast 1 0)) = 1%:M.
  rewrite broadcast0 !mulmx0 subr0 invmx1 mul1mx invr1 scale1r; apply/matrixP=> i j.
  by rewrite !mxE big_ord1 !ord1 !mxE expr1n.
rewrite ET; case: ifP => [/existsP[j]|_]; first by rewrite mxE !ord1 oner_eq0.
have [H1 H2] := predict1 NoiseEstim (2%:R^-1 *: 1%:M) (2%:R^-1 *: 1%:M).
eexists; split; first reflexivity.
split; first exact: scalemx1. split; first exact: scalemx1. split=> //; split=> //.
have EK : obs_cov (kern1 tt) 2%:R^-1 2%:R^-1 X1 = 1%:M by apply/matrixP=> i j; rewrite !mxE !ord1 mulr1 H.
have Ek : new_cov (kern1 tt) 2%:R^-1 X1 tt = (2%:R^-1)%:M by apply/matrixP=> i j; rewrite !mxE !ord1 mulr1.
by rewrite /process_mean /posterior_mean_known EK Ek invmx1 mul0mx !mulmx0 subr0 add0r !mulmx1.
Qed.
End Noise.
Print Assumptions C128_noisy_refuted.
Print Assumptions C128_noise_estim_refuted.

Section Fit.
Variables (F : realFieldType) (P Theta : Type) (n p t : nat).
Variable corr : Theta -> P -> P -> F.
Variable cholesky : 'M[F]_n -> option 'M[F]_n.
Variable qr : 'M[F]_(n, p) -> 'M[F]_(n, p) * 'M[F]_p.
Variable accept : mode -> par F Theta -> env F n p t -> bool.
Variable best : nat -> par F Theta.
Hypotheses (HC : cholesky_contract cholesky) (HQ : qr_contract qr).
Notation fit := (fit corr cholesky qr accept best).

(** ** C133: prediction in batches. *)
(** Refuted: two or more points can not be predicted with any batch size, nor one point of a model with
    several targets. *)
Theorem C133_batches_refuted (g : gp F P Theta n p t) bs xs :
  (1 < size xs)%N \/ (0 < size xs)%N /\ t <> 1%N ->
  exists e, predict corr g (Some bs) xs = Error e /\ predict corr g None xs = Ok [seq (predict_mean corr g x, predict_mse corr g x) | x <- xs].
Proof.
move=> H; rewrite /predict; case: ltnP => L; first by exists TypeError.
have -> : (size xs == 1%N) && (t == 1%N) = false.
  case: eqP => //= E; case: H => [|[_ Nt]]; first by rewrite E.
  by apply/eqP.
by exists ValueError.
Qed.
(** What holds: a single point and a single target. *)
Theorem C133_single_partial (g : gp F P Theta n p t) bs x : t = 1%N -> (0 < bs)%N ->
  predict corr g (Some bs) [:: x] = predict corr g None [:: x].
Proof. by rewrite /predict /= => /eqP -> B; rewrite ltnNge B. Qed.

(** ** C134: which configurations can be fitted. *)
(** Refuted: no data set can be fitted with the restricted likelihood, with a nonparametric trend, or
    with an estimated trend and several targets. *)
Theorem C134_unusable_refuted fuel lik m noise tr X (y : 'M[F]_(n, t)) :
  lik = Restricted \/ tr = Nonparametric F P p \/ (exists f, tr = Basis f None) /\ (0 < p)%N /\ t <> 1%N ->
  forall g, fit fuel lik m noise tr X y <> Some (Ok g).
Proof.
move=> H g /fit_ok[f [b [q [nz [e [E1 [E2 [E3 [_ [_ E4]]]]]]]]]].
case: H => [E|[E|[[f' E] [p0 t1]]]]; [by rewrite E in E2|by rewrite E in E1|].
move: E3 E4; rewrite E in E1; case: E1 => _ <- /concentrated_aux[+ _] /finish_ok[_ [_ [_ [_]]]].
rewrite /compute_aux_var; case: cholesky => // L; case=> <- /= [_ [_ [_ EP]]].
by apply: t1; apply/eqP; rewrite -(eqn_pmul2l p0) muln1 EP.
Qed.
(** What holds: otherwise [fit], if it ends, ends with a fitted model, provided that an estimated trend
    is determined by the training points. *)
Theorem C134_usable_partial fuel m noise f b X (y : 'M[F]_(n, t)) res :
  fit fuel Concentrated m noise (Basis f b) X y = Some res ->
  (b = None -> t = 1%N /\ \rank (trend_at f X) = p) -> exists g, res = Ok g.
Proof.
rewrite /fit => H Hb; move: H; case: ifP => [/andP[/eqP Eb L]|_].
  by have [_ R] := Hb Eb; move: (rank_leq_row (trend_at f X)); rewrite R leqNgt L.
case E: attempts => [[[m' q] e]|] // [<-].
have [i' [nz [_ [E1 _]]]] := attempts_ok E; have [+ _] := concentrated_aux E1.
rewrite /compute_aux_var /finish; case EL: cholesky => [L|] //; have [T D ER] := HC EL.
case: b Hb {E E1} => [b|] Hb [<-] /=; first by eexists.
have [Et Rk] := Hb erefl; have [A1 A2 A3] := HQ (solve_lower L (basis_matrix f X)).
rewrite (triu_id A3) [in (p * _)%N]Et muln1 eqxx /=.
suff -> : (qr (solve_lower L (basis_matrix f X))).2 \in unitmx by eexists.
rewrite -row_full_unit /row_full eqn_leq rank_leq_row /= -{1}Rk.
have <- : \rank (solve_lower L (basis_matrix f X)) = \rank (trend_at f X).
  rewrite /solve_lower (tril_id T) -[LHS]mxrank_tr trmx_mul mxrankMfree ?mxrank_tr //.
  by rewrite row_free_unit unitmx_tr unitmx_inv; exact: trig_unit T D.
by rewrite {1}A1 mxrankM_maxr.
Qed.

(** ** C135: termination of [fit]. *)
Lemma on_trend (f : P -> 'rV[F]_p) b X (y : 'M[F]_(n, t)) c R a : y = basis_matrix f X *m c ->
  (if b is Some b1 then c = broadcast t b1 else true) ->
  compute_aux_var cholesky qr f b X y R = Some a -> arho a = 0.
Proof.
move=> Ey Eb; rewrite /compute_aux_var; case EL: cholesky => [L|] //; have [T D ER] := HC EL.
case: b Eb => [b|] Eb [<-] /=; first by rewrite Ey Eb subrr.
have [A1 A2 A3] := HQ (solve_lower L (basis_matrix f X)).
move: A1 A2 {A3}; case: (qr _) => Q G /=; rewrite /solve_lower (tril_id T) => A1 A2.
rewrite Ey [invmx L *m _]mulmxA A1 -[Q *m Q^T *m _]mulmxA [Q^T *m _]mulmxA [Q^T *m (Q *m G)]mulmxA A2 mul1mx.
by rewrite mulmxA subrr.
Qed.
(** Refuted: in noise-estimation mode [fit] never returns if the observations lie on the trend (all
    observations zero, or equal with an estimated constant), for every training set, whatever the
    optimizer finds. *)
Theorem C135_endless_refuted fuel noise f b X (c : 'M[F]_(p, t)) : (0 < t)%N -> (p <= n)%N ->
  (if b is Some b1 then c = b1 *m const_mx 1 else true) ->
  fit fuel Concentrated NoiseEstim noise (Basis f b) X (trend_at f X *m c) = None.
Proof.
move=> t0 pn Eb; rewrite /fit ltnNge pn andbF.
suff H k i nz : attempts corr cholesky qr accept best k i NoiseEstim nz f b X (trend_at f X *m c) = None by rewrite H.
elim: k i nz => // k IH i nz /=.
case E: compute_aux_var => [a|] //; have E0 : arho a = 0 by apply: on_trend E => //; case: (b) Eb.
case: ifP => // /existsPn/(_ (Ordinal t0)); rewrite E0 !mxE big1 ?mulr0 ?eqxx // => i0 _.
by rewrite mxE expr0n.
Qed.
(** What holds: with a fixed noise level [fit] multiplies the noise by ten after each rejected attempt,
    and returns at the first attempt that is accepted. *)
Theorem C135_escalation_partial k noise f b X (y : 'M[F]_(n, t)) e :
  concentrated corr cholesky qr Noisy (noise * 10%:R ^+ k) f b X y (best k) = Some e -> accept Noisy (best k) e ->
  (b = None -> (p <= n)%N) ->
  fit k.+1 Concentrated Noisy noise (Basis f b) X y <> None.
Proof.
move=> E A Hb; rewrite /fit; case: ifP => // _.
suff H j i nz : (exists e, concentrated corr cholesky qr Noisy (nz * 10%:R ^+ j) f b X y (best (i + j)) = Some e /\ accept Noisy (best (i + j)) e) ->
    attempts corr cholesky qr accept best j.+1 i Noisy nz f b X y <> None.
  by case E2: attempts => [[[m' q] e2]|] // _; apply: (H k 0%N noise _ E2); exists e; rewrite add0n.
elim: j i nz => [|j IH] i nz [e1 [H1 H2]].
  by rewrite addn0 expr0 mulr1 in H1 H2; rewrite /= in H1 *; rewrite H1 H2.
have IH' : attempts corr cholesky qr accept best j.+1 i.+1 Noisy (nz * 10%:R) f b X y <> None.
  by apply: IH; exists e1; rewrite addSn -addnS -mulrA -exprS.
have -> : attempts corr cholesky qr accept best j.+2 i Noisy nz f b X y =
    match concentrated corr cholesky qr Noisy nz f b X y (best i) with
    | Some e => if accept Noisy (best i) e then Some (Noisy, best i, e)
                else attempts corr cholesky qr accept best j.+1 i.+1 Noisy (nz * 10%:R) f b X y
    | None => attempts corr cholesky qr accept best j.+1 i.+1 Noisy (nz * 10%:R) f b X y
    end.
  by move=> {IH IH' H1 H2 E A}; case: (j) => [|j'] /=; case: compute_aux_var => // a; case: ifP.
by case: concentrated => // e2; case: ifP.
Qed.
End Fit.
Print Assumptions C133_batches_refuted.
Print Assumptions C133_single_partial.
Print Assumptions C134_unusable_refuted.
Print Assumptions C134_usable_partial.
Print Assumptions C135_endless_refuted.
Print Assumptions C135_escalation_partial.

(** C135: one point with y = 1, noise 1 and a likelihood that is accepted for noise above 5: the second
    attempt is accepted.  C135 (endless): one observation of zero. *)
Example C135_example (F : rcfType) :
  let acc := fun (m : mode) (q : par F unit) (e : env F 1 1 1) => 5%:R < e_noise e 0 0 in
  exists e, concentrated (@kern1 F) (@chol1 F) (@qr1 F 0) Noisy (1 * 10%:R ^+ 1) (@oneu F) (Some 0) X1 (@y1 F) (@bn F 1) = Some e /\
    acc Noisy (@bn F 1) e /\
    fit (@kern1 F) (@chol1 F) (@qr1 F 0) acc (@bn F) 1 Concentrated Noisy 1 (Basis (@oneu F) (Some 0)) X1 (@y1 F) = None /\
    fit (@kern1 F) (@chol1 F) (@qr1 F 0) acc (@bn F) 5 Concentrated NoiseEstim 1 (Basis (@oneu F) (Some 0)) X1 0 = None.
Proof.
move=> acc; rewrite mul1r expr1 /concentrated /compute_aux_var corr1 /=.
have E (c : F) : 0 < 1 + c -> (1 + c)^-1 *: (1 *: 1%:M + c *: 1%:M) = 1%:M :> 'M[F]_1.
  by move=> H; rewrite -scalerDl scalerA mulVf ?scale1r // gt_eqF.
rewrite (E 10%:R) ?addr_gt0 ?ltr01 ?ltr0n // chol1_1; eexists; split; first reflexivity.
split; first by rewrite /acc /= mxE ltr_nat.
split.
  rewrite /fit /= /compute_aux_var corr1 /= (E 1) ?addr_gt0 ?ltr01 // chol1_1 /acc /=.
  by rewrite mxE ltNge (_ : 1 <= 5%:R) // ler1n.
have := @C135_endless_refuted F unit unit 1 1 1 (@kern1 F) (@chol1 F) (@qr1 F 0) acc (@bn F) (@chol1_ok F) (@qr1_ok F 0)
  5 1 (@oneu F) (Some 0) X1 0 isT isT.
by rewrite mulmx0; apply; rewrite mul0mx.
Qed.
