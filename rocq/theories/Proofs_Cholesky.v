(** Lemmas about Model_Cholesky.v. *)
From mathcomp Require Import all_ssreflect all_algebra.
From Coq Require Import Field.
From Verif Require Import Lib_Field Model_Cholesky Spec_Cholesky.
Set Implicit Arguments.
Unset Strict Implicit.
Unset Printing Implicit Defensive.
Import Order.Theory GRing.Theory Num.Theory.
Local Open Scope ring_scope.

Section Update.
Variables (R : rcfType) (n : nat).
Lemma rcf_field : field_theory (0 : R) 1 +%R *%R (fun x y => x - y) -%R (fun x y => x / y) GRing.inv eq.
Proof.
split; [split|..] => //.
- exact: add0r.
- exact: addrC.
- exact: addrA.
- exact: mul1r.
- exact: mulrC.
- exact: mulrA.
- exact: mulrDl.
- exact: subrr.
- exact/eqP/oner_neq0.
- by move=> x /eqP x0; rewrite mulVf.
Qed.
Implicit Types (A B : 'M[R]_n) (p w z : 'rV[R]_n).

Definition sqn (w : 'rV[R]_n) : R := \sum_j w 0 j ^+ 2.

Lemma sqnE w : w *m w^T = (sqn w)%:M.
Proof.
rewrite [LHS]mx11_scalar; congr (_%:M); rewrite mxE; apply: eq_bigr => j _.
by rewrite mxE expr2.
Qed.

Lemma sqn_ge0 w : 0 <= sqn w.
Proof. by apply: sumr_ge0 => j _; rewrite sqr_ge0. Qed.

Lemma sqn_eq0 w : (sqn w == 0) = (w == 0).
Proof.
apply/eqP/eqP => [H|->]; last by rewrite /sqn big1 // => j _; rewrite mxE expr0n.
apply/rowP => j; rewrite mxE; apply/eqP; rewrite -sqrf_eq0; apply/eqP.
have /psumr_eq0P : forall i : 'I_n, true -> 0 <= w 0 i ^+ 2 by move=> i _; apply: sqr_ge0.
by move=> /(_ H j isT).
Qed.

Lemma rank_oneE a b (C : 'M[R]_n) p : rank_one a b C p = a *: C + b *: (p^T *m p).
Proof.
apply/matrixP => i j; rewrite !mxE big_ord1 !mxE; congr (_ + _ * (_ * _)).
Qed.

(** (1 + a w^T w) (1 + b w^T w) *)
Lemma outer_mul a b w :
  (1%:M + a *: (w^T *m w)) *m (1%:M + b *: (w^T *m w)) = 1%:M + (a + b + a * b * sqn w) *: (w^T *m w).
Proof.
rewrite mulmxDl !mulmxDr !mul1mx mulmx1 -addrA; congr (_ + _).
rewrite -scalemxAl -scalemxAr -mulmxA (mulmxA w) sqnE mul_scalar_mx -scalemxAr !scalerA -!scalerDl.
by rewrite (f_outer rcf_field a b (sqn w)).
Qed.

(** The arithmetic of the two factors. *)
Lemma factor_inverse (L t : R) : L != 0 -> t != 0 ->
  let a := (t - 1) / L in let b := (1 - 1 / t) / L in a + - b + a * (- b) * L = 0.
Proof.
by move=> /eqP L0 /eqP t0; exact: (f_inverse rcf_field).
Qed.

Lemma factor_square (L t k : R) : L != 0 -> t ^+ 2 = 1 + L * k ->
  let a := (t - 1) / L in a + a + a * a * L = k.
Proof. by move=> /eqP L0; rewrite expr2 => E; exact: (f_square rcf_field). Qed.

Lemma mulmx_swap (C D : 'M[R]_n) : C *m D = 1%:M -> D *m C = 1%:M.
Proof. exact: mulmx1C. Qed.

Lemma update_ok (P : params R) low z (s : chol R n) :
  inverse_of (A s) (A_inv s) -> 0 < ca_of P low -> 0 <= ccov P -> next_pc P low z (pc s) != 0 ->
  exists s', [/\ update P low z s = Some s', pc s' = next_pc P low z (pc s), inverse_of (A s') (A_inv s')
    & covariance (A s') = rank_one (ca_of P low) (ccov P) (covariance (A s)) (pc s')].
Proof.
move=> [AB BA] ca0 cb0 p0; rewrite /update.
set p := next_pc P low z (pc s) in p0 *; set ca := ca_of P low in ca0 *; set cb := ccov P in cb0 *.
set w := p *m (A_inv s)^T; rewrite -/(sqn w); set L := sqn w.
have pw : p = w *m (A s)^T by rewrite /w -mulmxA -trmx_mul AB trmx1 mulmx1.
have w0 : w != 0 by apply: contra_neq p0 => w0; rewrite pw w0 mul0mx.
have L0 : L != 0 by rewrite sqn_eq0.
rewrite (negbTE L0); clearbody w.
set t := Num.sqrt (1 + L * cb / ca).
have tt : t ^+ 2 = 1 + L * (cb / ca).
  rewrite sqr_sqrtr; first by rewrite mulrA.
  apply: addr_ge0; first exact: ler01.
  by apply: divr_ge0 (ltW ca0); apply: mulr_ge0 cb0; apply: sqn_ge0.
have t0 : t != 0.
  rewrite -sqrf_eq0 tt; apply: lt0r_neq0; apply: ltr_paddr; last exact: ltr01.
  by apply: mulr_ge0; [apply: sqn_ge0|apply: divr_ge0 (ltW ca0)].
have r0 : Num.sqrt ca != 0 by rewrite sqrtr_eq0 -ltNge.
have pT : p^T = A s *m w^T by rewrite pw trmx_mul trmxK.
have E1 : A s + ((t - 1) / L) *: (p^T *m w) = A s *m (1%:M + ((t - 1) / L) *: (w^T *m w)).
  by rewrite mulmxDr mulmx1 -scalemxAr pT -(mulmxA (A s) w^T w).
have E2 : A_inv s - ((1 - 1 / t) / L) *: (w^T *m (w *m A_inv s)) =
    (1%:M + (- ((1 - 1 / t) / L)) *: (w^T *m w)) *m A_inv s.
  by rewrite mulmxDl mul1mx -scalemxAl (mulmxA w^T w) scaleNr.
rewrite E1 E2; eexists; split; [by []|by []| |].
- rewrite /inverse_of /=.
  have H : (Num.sqrt ca *: (A s *m (1%:M + ((t - 1) / L) *: (w^T *m w)))) *m
    ((1 / Num.sqrt ca) *: ((1%:M + (- ((1 - 1 / t) / L)) *: (w^T *m w)) *m A_inv s)) = 1%:M.
    rewrite -scalemxAl -scalemxAr scalerA div1r mulfV // scale1r.
    rewrite -mulmxA (mulmxA _ _ (A_inv s)) outer_mul factor_inverse // scale0r addr0 mul1mx //.
  by split=> //; apply: mulmx1C.
- rewrite rank_oneE /covariance /= linearZ /= -scalemxAl -scalemxAr scalerA -expr2 sqr_sqrtr ?(ltW ca0) //.
  have sT : (1%:M + ((t - 1) / L) *: (w^T *m w))^T = 1%:M + ((t - 1) / L) *: (w^T *m w).
    by rewrite linearD /= linearZ /= trmx_mul trmxK trmx1.
  rewrite trmx_mul sT.
  rewrite -mulmxA (mulmxA _ _ (A s)^T) outer_mul (factor_square L0 tt).
  rewrite mulmxDl mul1mx mulmxDr scalerDr; congr (_ + _).
  rewrite -scalemxAl -scalemxAr scalerA -(mulrC (cb / ca)) divfK ?lt0r_neq0 //; congr (_ *: _).
  by rewrite !mulmxA -pT -mulmxA -pw.
Qed.

(** With a zero evolution path the update divides zero by zero. *)
Lemma update_zero (P : params R) low z (s : chol R n) :
  next_pc P low z (pc s) = 0 -> update P low z s = None.
Proof. by move=> E; rewrite /update E mul0mx -/(sqn 0) (_ : sqn 0 = 0) ?eqxx //; apply/eqP; rewrite sqn_eq0. Qed.

(** Usual parameters make the factor of the old covariance positive. *)
Lemma ca_pos (P : params R) low : 0 < ccov P < 1 -> 0 < cc P <= 1 -> 0 < ca_of P low.
Proof.
move=> /andP[c0 c1] /andP[d0 d1]; rewrite /ca_of; case: low; first by rewrite subr_gt0.
apply: ltr_paddr; last by rewrite subr_gt0.
apply: mulr_ge0; first by apply: mulr_ge0; apply: ltW.
by rewrite subr_ge0 (le_trans d1) // ler1n.
Qed.

(** *** Sequences of successes *)
Lemma init_inverse (A0 : 'M[R]_n) s : init A0 = Some s -> inverse_of (A s) (A_inv s) /\ A s = A0 /\ pc s = 0.
Proof.
rewrite /init; case: ifP => // /andP[_ U] [<-] /=; split=> //; split; [exact: mulmxV|exact: mulVmx].
Qed.

Lemma steps_cat (P : params R) os os' (s : chol R n) :
  steps P (os ++ os') s = obind (steps P os') (steps P os s).
Proof. by elim: os s => //= o r IH s; case: (step P o s) => //= s1; rewrite IH. Qed.

(** symm does nothing to a symmetric matrix *)
Lemma symm_id (M : 'M[R]_n) : M^T = M -> symm M = M.
Proof.
move=> E; apply/matrixP => i j; rewrite !mxE.
case: (ltngtP i j) => H; rewrite ?addr0 ?add0r //.
by rewrite -{1}E mxE.
Qed.
Lemma cov_sym (M : 'M[R]_n) : (covariance M)^T = covariance M.
Proof. by rewrite /covariance trmx_mul trmxK. Qed.
Lemma rank_one_sym a b (C : 'M[R]_n) p : C^T = C -> (rank_one a b C p)^T = rank_one a b C p.
Proof. by move=> E; rewrite rank_oneE linearD /= !linearZ /= E trmx_mul trmxK. Qed.

Lemma full_pc (P : params R) low z (u : full R n) : fpc (update_full P low z u) = next_pc P low z (fpc u).
Proof. by rewrite /update_full /next_pc; case: low. Qed.
Lemma full_C (P : params R) low z (u : full R n) : (fC u)^T = fC u ->
  fC (update_full P low z u) = rank_one (ca_of P low) (ccov P) (fC u) (next_pc P low z (fpc u)).
Proof.
move=> E; rewrite /update_full /next_pc /ca_of /coeff; case: low; rewrite /= symm_id -?rank_oneE ?rank_one_sym //.
congr (rank_one _ _ _ _). rewrite mulrBr mulr1 opprB addrA addrAC mulrA //.
Qed.
End Update.

Section Dim1.
Variable R : rcfType.
(** The default parameters in dimension 1 (150-156). *)
Definition P1 : params R := Params (2%:R / 7%:R) (2%:R / 3%:R).
Definition z1 : 'rV[R]_1 := const_mx 1.

Lemma P1_ok : 0 < ccov P1 < 1 /\ 0 < cc P1 <= 1.
Proof.
rewrite /= ltr_pdivr_mulr ?ltr0n // ler_pdivr_mulr ?ltr0n // !mul1r ltr_nat ler_nat.
by rewrite !divr_gt0 ?ltr0n.
Qed.
Lemma coeff1 : 0 < coeff P1.
Proof.
have [_ /andP[h1 h2]] := P1_ok; rewrite /coeff mulr_gt0 // subr_gt0.
by rewrite (le_lt_trans h2) // ltr1n.
Qed.
Lemma next1 : next_pc P1 true z1 0 != 0.
Proof.
apply/eqP => /rowP /(_ ord0); rewrite !mxE mulr0 add0r mulr1 => /eqP; rewrite sqrtr_eq0 leNgt coeff1 //.
Qed.

Lemma init1 : init (1%:M : 'M[R]_1) = Some (Chol 0 1%:M 1%:M).
Proof. by rewrite /init scalar_mx_is_trig unitmx1 invmx1. Qed.

(** After one success the factor is not the identity. *)
Lemma success1 : exists s, [/\ update P1 true z1 (Chol 0 1%:M 1%:M) = Some s, inverse_of (A s) (A_inv s) & A_inv s != 1%:M].
Proof.
have [h1 h2] := P1_ok.
have I : inverse_of (1%:M : 'M[R]_1) 1%:M by split; rewrite mulmx1.
have [s [E1 E2 E3 E4]] := update_ok (s := Chol 0 1%:M 1%:M) (low := true) I (ca_pos true h1 h2) (ltW (proj1 (andP h1))) next1.
exists s; split=> //; apply/eqP => B1; case: E3; rewrite B1 mulmx1 => A1 _.
move: E4; rewrite A1 E2 /covariance /= trmx1 mulmx1 => /matrixP /(_ ord0 ord0).
rewrite !mxE eqxx mulr0 add0r !mulr1 -expr2 sqr_sqrtr ?(ltW coeff1) // mulr1n => H.
have : ccov P1 * coeff P1 = ccov P1 by apply: (addrI (1 - ccov P1)); rewrite -H subrK.
have c0 : ccov P1 != 0 by rewrite lt0r_neq0 // (proj1 (andP h1)).
move=> /(canRL (mulKf c0)); rewrite mulVf // /coeff /=.
have -> : (2%:R - 2%:R / 3%:R : R) = 4%:R / 3%:R.
  by apply: (mulIf (_ : 3%:R != 0 :> R)); rewrite ?pnatr_eq0 // mulrBl !divfK ?pnatr_eq0 // -natrM -natrB.
rewrite mulf_div -!natrM => /(canRL (divfK (_ : 9%:R != 0 :> R))).
rewrite pnatr_eq0 => /(_ isT) /eqP; rewrite mul1r eqr_nat //.
Qed.

Lemma stale_not_rank_one (P : params R) (s : chol R 1) low z s' : 0 < ca_of P low -> 0 < ccov P ->
  A s = 1%:M -> A_inv s \in unitmx -> A_inv s != 1%:M -> next_pc P low z (pc s) != 0 -> update P low z s = Some s' ->
  covariance (A s') <> rank_one (ca_of P low) (ccov P) (covariance (A s)) (pc s').
Proof.
move=> ca0 cb0 A1 U N p0; rewrite /update; set q := next_pc P low z (pc s) in p0 *.
have qE : q = (q 0 0)%:M by exact: mx11_scalar.
have BE : A_inv s = (A_inv s 0 0)%:M by exact: mx11_scalar.
set p := q 0 0 in qE; set a := A_inv s 0 0 in BE.
have pn0 : p != 0 by apply: contra_neq p0 => h; rewrite qE h -scalemx1 scale0r.
have an0 : a != 0 by move: U; rewrite BE unitmxE det_scalar expr1 unitfE.
have an1 : a != 1 by apply: contra_neq N => h; rewrite BE h.
have wE : q *m (A_inv s)^T = (p * a)%:M by rewrite {1}qE {1}BE tr_scalar_mx -scalar_mxM.
rewrite wE big_ord1.
have -> : ((p * a)%:M : 'rV[R]_1) 0 0 = p * a by rewrite mxE eqxx mulr1n.
case: ifP => // _ [<-] /=; rewrite A1 => /matrixP /(_ 0 0).
set t := Num.sqrt (1 + _).
have tt : t * t = 1 + (p * a) * (p * a) * ccov P / ca_of P low.
  rewrite -[t * t]expr2 sqr_sqrtr; first by rewrite [(p * a) ^+ 2]expr2.
  apply: addr_ge0; first exact: ler01.
  apply: divr_ge0 (ltW ca0); apply: mulr_ge0 (ltW cb0); exact: sqr_ge0.
rewrite /covariance trmx1 mulmx1 linearZ /= -scalemxAl -scalemxAr scalerA -[X in X *: _]expr2 sqr_sqrtr ?(ltW ca0) //.
rewrite !mxE !big_ord1 !mxE !big_ord1 !mxE !eqxx !mulr1n -/p expr2.
rewrite -[X in _ = _ * X + _](mulr1 (1 : R)) => E.
have /eqP := f_stale (rcf_field R) (ca := ca_of P low) (p := p) (a := a) (ccov P) t (elimN eqP (lt0r_neq0 ca0)) (elimN eqP an0) (elimN eqP pn0) tt E.
rewrite !mulf_eq0 (negbTE (lt0r_neq0 ca0)) /= -(natrD _ 1 1) pnatr_eq0 /= !subr_eq0 (negbTE an1) orbF => /eqP t1.
move: tt; rewrite t1 mulr1 -[X in X = _]addr0 => /addrI /esym /eqP.
by rewrite !mulf_eq0 invr_eq0 (negbTE pn0) (negbTE an0) (negbTE (lt0r_neq0 ca0)) (negbTE (lt0r_neq0 cb0)).
Qed.
End Dim1.
