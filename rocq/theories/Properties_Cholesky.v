(** Properties C33 (the rank-one update of the Cholesky factor is exact) and C34 (the stored inverse). *)
From mathcomp Require Import all_ssreflect all_algebra realalg.
From Verif Require Import Model_Cholesky Spec_Cholesky Proofs_Cholesky.
Set Implicit Arguments.
Unset Strict Implicit.
Unset Printing Implicit Defensive.
Import Order.Theory GRing.Theory Num.Theory.
Local Open Scope ring_scope.

Section Props.
Variables (R : rcfType) (n : nat).

(** C33, in every dimension, for usual learning rates, any factor A (triangular or not) with its
    inverse, any evolution path and step z: if the new evolution path is not zero, the update
    succeeds, the covariance A A^T becomes (weight of the old one) A A^T + ccov pc pc^T with the new
    pc, and the stored inverse is the inverse of the new A.  Missing: a zero evolution path, and
    states in which the stored inverse is stale; both are refuted below. *)
Theorem C33_update_partial (P : params R) low z (s : chol R n) :
  0 < ccov P < 1 -> 0 < cc P <= 1 -> inverse_of (A s) (A_inv s) -> next_pc P low z (pc s) != 0 ->
  exists s', [/\ update P low z s = Some s', pc s' = next_pc P low z (pc s), inverse_of (A s') (A_inv s')
    & covariance (A s') = rank_one (ca_of P low) (ccov P) (covariance (A s)) (pc s')].
Proof.
move=> h1 h2 I p0; apply: update_ok => //; first exact: ca_pos.
by apply: ltW; case/andP: h1.
Qed.

(** C33: the Cholesky variant and the base class compute the same covariance.  Start both with the
    same covariance; after any sequence of successes after which the factor is defined, the evolution
    paths agree and A A^T is the matrix C of the base class, in exact arithmetic. *)
Definition successes (l : seq (bool * 'rV[R]_n)) : seq (op R n) := [seq Success d.1 d.2 | d <- l].
Theorem C33_same_as_base (P : params R) (A0 : 'M[R]_n) (l : seq (bool * 'rV[R]_n)) s0 s :
  0 < ccov P < 1 -> 0 < cc P <= 1 -> init A0 = Some s0 -> steps P (successes l) s0 = Some s ->
  let u := foldl (fun u d => update_full P d.1 d.2 u) (Full 0 (covariance A0)) l in
  pc s = fpc u /\ covariance (A s) = fC u.
Proof.
move=> h1 h2 /init_inverse[I [EA Ep]].
have [Epc EC] : pc s0 = fpc (Full 0 (covariance A0)) /\ covariance (A s0) = fC (Full 0 (covariance A0)).
  by rewrite /= EA Ep.
have S : (fC (Full 0 (covariance A0)))^T = fC (Full 0 (covariance A0)) by exact: cov_sym.
move: (Full 0 (covariance A0)) Epc EC S => u.
elim: l s0 u I {EA Ep} => [|[low z] l IH] s0 u I Epc EC S /=; first by case=> <-.
have [p0|p0] := eqVneq (next_pc P low z (pc s0)) 0; first by rewrite update_zero.
have [s1 [E1 E2 E3 E4]] := C33_update_partial h1 h2 I p0.
rewrite E1 /= => E; apply: (IH s1) => //.
- by rewrite full_pc -Epc.
- by rewrite full_C // -Epc -EC E4 E2.
- by rewrite full_C // rank_one_sym.
Qed.

(** C34 without restarts and exceptions: after any sequence of successes after which the factor is
    defined, the stored inverse is the inverse of the factor. *)
Theorem C34_successes_partial (P : params R) (A0 : 'M[R]_n) (l : seq (bool * 'rV[R]_n)) s0 s :
  0 < ccov P < 1 -> 0 < cc P <= 1 -> init A0 = Some s0 -> steps P (successes l) s0 = Some s ->
  inverse_of (A s) (A_inv s).
Proof.
move=> h1 h2 /init_inverse[I _]; elim: l s0 I => [|[low z] l IH] s0 I /=; first by case=> <-.
have [p0|p0] := eqVneq (next_pc P low z (pc s0)) 0; first by rewrite update_zero.
have [s1 [E1 _ E3 _]] := C33_update_partial h1 h2 I p0.
by rewrite E1 /=; apply: IH.
Qed.
End Props.
Print Assumptions C33_update_partial.
Print Assumptions C33_same_as_base.
Print Assumptions C34_successes_partial.

(** The hypotheses hold for the default parameters in dimension 1 over the real algebraic numbers. *)
Example C33_example : let P := P1 [rcfType of realalg] in
  0 < ccov P < 1 /\ 0 < cc P <= 1 /\
  exists s0 s, init (1%:M : 'M_1) = Some s0 /\ next_pc P true (z1 _) (pc s0) != 0 /\
    steps P (successes [:: (true, z1 _)]) s0 = Some s /\ A_inv s != 1%:M.
Proof.
move=> P; have [h1 h2] := P1_ok [rcfType of realalg]; split=> //; split=> //.
have [s [E _ N]] := success1 [rcfType of realalg].
exists (Chol 0 1%:M 1%:M), s; rewrite init1; split=> //; split; first exact: next1.
by rewrite /= E.
Qed.

(** C33 refuted for a zero path: in every dimension and for all parameters, two restarts in a row
    without a success between them, the second of which finds an improvement, leave a matrix of nan. *)
Theorem C33_zero_path_refuted (R : rcfType) n (P : params R) (s : chol R n) low low' :
  exists s1, steps P [:: Restart _ _ false low] s = Some s1 /\ steps P [:: Restart _ _ false low; Restart _ _ true low'] s = None.
Proof.
exists (reset s); split=> //=; rewrite update_zero //= /next_pc /= scaler0.
by case: low'; rewrite ?scaler0 ?addr0.
Qed.
Print Assumptions C33_zero_path_refuted.

(** C34 refuted: in dimension 1 with the default parameters, one success followed by a restart (or by
    a step size out of range) leaves a stored inverse that is not the inverse of the factor. *)
Theorem C34_stale_refuted (R : rcfType) : exists (P : params R) (z : 'rV[R]_1) s0, init (1%:M : 'M_1) = Some s0 /\
  (exists s, steps P [:: Success true z; Restart _ _ false true] s0 = Some s /\ ~ inverse_of (A s) (A_inv s)) /\
  (exists s, steps P [:: Success true z; Exn _ _] s0 = Some s /\ ~ inverse_of (A s) (A_inv s)).
Proof.
exists (P1 R), (z1 R), (Chol 0 1%:M 1%:M); rewrite init1; split=> //.
have [s [E I N]] := success1 R.
have H : ~ inverse_of (A (reset s)) (A_inv (reset s)) by case=> _; rewrite /= mulmx1; apply/eqP.
by split; exists (reset s); rewrite /= E.
Qed.
Print Assumptions C34_stale_refuted.

(** C33 refuted after a restart: with the stale inverse the next update does not give the rank-one
    updated covariance. *)
Theorem C33_after_restart_refuted (R : rcfType) : exists (P : params R) (z : 'rV[R]_1) s0 s s',
  [/\ init (1%:M : 'M_1) = Some s0, steps P [:: Success true z; Restart _ _ false true] s0 = Some s,
      update P true z s = Some s' &
      covariance (A s') <> rank_one (ca_of P true) (ccov P) (covariance (A s)) (pc s')].
Proof.
have [h1 h2] := P1_ok R.
have [s [E [_ I] N]] := success1 R.
have U : A_inv (reset s) \in unitmx by case: (mulmx1_unit I).
have [s' E'] : exists s', update (P1 R) true (z1 R) (reset s) = Some s'.
  rewrite /update; case: ifP => [H|_]; last by eexists.
  exfalso; move: H; rewrite -/(sqn _) sqn_eq0 => /eqP H; move/eqP: (next1 R); apply.
  by rewrite -[LHS]mulmx1 -(trmx1 R 1) -(mulVmx U) trmx_mul mulmxA H mul0mx.
exists (P1 R), (z1 R), (Chol 0 1%:M 1%:M), (reset s), s'; rewrite init1; split=> //; first by rewrite /= E.
apply: stale_not_rank_one E' => //; [exact: ca_pos|by case/andP: h1|exact: next1].
Qed.
Print Assumptions C33_after_restart_refuted.
