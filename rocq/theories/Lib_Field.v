(** Scalar identities in an arbitrary field, for use with the fields of mathcomp. *)
From Coq Require Import Ring Field.

Set Implicit Arguments.
Section F.
Variable T : Type.
Variables (z o : T) (add mul sub : T -> T -> T) (opp : T -> T) (div : T -> T -> T) (inv : T -> T).
Hypothesis FT : field_theory z o add mul sub opp div inv eq.
Add Field Tf : FT.
Notation "0" := z. Notation "1" := o.
Infix "+" := add. Infix "*" := mul. Infix "-" := sub. Infix "/" := div. Notation "- x" := (opp x).

Lemma f_inverse (L t : T) : L <> 0 -> t <> 0 ->
  (t - 1) / L + - ((1 - 1 / t) / L) + (t - 1) / L * - ((1 - 1 / t) / L) * L = 0.
Proof. intros. field. auto. Qed.
Lemma f_square (L t k : T) : L <> 0 -> t * t = 1 + L * k ->
  (t - 1) / L + (t - 1) / L + (t - 1) / L * ((t - 1) / L) * L = k.
Proof.
  intros L0 E. transitivity ((t * t - 1) / L); [field; auto|]. rewrite E. field. auto.
Qed.
Lemma f_d_add (a b c d u v h : T) : (a + b) - (c + d) - (u + v) * h = (a - c - u * h) + (b - d - v * h).
Proof. ring. Qed.
Lemma f_d_mul (a b c d u v h : T) :
  a * b - c * d - (u * d + c * v) * h = (a - c - u * h) * d + c * (b - d - v * h) + (a - c) * (b - d).
Proof. ring. Qed.
Lemma f_var1 (s : T) : 1 - (1 - s) * (1 - s) + (1 - s - 1) * (1 - s - 1) = s + s.
Proof. ring. Qed.
Lemma f_d_split (a c u h : T) : a - c = (a - c - u * h) + u * h.
Proof. ring. Qed.
Lemma f_outer (a b s : T) : b + (a + a * (b * s)) = a + b + a * b * s.
Proof. ring. Qed.
Lemma f_stale (ca cb p a t : T) : ca <> 0 -> a <> 0 -> p <> 0 ->
  t * t = 1 + (p * a) * (p * a) * cb / ca ->
  ca * ((1 + (t - 1) / ((p * a) * (p * a)) * (p * (p * a))) * (1 + (t - 1) / ((p * a) * (p * a)) * (p * (p * a)))) =
  ca * (1 * 1) + cb * (p * p) ->
  ca * ((1 + 1) * ((t - 1) * (a - 1))) = 0.
Proof.
  intros H1 H2 H3 E1 E2.
  replace (1 + (t - 1) / ((p * a) * (p * a)) * (p * (p * a))) with ((a + t - 1) / a) in E2 by (field; auto).
  assert (E3 : ca * ((a + t - 1) * (a + t - 1)) = ca * (a * a) + cb * (p * p) * (a * a)).
  { transitivity ((a * a) * (ca * ((a + t - 1) / a * ((a + t - 1) / a)))); [field; auto|]. rewrite E2. ring. }
  assert (E4 : cb * (p * p) * (a * a) = ca * (t * t - 1)). { rewrite E1. field. auto. }
  rewrite E4 in E3.
  transitivity (ca * ((a + t - 1) * (a + t - 1)) - (ca * (a * a) + ca * (t * t - 1))); [ring|]. rewrite E3. ring.
Qed.
End F.
