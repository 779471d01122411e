(** Vocabulary: Pareto dominance. *)
From Coq Require Import List Bool Arith ZArith QArith Permutation.
Import ListNotations.
Open Scope nat_scope.

(** p is at least as good as q in all objectives (minimisation). *)
Definition weakly_better (p q : list Q) : Prop := Forall2 Qle p q.
(** ... and better in one. *)
Definition dominates (p q : list Q) : Prop :=
  weakly_better p q /\ exists i a b, nth_error p i = Some a /\ nth_error q i = Some b /\ (a < b)%Q.
Definition same_values (p q : list Q) : Prop := Forall2 Qeq p q.
(** A matrix with m columns. *)
Definition rectangular (m : nat) (X : list (list Q)) : Prop := forall p, In p X -> length p = m.
(** For maximisation. *)
Definition dominates_max (p q : list Q) : Prop := dominates q p.
Definition dom2 (p q : Q * Q) : Prop :=
  (fst p <= fst q)%Q /\ (snd p <= snd q)%Q /\ ((fst p < fst q)%Q \/ (snd p < snd q)%Q).
(** The contract of argsort: a permutation of the positions in ascending order of the values,
    ties in any order. *)
Definition sorts (argsort : list Q -> list nat) : Prop :=
  forall l, Permutation (argsort l) (seq 0 (length l)) /\
    forall a b i j, a < b -> nth_error (argsort l) a = Some i -> nth_error (argsort l) b = Some j ->
      (nth i l 0 <= nth j l 0)%Q.
