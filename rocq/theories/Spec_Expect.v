(** Vocabulary: expectations over independent normally distributed outcomes. *)
From Coq Require Import Reals List QArith Qreals.
From Coquelicot Require Import Coquelicot.
From Verif Require Import Lib_Normal Model_Boxes.
Import ListNotations.
Open Scope R_scope.

(** The integral of f over the whole line. *)
Definition whole_integral (f : R -> R) (v : R) : Prop :=
  (forall a b, ex_RInt f a b) /\ forall e, 0 < e -> exists M, forall a b, a < - M -> M < b -> Rabs (RInt f a b - v) < e.
(** The density of the normal distribution with mean m and deviation sd. *)
Definition normal_density (m sd y : R) : R := pdf ((y - m) / sd) / sd.
(** v is the expectation of f over outcomes with independent normal distributions, given by their means and deviations: one integral per
    objective, the last one innermost. *)
Fixpoint expectation (outcomes : list (R * R)) (f : list R -> R) (v : R) : Prop :=
  match outcomes with
  | [] => v = f []
  | (m, sd) :: outcomes => exists h : R -> R,
      (forall y, expectation outcomes (fun ys => f (y :: ys)) (h y)) /\ whole_integral (fun y => h y * normal_density m sd y) v
  end.

(** A cell is given by one pair per objective: the lower bound, and the upper bound unless it is infinite.  Upper bounds are cut at
    [big].  The volume of the part of a cell that lies below an outcome: *)
Fixpoint covered (big : R) (cell : list (R * option R)) (ys : list R) : R :=
  match cell, ys with
  | (l, u) :: cell, y :: ys => Rmax 0 (Rmin y (match u with Some u => Rmin u big | None => big end) - l) * covered big cell ys
  | _, _ => 1
  end.
Definition covered_total (big : R) (cells : list (list (R * option R))) (ys : list R) : R := fold_right Rplus 0 (map (fun cell => covered big cell ys) cells).

(** The same cells with real bounds; a cell of a decomposition has a finite lower bound. *)
Fixpoint real_cell (lo hi : list ext) : option (list (R * option R)) :=
  match lo, hi with
  | [], [] => Some []
  | Val a :: lo, b :: hi =>
    match b, real_cell lo hi with
    | Val b, Some c => Some ((Q2R a, Some (Q2R b)) :: c)
    | PInf, Some c => Some ((Q2R a, None) :: c)
    | _, _ => None
    end
  | _, _ => None
  end.
Fixpoint real_cells (cells : list (list ext * list ext)) : option (list (list (R * option R))) :=
  match cells with
  | [] => Some []
  | c :: cells => match real_cell (fst c) (snd c), real_cells cells with Some r, Some rs => Some (r :: rs) | _, _ => None end
  end.

(** No value of the outcome exceeds the cut. *)
Definition below_cut (big : R) (v : list Q) : Prop := forall q, In q v -> Q2R q <= big.
