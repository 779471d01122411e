(** The acquisition function that MOBO builds from its data: mobo.py:177-188 with mobo.py:59-76 and
    box_decompositions/non_dominated.py:53-166.  The conversion to single precision by Tensor is the argument [cast];
    torch.argsort and torch.max are arguments. *)
From Coq Require Import List Bool Arith ZArith QArith.
From Verif Require Import Model_Pareto Model_Boxes Model_MOBO.
Import ListNotations.
Open Scope nat_scope.

Section Acquisition.
  Variable cast : Q -> Q.
  Variable argsort : list Q -> list nat.
  Variable argmax : list nat -> nat.
  (** mobo.py:179  Tensor(self.y). *)
  Definition mobo_outcomes (minimize : list bool) (F : list vec) : list vec := map (map cast) (y_of minimize F).
  (** mobo.py:179  Tensor(self.ref_point). *)
  Definition mobo_reference (minimize : list bool) (F : list vec) : vec := map cast (ref_point minimize F).
  (** mobo.py:179-180 with analytic.py:165-168: the cells over which EHVI sums; alpha is 0 by default (non_dominated.py:57). *)
  Definition mobo_cells (minimize : list bool) (F : list vec) : option (list box) :=
    match updates argsort argmax 0 (mobo_reference minimize F) [mobo_outcomes minimize F] with
    | Some d => bounds_of (mobo_reference minimize F) d
    | None => None
    end.
End Acquisition.
