(** Vocabulary: the cells that the decompositions of the library report after a sequence of batches of outcomes. *)
From Coq Require Import List Arith QArith.
From Verif Require Import Model_Boxes Spec_Pareto Spec_Boxes Model_Lacour Model_Fast2.
Import ListNotations.
Open Scope nat_scope.

(** One of the two classes is constructed with the first batch and updated with the others. *)
Inductive decomposition (ref : list Q) (batches : list (list (list Q))) : list (list ext * list ext) -> Prop :=
| with_fast o : 3 <= length ref -> fast_updates ref None batches = Some o -> decomposition ref batches (f_cells o)
| with_fast_two argsort o : length ref = 2 -> sorts argsort -> fast2_updates argsort ref None batches = Some o -> decomposition ref batches (g_cells o)
| with_binary argsort argmax alpha d cs : sorts argsort -> finds_max argmax -> (alpha <= 0)%Q ->
    updates argsort argmax alpha ref batches = Some d -> bounds_of ref d = Some cs -> decomposition ref batches cs.
