(** Vocabulary of the properties of conditional search spaces. *)
From Coq Require Import Arith String List.
From Verif Require Import Model_Node Model_Structure.
Import ListNotations.
Open Scope nat_scope.

(** The conditions of a tree: (the variable they depend on, the condition, the variable that has the condition). *)
Fixpoint edges (t : tree) : list (string * string * string) :=
  match t with Node n cs => flat_map (fun p => (n, fst p, tname (snd p)) :: edges (snd p)) cs end.
(** The conditions given with the variables. *)
Definition declared (l : list cvar) : list (string * string * string) :=
  flat_map (fun v => match cc v with Some (x, c) => [(x, c, cn v)] | None => [] end) l.
(** Conditions are on variables of the space, and no variable depends on itself, directly or through others. *)
Definition closed (l : list cvar) : Prop := forall x c y, In (x, c, y) (declared l) -> In x (map cn l).
Definition acyclic (l : list cvar) : Prop := exists rank : string -> nat, forall x c y, In (x, c, y) (declared l) -> rank x < rank y.
