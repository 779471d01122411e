(** Specification vocabulary for condition trees, independent of the traversals of the code. *)
From Coq Require Import Bool Arith String List.
From Verif Require Import Model_Node.
Import ListNotations.

(** All nodes, each given by the path of (condition, name) pairs from the root to it. *)
Fixpoint spots (b : string) (t : tree) : list (list (string * string)) :=
  match t with
  | Node n cs => [(b, n)] :: map (cons (b, n)) (flat_map (fun p => spots (fst p) (snd p)) cs)
  end.

(** All leaves with the conditions on the way to them. *)
Fixpoint leaves (t : tree) : list (list string * string) :=
  match t with
  | Node n [] => [([], n)]
  | Node n cs => flat_map (fun p => map (fun q => (fst p :: fst q, snd q)) (leaves (snd p))) cs
  end.
Definition leaves_at (c : list string) (t : tree) : list string :=
  map snd (filter (fun q => key_eqb (fst q) c) (leaves t)).

(** The outcomes of a conditional tree: at each node that is reached one condition holds; all children
    under that condition are reached.  The conditions that hold are listed, and the leaf variables
    that are active. *)
Inductive outcome : tree -> list string -> list string -> Prop :=
| outcome_leaf n : outcome (Node n []) [] [n]
| outcome_node n cs br p v : In br (map fst cs) ->
    outcomes (map snd (filter (fun c => String.eqb (fst c) br) cs)) p v -> outcome (Node n cs) (br :: p) v
with outcomes : list tree -> list string -> list string -> Prop :=
| outcomes_nil : outcomes [] [] []
| outcomes_cons t ts p v p' v' : outcome t p v -> outcomes ts p' v' -> outcomes (t :: ts) (p ++ p') (v ++ v').

(** Trees in which the children under one condition are either a single child or leaves only. *)
Inductive simple : tree -> Prop :=
| simple_node n cs :
    (forall c, In c cs -> simple (snd c)) ->
    (forall br, In br (map fst cs) ->
       (forall c, In c cs -> fst c = br -> children (snd c) = []) \/
       length (filter (fun c => String.eqb (fst c) br) cs) = 1) ->
    simple (Node n cs).

(** The conditions that occur in a tree. *)
Fixpoint conditions (t : tree) : list string :=
  match t with Node n cs => flat_map (fun p => fst p :: conditions (snd p)) cs end.
