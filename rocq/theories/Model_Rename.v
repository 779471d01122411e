(** Assigning the attribute var_name of a search space: bayes_optim/search_space/search_space.py 106-115. *)
From Coq Require Import List Arith String.
From Verif Require Import Model_Opt Model_Structure.
Import ListNotations.
Open Scope string_scope.

(** The value that is assigned: a string or a list of names. *)
Inductive names_arg := Prefix (p : string) | Names (l : list string).
(** 108-109: the names from a string. *)
Definition listed (a : names_arg) (dim : nat) : list string :=
  match a with Prefix p => map (fun i => p ++ str_nat i) (seq 0 dim) | Names l => l end.
(** 106-115: the variables get the names in order, then _set_data (129-135 changes repeated names).  The conditions of the variables and
    the trees stay as they are.  None: the assertion of line 111 fails. *)
Definition set_names (a : names_arg) (s : cspace) : option cspace :=
  let ns := listed a (List.length (vars s)) in
  if Nat.eqb (List.length ns) (List.length (vars s))
  then Some (CS (renamed (map (fun p => CV (fst p) (cc (snd p))) (combine ns (vars s)))) (structure s))
  else None.
