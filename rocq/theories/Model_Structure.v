(** The conditions of a search space: bayes_optim/search_space/search_space.py 76-100, 174-196 (_set_structure), and how the operations on
    spaces carry them along (244-267, 317-362, 364-403, 439-473).  Trees and dictionaries of trees are in Model_Node; the variables
    themselves are in Model_Space. *)
From Coq Require Import Bool Arith String List.
From Verif Require Import Model_Node.
From Verif Require Model_Space.
Import ListNotations.
Open Scope nat_scope.

(** What is used of a variable: its name, and the first variable of its condition with the text of the condition
    (variable.py 151-158; the parser of conditions is not modelled). *)
Record cvar := CV { cn : string; cc : option (string * string) }.
(** The argument structure: None, a list of trees (an entry is None where deepcopy returned None), a dictionary. *)
Inductive sarg := ANone | ATrees (l : list (option tree)) | ADict (d : tdict).
(** The exceptions. *)
Inductive exn := UnboundLocalE | RecursionE | IndexE | TypeE.
(** The value of a call, or its exception. *)
Inductive res (A : Type) := Ok (a : A) | Err (e : exn).
Arguments Ok {A}.
Arguments Err {A}.

(** No counterpart in the code: the trees of a list without None. *)
Fixpoint nodes (l : list (option tree)) : option (list tree) :=
  match l with
  | [] => Some []
  | Some t :: r => match nodes r with Some ts => Some (t :: ts) | None => None end
  | None :: _ => None
  end.
(** 175-183: the dictionary to begin with; None: _structure is not assigned. *)
Definition start (a : sarg) : option tdict :=
  match a with
  | ANone => Some []
  | ATrees l => option_map forest_dict (nodes l)
  | ADict d => Some d
  end.
(** 185-194: the conditions of the variables are added.  For a dictionary this changes the argument of the caller, see [after]. *)
Definition scan (d : tdict) (vars : list cvar) : tdict :=
  fold_left (fun d v => match cc v with None => d | Some (x, c) => dappend d x (cn v, c) end) vars d.
(** 174-196 _set_structure.  [fuel] is the depth at which Python gives up. *)
Definition set_structure (fuel : nat) (a : sarg) (vars : list cvar) : res (list tree) :=
  match start a with
  | None => Err UnboundLocalE
  | Some d =>
    match from_dict fuel (scan d vars) with
    | None => Err RecursionE
    | Some ts => Ok (flat_map (fun t => match remove (map cn vars) true t with Some u => [u] | None => [] end) ts)
    end
  end.
(** 182-194: the dictionary of the caller after the call. *)
Definition after (d : tdict) (vars : list cvar) : tdict := scan d vars.

(** The attributes data and structure. *)
Record cspace := CS { vars : list cvar; structure : list tree }.
(** 76-100 __init__ with 129-135: repeated names are changed in the variables, the conditions stay. *)
Definition renamed (l : list cvar) : list cvar :=
  map (fun p => CV (fst p) (cc (snd p))) (combine (Model_Space.new_names (map cn l)) l).
(** 76-100 __init__. *)
Definition construct (fuel : nat) (a : sarg) (l : list cvar) : res cspace :=
  let l := renamed l in
  match set_structure fuel a l with Err e => Err e | Ok ts => Ok (CS l ts) end.
(** 262-267: SearchSpace(data) and then _set_structure(self.structure); 348-350 for the difference. *)
Definition restrict (fuel : nat) (s : cspace) (l : list cvar) : res cspace :=
  match construct fuel ANone l with
  | Err e => Err e
  | Ok c => match set_structure fuel (ATrees (map Some (structure s))) (vars c) with Err e => Err e | Ok ts => Ok (CS (vars c) ts) end
  end.
(** 244-267 __getitem__ with positions (a slice, a list, a mask), and filter (421-437). *)
Definition getitem (fuel : nat) (s : cspace) (ps : list nat) : res cspace :=
  restrict fuel s (flat_map (fun p => match nth_error (vars s) p with Some v => [v] | None => [] end) ps).
(** 340-351 __sub__. *)
Definition minus (fuel : nat) (s t : cspace) : res cspace :=
  restrict fuel s (filter (fun v => negb (mem (cn v) (map cn (vars t)))) (vars s)).
(** 449-473 pop and remove: the variable at a position is taken out. *)
Definition remove_at (fuel : nat) (s : cspace) (p : nat) : res cspace :=
  let l := renamed (firstn p (vars s) ++ skipn (S p) (vars s)) in
  match set_structure fuel (ATrees (map Some (structure s))) l with Err e => Err e | Ok ts => Ok (CS l ts) end.
(** 317-329 __add__ and, for two spaces, 439-447 concat. *)
Definition plus (fuel : nat) (s t : cspace) : res cspace :=
  construct fuel (ATrees (map deepcopy (structure s ++ structure t))) (vars s ++ vars t).
(** 356-362 __isub__: the structure is not touched. *)
Definition iminus (s t : cspace) : cspace :=
  CS (renamed (filter (fun v => negb (mem (cn v) (map cn (vars t)))) (vars s))) (structure s).
(** 334-338 __iadd__: the structure is not touched. *)
Definition iplus (s t : cspace) : cspace := CS (renamed (vars s ++ vars t)) (structure s).
(** 364-382 __mul__. *)
Definition times (fuel : nat) (s : cspace) (n : nat) : res cspace :=
  construct fuel ANone (List.concat (repeat (vars s) (Nat.max 1 n))).

(** 698-721 get_unconditional_subspace: the conditions and the names of the variables of each sub-space, with [unconditional] of
    Model_Node.  Line 717 looks up the names (IndexError).  A tree that is a single leaf has the paths {(): None}, and the names of
    the sub-space are then None, or the sum of None and a list (TypeError). *)
Definition subspaces (set_of : list string -> list string) (s : cspace) (isolated : list string) : res pdict :=
  match structure s with
  | [] => Ok [([], map cn (vars s))]
  | ts =>
    if existsb (fun t => match children t with [] => true | _ => false end) ts then Err TypeE
    else let d := unconditional set_of ts isolated in
         if forallb (fun kv => forallb (fun v => mem v (map cn (vars s))) (snd kv)) d then Ok d else Err IndexE
  end.
