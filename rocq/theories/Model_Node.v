(** Condition trees: bayes_optim/search_space/node.py, and their use in search_space.py:174-196, 698-721. *)
From Coq Require Import Bool Arith String List.
Import ListNotations.
Open Scope nat_scope.

(** Node, node.py:7-24: name, and the children with their branching conditions.  Simplifications:
    the payload [data] is left out (it is copied along), and conditions are strings (None does not
    occur in trees read from dictionaries). *)
Inductive tree := Node (name : string) (children : list (string * tree)).
(** The attribute name. *)
Definition tname (t : tree) : string := match t with Node n _ => n end.
(** The attributes children and branches. *)
Definition children (t : tree) : list (string * tree) := match t with Node _ cs => cs end.

(** n in l. *)
Definition mem (n : string) (l : list string) : bool := existsb (String.eqb n) l.

(** remove with invert = True, 86-112: the named nodes are kept. *)
Fixpoint keep (ns : list string) (t : tree) : option tree :=
  match t with
  | Node n cs =>
    if mem n ns then
      Some (Node n (flat_map (fun p => if mem (tname (snd p)) ns
                                       then match keep ns (snd p) with Some c => [(fst p, c)] | None => [] end
                                       else []) cs))
    else None
  end.
(** remove, 86-112.  For invert = False the lambda of line 103 returns another lambda, which is true
    in a test, so the result is None. *)
Definition remove (ns : list string) (invert : bool) (t : tree) : option tree :=
  if invert then keep ns t else None.
(** deepcopy, 76-84 *)
Definition deepcopy (t : tree) : option tree := remove [] false t.

(** Python dictionaries with string keys, in insertion order. *)
Definition dict (A : Type) := list (string * A).
(** d.get(k). *)
Fixpoint get {A} (d : dict A) (k : string) : option A :=
  match d with [] => None | (x, v) :: r => if String.eqb x k then Some v else get r k end.
(** d[k] = v. *)
Fixpoint dset {A} (d : dict A) (k : string) (v : A) : dict A :=
  match d with
  | [] => [(k, v)]
  | (x, w) :: r => if String.eqb x k then (x, v) :: r else (x, w) :: dset r k v
  end.
(** d.update(e). *)
Definition dupdate {A} (d e : dict A) : dict A := fold_left (fun d p => dset d (fst p) (snd p)) e d.
(** d[k].append(v), a new list for a new key. *)
Definition dappend {A} (d : dict (list A)) (k : string) (v : A) : dict (list A) :=
  dset d k (match get d k with Some l => l ++ [v] | None => [v] end).

(** to_dict, 134-142; an item {"name": n, "condition": c} is the pair (n, c). *)
Definition tdict := dict (list (string * string)).
(** node.py:134-142. *)
Fixpoint to_dict (t : tree) : tdict :=
  match t with
  | Node n cs => fold_left (fun out p => dupdate (dappend out n (tname (snd p), fst p)) (to_dict (snd p))) cs []
  end.
(** search_space.py:178-181, the dictionary of a list of trees. *)
Definition forest_dict (ts : list tree) : tdict := fold_left (fun d t => dupdate d (to_dict t)) ts [].

(** add_child_from_dict, 47-74.  A node gets its children before it enters the cache and does not
    change afterwards, except for is_root; [nr] holds the names of the nodes that have been added
    as a child (is_root = False).  None: the recursion does not end within the given depth
    (RecursionError for cyclic dictionaries). *)
Definition bstate := (dict tree * list string)%type.
(** node.py:47-74. *)
Fixpoint build (fuel : nat) (d : tdict) (st : bstate) (n : string) : option (tree * bstate) :=
  match fuel with
  | 0 => None
  | S f =>
    match get d n with
    | None | Some [] => Some (Node n [], st)
    | Some infos =>
      (fix go infos acc (st : bstate) :=
         match infos with
         | [] => Some (Node n acc, (dset (fst st) n (Node n acc), snd st))
         | (key, br) :: r =>
           match get (fst st) key with
           | Some c => go r (acc ++ [(br, c)]) (fst st, key :: snd st)
           | None => match build f d st key with
                     | Some (c, st') => go r (acc ++ [(br, c)]) (fst st', key :: snd st')
                     | None => None
                     end
           end
         end) infos [] st
    end
  end.
(** from_dict, 114-132 *)
Fixpoint build_all (fuel : nat) (d : tdict) (st : bstate) (ks : list string) : option bstate :=
  match ks with
  | [] => Some st
  | k :: r =>
    match get (fst st) k with
    | Some _ => build_all fuel d st r
    | None => match build fuel d st k with Some (_, st') => build_all fuel d st' r | None => None end
    end
  end.
(** node.py:114-132. *)
Definition from_dict (fuel : nat) (d : tdict) : option (list tree) :=
  option_map (fun st : bstate => map snd (filter (fun p => negb (mem (fst p) (snd st))) (fst st)))
             (build_all fuel d ([], []) (map fst d)).

(** get_all_name, 161-167 *)
Fixpoint all_names (t : tree) : list string :=
  match t with Node n cs => n :: flat_map (fun p => all_names (snd p)) cs end.

(** Dictionaries keyed by tuples of conditions. *)
Definition key_eqb (a b : list string) : bool := if list_eq_dec string_dec a b then true else false.
(** The result of get_all_path, node.py:169-186. *)
Definition pdict := list (list string * list string).
(** d.get(k). *)
Fixpoint pget (d : pdict) (k : list string) : option (list string) :=
  match d with [] => None | (x, v) :: r => if key_eqb x k then Some v else pget r k end.
(** d[k] = v. *)
Fixpoint pset (d : pdict) (k v : list string) : pdict :=
  match d with
  | [] => [(k, v)]
  | (x, w) :: r => if key_eqb x k then (x, v) :: r else (x, w) :: pset r k v
  end.
(** setdefault(k, []).append(vv) *)
Definition pappend (d : pdict) (k : list string) (vv : string) : pdict :=
  pset d k (match pget d k with Some l => l | None => [] end ++ [vv]).

Section Paths.
(** set(self.branches): the distinct branches in an order chosen by Python. *)
Variable set_of : list string -> list string.

(** get_all_path, 169-186.  A leaf gives {(): None}; the value is not used (see [p] below). *)
Fixpoint all_paths (t : tree) : pdict :=
  match t with
  | Node n [] => [([], [])]
  | Node n cs =>
    fold_left (fun path br =>
      let items := flat_map (fun c =>
        if String.eqb (fst c) br
        then map (fun pv => match fst pv with
                            | [] => ([br], [tname (snd c)])
                            | p => (br :: p, snd pv)
                            end) (all_paths (snd c))
        else []) cs in
      let merged := fold_left (fun m kv => fold_left (fun m vv => pappend m (fst kv) vv) (snd kv) m) items [] in
      fold_left (fun d kv => pset d (fst kv) (snd kv)) merged path)
    (set_of (map fst cs)) []
  end.

(** itertools.product over the paths of all trees, and the two reductions, search_space.py:707-713 *)
Fixpoint product (ps : list pdict) : pdict :=
  match ps with
  | [] => [([], [])]
  | p :: r => flat_map (fun a => map (fun b => (fst a ++ fst b, snd a ++ snd b)) (product r)) p
  end.
(** get_unconditional_subspace, search_space.py:698-721: the conditions and the variable names of each sub-space.
    [isolated] is the set difference of line 704, in Python's order. *)
Definition unconditional (ts : list tree) (isolated : list string) : pdict :=
  map (fun kv => (fst kv, isolated ++ snd kv))
      (fold_left (fun d kv => pset d (fst kv) (snd kv)) (product (map all_paths ts)) []).
End Paths.
