(** ConditionalBO, MultiAcquisitionBO (bayes_optim/extension.py 211-353) and the history that fmin
    returns (bayes_optim/__init__.py 191-195).  The optimizers of the sub-spaces are parameters. *)
From Coq Require Import Bool Arith ZArith QArith String List.
Import ListNotations.
Open Scope nat_scope.

Inductive value := PNone | PInt (z : Z) | PFloat (q : Q) | PStr (s : string) | PBool (b : bool).
(** Python's truth value *)
Definition truthy (v : value) : bool :=
  match v with
  | PNone => false | PInt z => negb (Z.eqb z 0) | PFloat q => negb (Qeq_bool q 0)
  | PStr s => negb (String.eqb s "") | PBool b => b
  end.
(** dictionaries, in the order of insertion *)
Definition dict := list (string * value).
(** d[k] = v. *)
Fixpoint dset (d : dict) (k : string) (v : value) : dict :=
  match d with [] => [(k, v)] | (k', v') :: d' => if String.eqb k' k then (k', v) :: d' else (k', v') :: dset d' k v end.
(** d.update(e), extension.py 266-267. *)
Definition update (d e : dict) : dict := fold_left (fun d kv => dset d (fst kv) (snd kv)) e d.
(** d[k]. *)
Definition lookup (d : dict) (k : string) : option value := option_map snd (find (fun p => String.eqb (fst p) k) d).
(** k in d. *)
Definition has (d : dict) (k : string) : bool := existsb (fun p => String.eqb (fst p) k) d.
(** d.pop(k); None: KeyError *)
Definition pop (d : dict) (k : string) : option dict :=
  if has d k then Some (filter (fun p => negb (String.eqb (fst p) k)) d) else None.

Section Conditional.
  Variable names : list string.                (* self.var_names *)
  Variable fixed : nat -> dict.                (* self._fixed_vars: the conditions of each sub-space *)
  Variable order : list string -> list string. (* the order in which a set is enumerated (267) *)

  (** 265-268  what is proposed for a point d asked from sub-space k *)
  Definition complete (k : nat) (d : dict) : dict :=
    let d := update d (fixed k) in
    update d (map (fun v => (v, PNone)) (order (filter (fun v => negb (has d v)) (nodup string_dec names)))).

  (** 291-293  what the optimizer of sub-space k is told; None: KeyError *)
  Definition told (k : nat) (d : dict) : option dict :=
    fold_left (fun acc kv => match acc with Some x => pop x (fst kv) | None => None end) (fixed k)
      (Some (filter (fun kv => truthy (snd kv)) d)).

  (** 296  Solution.from_dict (solution.py 267-282): the names are the keys of the first point,
      the rows are the values in the order of each dictionary *)
  Definition stored (X : list dict) : list string * list (list value) :=
    (match X with d :: _ => map fst d | [] => [] end, map (map snd) X).
End Conditional.

(** 240 and 252-260  the sub-spaces of one call of ask: what is left of the initial round (gen is
    the next sub-space of the generator), then randomly chosen ones; returns the generator *)
Definition choose (n_sub : nat) (gen n_point : nat) (random : nat -> list nat) : list nat * nat :=
  let taken := Nat.min n_point (n_sub - gen) in
  (seq gen taken ++ random (n_point - taken), gen + taken).
(** 250-261 for a sequence of asks. *)
Fixpoint choose_all (n_sub gen : nat) (asks : list (nat * (nat -> list nat))) : list nat :=
  match asks with
  | [] => []
  | (n, r) :: asks => let (idx, gen) := choose n_sub gen n r in idx ++ choose_all n_sub gen asks
  end.

(** 333-335  the acquisition function of each point of a batch *)
Definition criteria_of_batch (n_acquisition n_point : nat) : list nat := map (fun i => i mod n_acquisition) (seq 0 n_point).

(** __init__.py:191-195  data_per_iteration; rows of opt.data, N = DoE_size, n = n_point.  The
    slices clip at the end of the data. *)
Definition data_per_iteration {A} (N n iter_count : nat) (all : list A) : list (list A) :=
  let data := skipn N all in
  firstn N data :: map (fun i => firstn n (skipn (i * n) data)) (seq 0 (iter_count - 1)).
