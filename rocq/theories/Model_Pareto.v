(** Pareto utilities: is_pareto_efficient (bayes_optim/utils/utils.py) and
    non_dominated_set_2d, fast_non_dominated_sort, is_non_dominated
    (bayes_optim/utils/multi_objective/pareto.py).
    Objective values are rationals (finite floats; NaN is not modelled). *)
From Coq Require Import List Bool Arith ZArith QArith.
Import ListNotations.
Open Scope nat_scope.

Notation vec := (list Q).

(** Elementwise comparison of two rows followed by np.any / np.all. *)
Definition Qltb (a b : Q) : bool := negb (Qle_bool b a).
(** np.any of a comparison of two rows. *)
Definition any2 (r : Q -> Q -> bool) (p q : vec) : bool := existsb (fun ab => r (fst ab) (snd ab)) (combine p q).
(** np.all of a comparison of two rows. *)
Definition all2 (r : Q -> Q -> bool) (p q : vec) : bool := forallb (fun ab => r (fst ab) (snd ab)) (combine p q).

(** enumerate(l). *)
Definition indexed {A} (l : list A) : list (nat * A) := combine (seq 0 (length l)) l.

(** utils.py:33-41  the while loop of is_pareto_efficient.  The rows carry their original index
    ([is_efficient] and [fitness] are filtered with the same mask); [k] is next_point_index.
    [None]: out of fuel. *)
Fixpoint pareto_loop (fuel k : nat) (rows : list (nat * vec)) : option (list (nat * vec)) :=
  match nth_error rows k with
  | None => Some rows
  | Some (_, p) =>
    match fuel with
    | 0 => None
    | S fuel' =>
      let keep (jr : nat * (nat * vec)) := (fst jr =? k) || any2 Qltb (snd (snd jr)) p in
      let mask := map keep (indexed rows) in
      let rows' := map snd (filter keep (indexed rows)) in
      pareto_loop fuel' (S (length (filter (fun b => b) (firstn k mask)))) rows'
    end
  end.

(** utils.py:16-47; the index form (return_mask=False) and the mask form. *)
Definition is_pareto_efficient_index (fitness : list vec) : option (list nat) :=
  option_map (map fst) (pareto_loop (length fitness) 0 (indexed fitness)).
(** utils.py:43-46. *)
Definition is_pareto_efficient_mask (fitness : list vec) : option (list bool) :=
  option_map (fun idx => map (fun i => existsb (Nat.eqb i) idx) (seq 0 (length fitness)))
             (is_pareto_efficient_index fitness).

(** pareto.py:43-66  one comparison: p dominates q as tested there. *)
Definition fnds_dom (p q : vec) : bool := all2 Qle_bool p q && negb (all2 Qeq_bool p q).
(** pareto.py:55: p is dominated by q as tested there. *)
Definition fnds_dominated (p q : vec) : bool :=
  negb (fnds_dom p q) && (all2 (fun a b => Qle_bool b a) p q && negb (all2 Qeq_bool p q)).

(** pareto.py:43-63: dominated_set and n_domination ([pts] are the columns of fitness). *)
Definition dominated_set (pts : list vec) (i : nat) (p : vec) : list nat :=
  map fst (filter (fun jq => negb (fst jq =? i) && fnds_dom p (snd jq)) (indexed pts)).
(** pareto.py:45-59: n_domination. *)
Definition n_dominated (pts : list vec) (i : nat) (p : vec) : Z :=
  Z.of_nat (length (filter (fun jq => negb (fst jq =? i) && fnds_dominated p (snd jq)) (indexed pts))).

(** pareto.py:62 and 71: the entries that are zero. *)
Definition zeros (n : list Z) : list nat := map fst (filter (fun ic => Z.eqb (snd ic) 0) (indexed n)).
(** pareto.py:63 and 72: zeros become -1. *)
Definition mark (n : list Z) : list Z := map (fun c => if Z.eqb c 0 then (-1)%Z else c) n.
(** pareto.py:69: the counters of some entries go down. *)
Definition decrement (n : list Z) (js : list nat) : list Z :=
  map (fun ic => if existsb (Nat.eqb (fst ic)) js then (snd ic - 1)%Z else snd ic) (indexed n).

(** pareto.py:66-79  the loop over the fronts; [front] is fronts[i]. *)
Fixpoint fronts_loop (fuel : nat) (dom : list (list nat)) (n : list Z) (front : list nat) : option (list (list nat)) :=
  match fuel with
  | 0 => None
  | S fuel' =>
    let n1 := fold_left (fun m p => decrement m (nth p dom [])) front n in
    let next := zeros n1 in
    match next with
    | [] => Some []
    | _ => option_map (cons next) (fronts_loop fuel' dom (mark n1) next)
    end
  end.

(** pareto.py:36-79. *)
Definition fast_non_dominated_sort (pts : list vec) : option (list (list nat)) :=
  let dom := map (fun ip => dominated_set pts (fst ip) (snd ip)) (indexed pts) in
  let n := map (fun ip => n_dominated pts (fst ip) (snd ip)) (indexed pts) in
  let first := zeros n in
  option_map (cons first) (fronts_loop (S (length pts)) dom (mark n) first).

(** pareto.py:82-109  is_non_dominated on one n x m tensor.
    dominates[i][j] = (Y1 >= Y2).all & (Y1 > Y2).any with Y1 the row j and Y2 the row i. *)
Definition ge_dom (y1 y2 : vec) : bool :=
  all2 (fun a b => Qle_bool b a) y1 y2 && any2 (fun a b => Qltb b a) y1 y2.
(** pareto.py:82-109: the rows that no row dominates. *)
Definition nd_mask (Y : list vec) : list bool := map (fun y => negb (existsb (fun y1 => ge_dom y1 y) Y)) Y.
(** argmax of a boolean row: the first true position, 0 if there is none. *)
Fixpoint argmax_bool (l : list bool) : nat :=
  match l with
  | [] => 0
  | b :: t => if b then 0 else if existsb (fun b => b) t then S (argmax_bool t) else 0
  end.
(** pareto.py:82-109: the first row equal to this one. *)
Definition first_index (Y : list vec) (y : vec) : nat := argmax_bool (map (fun y1 => all2 Qeq_bool y1 y) Y).
(** pareto.py:82-109. *)
Definition is_non_dominated (Y : list vec) (deduplicate : bool) : list bool :=
  match Y with
  | [] => []
  | _ =>
    if deduplicate then
      let indices := map (first_index Y) Y in
      let keep := map (fun i => existsb (Nat.eqb i) indices) (seq 0 (length Y)) in
      map (fun ab => fst ab && snd ab) (combine (nd_mask Y) keep)
    else nd_mask Y
  end.

(** pareto.py:9-33  non_dominated_set_2d for a scalar [minimize]; returns the indices and the
    content of the caller's array afterwards (`y *= ...` works in place on an array).
    [argsort]: any function that numpy's argsort may be (see the contract in the properties). *)
Section ND2.
  Variable argsort : list Q -> list nat.
  Definition nd2_scan (y2 : list Q) : list nat :=
    fold_left (fun ND i =>
                 let v := nth i y2 0%Q in
                 if negb (existsb (fun j => Qle_bool v (nth j y2 0%Q)) ND) then ND ++ [i] else ND)
              (seq 0 (length y2)) [].
  (** pareto.py:9-33. *)
  Definition non_dominated_set_2d (y : list (Q * Q)) (minimize : bool) : list nat * list (Q * Q) :=
    let y' := if minimize then map (fun p => (- fst p, - snd p)%Q) y else y in
    let order := rev (argsort (map fst y')) in
    let y2 := map (fun i => snd (nth i y' (0%Q, 0%Q))) order in
    (map (fun i => nth i order 0) (nd2_scan y2), y').
End ND2.

(** numpy sorts up to 16 elements by insertion, which is stable. *)
Fixpoint insert_by (key : nat -> Q) (i : nat) (l : list nat) : list nat :=
  match l with
  | [] => [i]
  | j :: t => if Qltb (key i) (key j) then i :: l else j :: insert_by key i t
  end.
(** np.argsort of at most 16 numbers. *)
Definition argsort_stable (l : list Q) : list nat :=
  fold_left (fun acc i => insert_by (fun k => nth k l 0%Q) i acc) (seq 0 (length l)) [].
