(** compute_hypervolume of the two decompositions of the non-dominated region
    (bayes_optim/utils/multi_objective/box_decompositions/non_dominated.py).  Unbatched input, exact arithmetic. *)
From Coq Require Import List Bool Arith ZArith QArith Qminmax.
From Verif Require Import Model_Pareto Model_Boxes Model_Lacour.
Import ListNotations.
Open Scope nat_scope.

(** torch.min(bound, number); b - a with clamp_min(0).  None: the result is not a finite number. *)
Definition emin (e : ext) (q : Q) : ext := match e with NInf => NInf | Val a => if Qle_bool a q then Val a else Val q | PInf => Val q end.
(** The clamped difference, non_dominated.py:438-440. *)
Definition extent (a b : ext) : option Q := match a, b with Val a, Val b => Some (if Qle_bool a b then b - a else 0)%Q | _, _ => None end.
(** torch.prod over the objectives, non_dominated.py:441. *)
Fixpoint prod_opt (l : list (option Q)) : option Q :=
  match l with
  | [] => Some 1%Q
  | a :: l => match a, prod_opt l with Some x, Some y => Some (x * y)%Q | _, _ => None end
  end.
(** torch.sum over the cells, non_dominated.py:441. *)
Fixpoint sum_opt (l : list (option Q)) : option Q :=
  match l with
  | [] => Some 0%Q
  | a :: l => match a, sum_opt l with Some x, Some y => Some (x + y)%Q | _, _ => None end
  end.

(** non_dominated.py:424-443  FastNondominatedPartitioning.compute_hypervolume; [P] is the negated front.
    pareto_Y is its negation (box_decomposition.py:51-61). *)
Definition best_point (m : nat) (P : list vec) : vec := map (fun j => vmax (map Qopp (col j P))) (seq 0 m).
(** non_dominated.py:438-441 for one cell. *)
Definition clipped_volume (m : nat) (best : vec) (c : box) : option Q :=
  prod_opt (map (fun j => extent (emin (nth j (fst c) NInf) (nth j best 0%Q)) (emin (nth j (snd c) NInf) (nth j best 0%Q))) (seq 0 m)).
(** non_dominated.py:424-443 for the given front and cells. *)
Definition cells_hypervolume (ref : vec) (P : list vec) (cells : list box) : option Q :=
  let m := length ref in
  match P with
  | [] => Some 0%Q
  | _ =>
    let best := best_point m P in
    let total := prod (map (fun j => (let d := nth j best 0 - nth j ref 0 in if Qle_bool 0 d then d else 0)%Q) (seq 0 m)) in
    match sum_opt (map (clipped_volume m best) cells) with
    | Some v => Some (total - v)%Q
    | None => None
    end
  end.
(** non_dominated.py:424-443 for the object. *)
Definition fast_hypervolume (ref : vec) (o : fast) : option Q := cells_hypervolume ref (f_front o) (f_cells o).

(** non_dominated.py:307-331  NondominatedPartitioning.compute_hypervolume with _get_hypercell_bounds (248-305): the smallest values of the
    front take the place of minus infinity; nothing is clamped. *)
Definition finite_at (m : nat) (P : list vec) (ref : vec) (i j : nat) : Q :=
  match i with
  | 0 => vmin (col j P)
  | S k => match nth_error P k with Some p => nth j p 0%Q | None => (- nth j ref 0)%Q end
  end.
(** non_dominated.py:328-330 for one cell. *)
Definition index_volume (m : nat) (P : list vec) (ref : vec) (c : list (nat * nat)) : Q :=
  prod (map (fun jc => (finite_at m P ref (snd (snd jc)) (fst jc) - finite_at m P ref (fst (snd jc)) (fst jc))%Q) (indexed c)).
(** non_dominated.py:307-331 for the given front and cells. *)
Definition index_hypervolume (ref : vec) (P : list vec) (cells : list (list (nat * nat))) : Q :=
  let m := length ref in
  match P with
  | [] => 0%Q
  | _ => (prod (map (fun j => - nth j ref 0 - vmin (col j P)) (seq 0 m)) - fold_right Qplus 0 (map (index_volume m P ref) cells))%Q
  end.
(** FastNondominatedPartitioning(ref, Y).compute_hypervolume() for two objectives *)
Definition fast_hypervolume_2d (argsort : list Q -> list nat) (ref : vec) (Y : list vec) : option Q :=
  match fast_partitioning_2d argsort ref Y with
  | Some cells => cells_hypervolume ref (neg_front argsort true ref Y) cells
  | None => None
  end.
