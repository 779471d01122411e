(** Box decompositions of the non-dominated space
    (bayes_optim/utils/multi_objective/box_decompositions).  Objective values are rationals
    (finite floats), cell bounds may be infinite.  Only unbatched input (n x m) is modelled. *)
From Coq Require Import List Bool Arith ZArith QArith Qminmax.
From Verif Require Import Model_Pareto.
Import ListNotations.
Open Scope nat_scope.

Inductive ext := NInf | Val (q : Q) | PInf.
(** The negation of a bound, as in box_decomposition.py:51-61 (pareto_Y is -_neg_pareto_Y) and non_dominated.py:256. *)
Definition eopp (e : ext) : ext := match e with NInf => PInf | Val q => Val (- q) | PInf => NInf end.
(** A cell: the list of lower and the list of upper bounds. *)
Notation box := (list ext * list ext)%type.

Definition col (j : nat) (F : list vec) : list Q := map (fun r => nth j r 0%Q) F.

(** utils.py:214-279  compute_non_dominated_hypercell_bounds_2d.  An empty front raises
    (torch.cat of a 1 x 1 and a 0 x 1 tensor). *)
Definition nd_cells_2d (pts : list (Q * Q)) (ref : Q * Q) : option (list box) :=
  match pts with
  | [] => None
  | p1 :: _ =>
    let left_end := (fst ref, snd p1) in
    let right_end := (fst (last pts p1), snd ref) in
    let front := left_end :: pts ++ [right_end] in
    let front0 := map fst front in
    let front1 := map snd front in
    let bottom_lefts := combine (removelast front0) (tl front1) in
    let top_right_xs := map Val (removelast (tl front0)) ++ [PInf] in
    Some (map (fun bt => ([Val (fst (fst bt)); Val (snd (fst bt))], [snd bt; PInf])) (combine bottom_lefts top_right_xs))
  end.

(** utils.py:282-325  compute_dominated_hypercell_bounds_2d. *)
Definition dom_cells_2d (pts : list (Q * Q)) (ref : Q * Q) : option (list box) :=
  match pts with
  | [] => None
  | p1 :: _ =>
    let left_end := (fst ref, fst p1) in
    let right_end := (snd p1, snd ref) in
    let front := left_end :: pts ++ [right_end] in
    let top_rights := removelast (tl front) in
    let lefts := map fst (removelast (removelast front)) in
    Some (map (fun bt => ([Val (fst bt); Val (snd ref)], [Val (fst (snd bt)); Val (snd (snd bt))])) (combine lefts top_rights))
  end.

Section Partitioning.
  (** torch.argsort of a column and the position torch.max reports for the largest entry. *)
  Variable argsort : list Q -> list nat.
  Variable argmax : list nat -> nat.

  (** utils.py:34-94 (unbatched) and box_decomposition.py:81-106: the non-dominated rows better
      than the reference point, negated; sorted by the first objective if [sort]. *)
  Definition neg_front (sort : bool) (ref : vec) (Y : list vec) : list vec :=
    let mask := is_non_dominated Y true in
    let P := map fst (filter (fun yb => snd yb && all2 (fun a r => Qltb r a) (fst yb) ref) (combine Y mask)) in
    let N := map (map Qopp) P in
    match Y with
    | [] => []
    | _ => if sort then map (fun i => nth i N []) (argsort (col 0 N)) else N
    end.

  (** non_dominated.py:192-220  one column of the augmented index matrix. *)
  Definition aug_idx (P : list vec) (j : nat) : list nat :=
    0 :: map S (argsort (col j P)) ++ [S (length P)].
  (** non_dominated.py:192-220: the entry of the augmented index matrix at a position. *)
  Definition at_pos (P : list vec) (j pos : nat) : nat := nth pos (aug_idx P j) 0.

  (** non_dominated.py:107-110  the front between its ideal - 1 and anti-ideal + 1. *)
  Definition vmin (c : list Q) : Q := match c with [] => 0%Q | a :: l => fold_left Qmin l a end.
  (** max over one column, non_dominated.py:108. *)
  Definition vmax (c : list Q) : Q := match c with [] => 0%Q | a :: l => fold_left Qmax l a end.
  (** non_dominated.py:107. *)
  Definition ideal (m : nat) (P : list vec) : vec := map (fun j => (vmin (col j P) - 1)%Q) (seq 0 m).
  (** non_dominated.py:108. *)
  Definition anti_ideal (m : nat) (P : list vec) : vec := map (fun j => (vmax (col j P) + 1)%Q) (seq 0 m).
  (** non_dominated.py:110. *)
  Definition aug_pareto (m : nat) (P : list vec) : list vec := ideal m P :: P ++ [anti_ideal m P].
  (** non_dominated.py:118-119: the entry of aug_pareto_Y for an index and an objective. *)
  Definition aug_at (m : nat) (P : list vec) (i j : nat) : Q := nth j (nth i (aug_pareto m P) []) 0%Q.

  (** The product over the objectives, non_dominated.py:112 and 136-140. *)
  Definition prod (l : list Q) : Q := fold_right Qmult 1%Q l.

  (** A cell of positions: one pair (lower, upper) per objective. *)
  Notation cell := (list (nat * nat)).
  Definition cell_idx (P : list vec) (c : cell) : cell :=
    map (fun jc => (at_pos P (fst jc) (fst (snd jc)), at_pos P (fst jc) (snd (snd jc)))) (indexed c).
  (** non_dominated.py:118-119: the lower corner of a cell in the augmented front. *)
  Definition lower_vals (m : nat) (P : list vec) (c : cell) : vec :=
    map (fun jc => aug_at m P (fst (snd jc)) (fst jc)) (indexed (cell_idx P c)).
  (** non_dominated.py:118-119: the upper corner of a cell in the augmented front. *)
  Definition upper_vals (m : nat) (P : list vec) (c : cell) : vec :=
    map (fun jc => aug_at m P (snd (snd jc)) (fst jc)) (indexed (cell_idx P c)).

  (** python's round of length / 2.0 (ties to even) *)
  Definition half (l : nat) : nat :=
    if Nat.even l then l / 2 else if Nat.even (l / 2) then l / 2 else S (l / 2).

  (** No counterpart in the code: a list with one entry replaced (the copies of cell bounds in non_dominated.py:154-166). *)
  Definition update_nth {A} (n : nat) (f : A -> A) (l : list A) : list A :=
    map (fun ja => if fst ja =? n then f (snd ja) else snd ja) (indexed l).

  (** non_dominated.py:115-166  the loop; the head of [stack] is the end of the Python list.
      None: out of fuel. *)
  Fixpoint bp_loop (fuel m : nat) (alpha : Q) (P : list vec) (stack : list cell) (acc : list cell) : option (list cell) :=
    match stack with
    | [] => Some acc
    | c :: stack' =>
      match fuel with
      | 0 => None
      | S fuel' =>
        let lo := lower_vals m P c in
        let up := upper_vals m P c in
        if forallb (fun p => any2 Qle_bool up p) P
        then bp_loop fuel' m alpha P stack' (acc ++ [cell_idx P c])
        else if forallb (fun p => any2 Qle_bool lo p) P
        then
          let dist := map (fun lu => snd lu - fst lu) c in
          let volume := prod (map (fun ab => (snd ab - fst ab)%Q) (combine lo up)) in
          let total := prod (map (fun ab => (snd ab - fst ab)%Q) (combine (ideal m P) (anti_ideal m P))) in
          if existsb (fun d => 1 <? d) dist && Qltb alpha (volume / total)
          then
            let d := argmax dist in
            let length := nth d dist 0 in
            let l1 := half length in
            let l2 := length - l1 in
            let c1 := update_nth d (fun lu => (fst lu, snd lu - l1)) c in
            let c2 := update_nth d (fun lu => (fst lu + l2, snd lu)) c in
            bp_loop fuel' m alpha P (c2 :: c1 :: stack') acc
          else bp_loop fuel' m alpha P stack' acc
        else bp_loop fuel' m alpha P stack' acc
      end
    end.

  (** non_dominated.py:73-166 *)
  Definition partition_space (fuel m : nat) (alpha : Q) (P : list vec) : option (list cell) :=
    let c0 := repeat (0, S (length P)) m in
    match P with
    | [] => Some [cell_idx P c0]
    | _ => bp_loop fuel m alpha P [c0] []
    end.

  (** non_dominated.py:168-190 *)
  Definition partition_space_2d (P : list vec) : list cell :=
    map (fun i => [(i, S i); (0, nth (length (aug_idx P 1) - 1 - i) (aug_idx P 1) 0)]) (seq 0 (S (length P))).

  (** box_decomposition.py:113-121, 172-190 for NondominatedPartitioning(ref, Y, alpha) *)
  Definition hypercells (fuel : nat) (alpha : Q) (ref : vec) (Y : list vec) : option (list cell) :=
    let m := length ref in
    let P := neg_front true ref Y in
    if m =? 2 then Some (partition_space_2d P) else partition_space fuel m alpha P.

  (** non_dominated.py:222-305  get_hypercell_bounds *)
  Definition bound_at (P : list vec) (ref : vec) (i j : nat) : ext :=
    match i with
    | 0 => NInf
    | S k => match nth_error P k with
             | Some p => Val (nth j p 0%Q)
             | None => Val (- nth j ref 0%Q)
             end
    end.
  (** non_dominated.py:222-305 for one cell. *)
  Definition cell_bounds (P : list vec) (ref : vec) (c : cell) : box :=
    (map (fun jc => eopp (bound_at P ref (snd (snd jc)) (fst jc))) (indexed c),
     map (fun jc => eopp (bound_at P ref (fst (snd jc)) (fst jc))) (indexed c)).
  (** non_dominated.py:53-166 and 222-305: partitioning the outcomes and returning the cell bounds. *)
  Definition nondominated_partitioning (fuel : nat) (alpha : Q) (ref : vec) (Y : list vec) : option (list box) :=
    option_map (map (cell_bounds (neg_front true ref Y) ref)) (hypercells fuel alpha ref Y).

  (** FastNondominatedPartitioning for two objectives (non_dominated.py:367-376, 413-422;
      box_decomposition.py:226, 273-277). *)
  Definition fast_partitioning_2d (ref : vec) (Y : list vec) : option (list box) :=
    match neg_front true ref Y with
    | [] => Some [(map Val ref, map (fun _ => PInf) ref)]
    | P => nd_cells_2d (rev (map (fun p => ((- nth 0 p 0)%Q, (- nth 1 p 0)%Q)) P)) (nth 0 ref 0%Q, nth 1 ref 0%Q)
    end.

  (** The object: all outcomes so far, the negated front and the cells (index form).
      box_decomposition.py:47-49, 81-111, 146-190 for NondominatedPartitioning.  The fuel is the
      one for which the loop is proved to end. *)
  Definition fuel_for (m : nat) (P : list vec) : nat := 2 * (S (length P)) ^ m.
  (** The attributes _Y, _neg_pareto_Y and hypercells of the object (box_decomposition.py:43-49, 109, 157). *)
  Record decomposition := Dec { d_Y : list vec; d_front : list vec; d_cells : option (list cell) }.
  (** torch.equal *)
  Fixpoint same_front (P P' : list vec) : bool :=
    match P, P' with
    | [], [] => true
    | p :: P, p' :: P' => (length p =? length p') && all2 Qeq_bool p p' && same_front P P'
    | _, _ => false
    end.
  (** box_decomposition.py:113-121 partition_space: two objectives or more. *)
  Definition cells_of (alpha : Q) (ref : vec) (P : list vec) : option (list cell) :=
    let m := length ref in
    if m =? 2 then Some (partition_space_2d P) else partition_space (fuel_for m P) m alpha P.
  (** reset: [old] is None before the first reset *)
  Definition reset (alpha : Q) (ref : vec) (Y : list vec) (old : option decomposition) : decomposition :=
    let P := neg_front true ref Y in
    match old with
    | Some d => if same_front P (d_front d) then Dec Y (d_front d) (d_cells d) else Dec Y P (cells_of alpha ref P)
    | None => Dec Y P (cells_of alpha ref P)
    end.
  (** update(Y); the constructor called with Y is the first update. *)
  Definition update (alpha : Q) (ref : vec) (old : option decomposition) (Y : list vec) : decomposition :=
    match old with
    | Some d => reset alpha ref (d_Y d ++ Y) (Some d)
    | None => reset alpha ref Y None
    end.
  (** A history of calls of update, box_decomposition.py:160-190. *)
  Definition updates (alpha : Q) (ref : vec) (Ys : list (list vec)) : option decomposition :=
    fold_left (fun o Y => Some (update alpha ref o Y)) Ys None.
  (** non_dominated.py:222-305 get_hypercell_bounds of the object. *)
  Definition bounds_of (ref : vec) (d : decomposition) : option (list box) :=
    option_map (map (cell_bounds (d_front d) ref)) (d_cells d).
End Partitioning.
