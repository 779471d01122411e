(** Box decompositions of several sets of outcomes at once (bayes_optim/utils/multi_objective/box_decompositions), two objectives.
    A tensor b x n x 2 is a list of b lists of n points.  None: the call raises.  Not modelled: tensors with more than one batch
    dimension or more than two objectives, which are refused (box_decomposition.py:174-186), and batches of size zero. *)
From Coq Require Import List Bool Arith ZArith QArith.
From Verif Require Import Model_Pareto Model_Boxes Model_CellVolume.
Import ListNotations.
Open Scope nat_scope.

(** The argument ref_point: one point, or one for each set. *)
Inductive refs := One (r : vec) | Each (rs : list vec).
(** utils.py:11-31  _expand_ref_point for a batch of [b] sets. *)
Definition expand (b : nat) (r : refs) : option (list vec) :=
  match r with
  | One r => Some (repeat r b)
  | Each rs => if length rs =? b then Some rs else None
  end.

(** utils.py:66-76: the non-dominated points better than the reference point (no feasibility mask, is_pareto = False). *)
Definition front_points (ref : vec) (Y : list vec) : list vec :=
  map fst (filter (fun yb => snd yb && all2 (fun a r => Qltb r a) (fst yb) ref) (combine Y (is_non_dominated Y true))).
(** utils.py:81-94: the last point is repeated; without points, the reference point is. *)
Definition pad (k : nat) (ref : vec) (P : list vec) : list vec :=
  match P with
  | [] => repeat ref k
  | _ => P ++ repeat (last P []) (k - length P)
  end.

Section Batch.
  (** torch.argsort of a column. *)
  Variable argsort : list Q -> list nat.

  (** box_decomposition.py:91-104: the sign is changed, and the points are sorted by the first objective. *)
  Definition sorted_neg (P : list vec) : list vec :=
    let N := map (map Qopp) P in map (fun i => nth i N []) (argsort (col 0 N)).
  (** box_decomposition.py:81-106 and utils.py:34-94. *)
  Definition batch_fronts (r : refs) (Ys : list (list vec)) : option (list (list vec)) :=
    match Ys with
    | [] => None
    | [] :: _ => Some (map (fun _ => []) Ys)
    | _ =>
      match expand (length Ys) r with
      | None => None
      | Some rs =>
        let Ps := map (fun ry => front_points (fst ry) (snd ry)) (combine rs Ys) in
        let k := list_max (map (@length vec) Ps) in
        Some (map (fun rp => sorted_neg (pad k (fst rp) (snd rp))) (combine rs Ps))
      end
    end.

  (** The attributes _neg_Y (with the sign changed), _neg_pareto_Y, and hypercells or hypercell_bounds of the object. *)
  Record batch (C : Type) := Bat { b_Y : list (list vec); b_front : list (list vec); b_cells : list C }.
  Arguments Bat {C}.
  Arguments b_Y {C}.
  Arguments b_front {C}.
  Arguments b_cells {C}.

  (** torch.equal *)
  Fixpoint same_fronts (Ps Ps' : list (list vec)) : bool :=
    match Ps, Ps' with
    | [], [] => true
    | P :: Ps, P' :: Ps' => same_front P P' && same_fronts Ps Ps'
    | _, _ => false
    end.
  (** box_decomposition.py:172-190 reset, with partition_space given; [old] is None before the first reset. *)
  Definition batch_reset {C} (partition : list (list vec) -> option (list C)) (r : refs) (Ys : list (list vec)) (old : option (batch C)) : option (batch C) :=
    match batch_fronts r Ys with
    | None => None
    | Some Ps =>
      match old with
      | Some d => if same_fronts Ps (b_front d) then Some (Bat Ys (b_front d) (b_cells d)) else option_map (Bat Ys Ps) (partition Ps)
      | None => option_map (Bat Ys Ps) (partition Ps)
      end
    end.
  (** box_decomposition.py:146-170 update with _update_neg_Y (torch.cat needs equal batch sizes), and 237-250 for two objectives. *)
  Definition batch_update {C} (partition : list (list vec) -> option (list C)) (r : refs) (old : option (batch C)) (Ys : list (list vec)) : option (batch C) :=
    match old with
    | Some d => if length (b_Y d) =? length Ys then batch_reset partition r (map (fun p => fst p ++ snd p) (combine (b_Y d) Ys)) (Some d) else None
    | None => batch_reset partition r Ys None
    end.
  (** The constructor called with the first outcomes, and calls of update with the others. *)
  Fixpoint batch_updates {C} (partition : list (list vec) -> option (list C)) (r : refs) (d : batch C) (Bs : list (list (list vec))) : option (batch C) :=
    match Bs with
    | [] => Some d
    | B :: Bs => match batch_update partition r (Some d) B with Some d' => batch_updates partition r d' Bs | None => None end
    end.
  (** The object after the constructor and the calls of update. *)
  Definition batch_run {C} (partition : list (list vec) -> option (list C)) (r : refs) (Bs : list (list (list vec))) : option (batch C) :=
    match Bs with
    | [] => None
    | B :: Bs => match batch_update partition r None B with Some d => batch_updates partition r d Bs | None => None end
    end.

  (** non_dominated.py:168-190 NondominatedPartitioning._partition_space_2d *)
  Definition index_cells (Ps : list (list vec)) : option (list (list (list (nat * nat)))) := Some (map (partition_space_2d argsort) Ps).
  (** non_dominated.py:222-305 get_hypercell_bounds *)
  Definition index_bounds (r : refs) (d : batch (list (list (nat * nat)))) : option (list (list box)) :=
    option_map (fun rs => map (fun rpc => map (cell_bounds (snd (fst rpc)) (fst (fst rpc))) (snd rpc)) (combine (combine rs (b_front d)) (b_cells d)))
               (expand (length (b_Y d)) r).
  (** non_dominated.py:307-331 compute_hypervolume *)
  Definition index_volumes (r : refs) (d : batch (list (list (nat * nat)))) : option (list Q) :=
    match b_front d with
    | [] :: _ => Some (map (fun _ => 0%Q) (b_front d))
    | _ => option_map (fun rs => map (fun rpc => index_hypervolume (fst (fst rpc)) (snd (fst rpc)) (snd rpc)) (combine (combine rs (b_front d)) (b_cells d)))
                      (expand (length (b_Y d)) r)
    end.

  (** No counterpart in the code: a list without None. *)
  Fixpoint all_some {A} (l : list (option A)) : option (list A) :=
    match l with
    | [] => Some []
    | a :: l => match a, all_some l with Some x, Some y => Some (x :: y) | _, _ => None end
    end.
  (** non_dominated.py:367-376 and 413-422, box_decomposition.py:273-277, FastNondominatedPartitioning.  Line 375 assigns the reference
      points (b x 2) to a tensor b x 1 x 2, which raises for b > 1. *)
  Definition fast_cells (r : refs) (Ps : list (list vec)) : option (list (list box)) :=
    match Ps with
    | [] :: _ =>
      match r with
      | One p => Some (map (fun _ => [(map Val p, map (fun _ => PInf) p)]) Ps)
      | Each [p] => Some (map (fun _ => [(map Val p, map (fun _ => PInf) p)]) Ps)
      | Each _ => None
      end
    | _ =>
      match expand (length Ps) r with
      | None => None
      | Some rs => all_some (map (fun rp => nd_cells_2d (rev (map (fun p => ((- nth 0 p 0)%Q, (- nth 1 p 0)%Q)) (snd rp))) (nth 0 (fst rp) 0%Q, nth 1 (fst rp) 0%Q)) (combine rs Ps))
      end
    end.
  (** non_dominated.py:424-443 compute_hypervolume; line 438 subtracts the reference points (b x 2 or 2). *)
  Definition fast_volumes (r : refs) (d : batch (list box)) : option (list Q) :=
    match expand (length (b_Y d)) r with
    | None => None
    | Some rs => all_some (map (fun rpc => cells_hypervolume (fst (fst rpc)) (snd (fst rpc)) (snd rpc)) (combine (combine rs (b_front d)) (b_cells d)))
    end.
End Batch.
Arguments Bat {C}.
Arguments b_Y {C}.
Arguments b_front {C}.
Arguments b_cells {C}.
