(** Model of the expected hypervolume improvement, bayes_optim/multi_objective/analytic.py lines
    99-274, over the real numbers.  Tensors are lists; the batch dimension, device and dtype
    handling are left out, and automatic differentiation is not modelled. *)
From Coq Require Import Reals List Bool.
From Verif Require Import Lib_Normal.
Import ListNotations.
Open Scope R_scope.

(** One coordinate of a cell: the lower bound, and the upper bound with [None] for infinity
    ([get_hypercell_bounds], line 167). *)
Definition side := (R * option R)%type.
(** [clamp_max] of line 235; [big] is 1e10 for points in double precision and 1e8 for others. *)
Definition clamp (big : R) (u : option R) : R := match u with Some v => Rmin v big | None => big end.
(** The deviation of line 232: [variance.clamp_min(1e-9).sqrt()]. *)
Definition sigma_of (mse : R) : R := sqrt (Rmax mse (/ 1000000000)).
(** [EHVI.psi], lines 176-199; [normal.log_prob(u).exp()] is the density. *)
Definition psi_fun (lower upper mu sigma : R) : R :=
  let u := (upper - mu) / sigma in sigma * pdf u + (mu - lower) * (1 - cdf u).
(** [EHVI.nu], lines 201-220. *)
Definition nu_fun (lower upper mu sigma : R) : R := (upper - lower) * (1 - cdf ((upper - mu) / sigma)).

(** Lines 239-255: the two factors of one outcome of one cell, [psi_diff] and [nu]. *)
Definition factors (big : R) (s : side) (mu sigma : R) : R * R :=
  let (l, u) := s in
  let u := clamp big u in
  let psi_lu := psi_fun l u mu sigma in
  let psi_ll := psi_fun l l mu sigma in
  (psi_ll - psi_lu, nu_fun l u mu sigma).
(** [itertools.product( *[[0, 1] for _ in range(m)])], lines 169-173. *)
Fixpoint choices (m : nat) : list (list bool) :=
  match m with O => [[]] | S m' => map (cons false) (choices m') ++ map (cons true) (choices m') end.
(** [stacked_factors.gather] and the product over the outcomes, lines 265-274. *)
Fixpoint term (fs : list (R * R)) (c : list bool) : R :=
  match fs, c with (p, n) :: fs', b :: c' => (if b then n else p) * term fs' c' | _, _ => 1 end.
(** torch.sum over the cells, line 274. *)
Definition sum (l : list R) : R := fold_right Rplus 0 l.
(** The two factors of every coordinate of a cell, lines 239-256. *)
Fixpoint cell_factors (big : R) (cell : list side) (pred : list (R * R)) : list (R * R) :=
  match cell, pred with
  | s :: cell', (mu, mse) :: pred' => factors big s mu (sigma_of mse) :: cell_factors big cell' pred'
  | _, _ => []
  end.
(** [EHVI.forward], lines 222-274, at a point with the given predictions, one mean and mean squared
    error per outcome. *)
Definition forward (big : R) (cells : list (list side)) (pred : list (R * R)) : R :=
  sum (map (fun cell => sum (map (term (cell_factors big cell pred)) (choices (length pred)))) cells).
