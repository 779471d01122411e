(** Box repair (bayes_optim/utils/utils.py handle_box_constraint) and the restart loop of the
    acquisition optimisation (bayes_optim/acquisition/optim/__init__.py argmax_restart). *)
From Coq Require Import List Bool Arith ZArith QArith Qabs Qround.
From Verif Require Import Model_Pareto.
Import ListNotations.
Open Scope nat_scope.

(** utils.py:136-142 for one component and finite bounds.  np.mod(floor(y), 2) == 0 is evenness. *)
Definition reflect (x lb ub : Q) : Q :=
  let y := ((x - lb) / (ub - lb))%Q in
  let fl := Qfloor y in
  let d := Qabs (y - inject_Z fl) in
  let y' := if Z.even fl then d else (1 - d)%Q in
  (lb + (ub - lb) * y')%Q.

(** utils.py:108-146 for a vector x; [None] is an infinite bound.  Simplification: one vector
    (the transposition logic for matrices is not modelled); exact arithmetic. *)
Definition bound := option Q.
(** utils.py:127-142 for one component: only two finite bounds are [valid]. *)
Definition repair1 (b : bound * bound) (x : Q) : Q :=
  match b with (Some lb, Some ub) => reflect x lb ub | _ => x end.
(** utils.py:108-146 for a vector. *)
Definition handle_box_constraint (x : list Q) (bounds : list (bound * bound)) : list Q :=
  map (fun p => repair1 (fst p) (snd p)) (combine bounds x).

(** argmax_restart, optim/__init__.py:55-153.  One restart of the inner optimizer returns a
    point, its value and the number of function calls. *)
Record outcome (X : Type) := mkOut { ox : X; ofv : Q; calls : nat }.
Arguments mkOut {X}. Arguments ox {X}. Arguments ofv {X}. Arguments calls {X}.

Section Restart.
  Context {X : Type}.
  (** The constraint functions; None when not given. *)
  Variables h g : option (X -> list Q).
  (** The result of the i-th restart with the remaining budget (any inner optimizer, any
      random stream). *)
  Variable inner : nat -> Z -> outcome X.
  Variable argsort : list Q -> list nat.
  Variable wait_iter : nat.

  (** optim/__init__.py:124-126 (np.isclose(|h|, 0, atol=0.1): |h| <= 0.1 + 1e-5 * 0). *)
  Definition feasible (x : X) : bool :=
    (match h with Some h => forallb (fun v => Qle_bool (Qabs v) (1#10)) (h x) | None => true end) &&
    (match g with Some g => forallb (fun v => Qle_bool v 0) (g x) | None => true end).

  (** State: recorded (x, f) pairs, best (None = -inf), wait_count, eval_budget. *)
  Record rstate := mkR { recorded : list (X * Q); best : option Q; wait : nat; budget : Z }.

  (** optim/__init__.py:74-147: one restart. *)
  Definition restart (i : nat) (s : rstate) : rstate :=
    let o := inner i (budget s) in
    if feasible (ox o) then
      let better := match best s with None => true | Some b => Qltb b (ofv o) end in
      mkR (recorded s ++ [(ox o, ofv o)])
          (if better then Some (ofv o) else best s)
          (if better then 0 else S (wait s))
          (budget s - Z.of_nat (calls o))
    else s.
  (** optim/__init__.py:146-147. *)
  Definition stop (s : rstate) : bool := Z.leb (budget s) 0 || (wait_iter <=? wait s).

  (** The loop; also returns the number of restarts made. *)
  Fixpoint loop (left i : nat) (s : rstate) : rstate * nat :=
    match left with
    | 0 => (s, i)
    | S left' => let s' := restart i s in
                 if stop s' then (s', S i) else loop left' (S i) s'
    end.

  (** optim/__init__.py:149-153 *)
  Definition pick (s : rstate) : option (X * Q) :=
    match recorded s with
    | [] => None
    | r => nth_error r (nth 0 (rev (argsort (map snd r))) 0)
    end.
  (** optim/__init__.py:55-153: the whole call, with the number of restarts made. *)
  Definition argmax_restart (eval_budget : Z) (n_restart : nat) : option (X * Q) * nat :=
    let '(s, n) := loop n_restart 0 (mkR [] None 0 eval_budget) in (pick s, n).
End Restart.
Arguments mkR {X}.
