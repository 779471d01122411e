(** Vocabulary for the statements about whole runs of the conditional optimizer. *)
From Coq Require Import Bool Arith ZArith QArith String List.
From Verif Require Import Model_Opt Model_Conditional Model_CondRun Spec_Opt.
Import ListNotations.
Open Scope nat_scope.

(** The calls of a user. *)
Inductive op := OAsk (n : option nat) | OTell (X : list dict) (fv : list fval) (warm : bool).

Section Spec.
  Variable names : list string.
  Variable fixed : nat -> dict.
  Variable order : list string -> list string.
  Variable n_sub n_point : nat.
  Variable c : cfg.
  Variable propose : nat -> nat -> st dict -> res dict.
  Variable choice : nat -> nat -> list nat.
  Variable fitk : nat -> nat -> bool * option exn.

  (** A history of calls, numbered from k, that all return normally. *)
  Fixpoint history (k : nat) (s : cst) (ops : list op) : option cst :=
    match ops with
    | [] => Some s
    | OAsk n :: ops' =>
      match cond_ask names fixed order n_sub n_point propose choice k n s with
      | (Ok _, s') => history (S k) s' ops'
      | _ => None
      end
    | OTell X fv w :: ops' =>
      match cond_tell fixed c fitk k X fv w s with
      | (None, s') => history (S k) s' ops'
      | _ => None
      end
    end.
End Spec.

(** The points told, with their values. *)
Definition told_in (ops : list op) : list (dict * fval) := flat_map (fun o => match o with OAsk _ => [] | OTell X fv _ => combine X fv end) ops.
(** The number of points told in calls without warm_start. *)
Fixpoint points_in (ops : list op) : nat :=
  match ops with
  | [] => 0
  | OTell X _ false :: ops' => List.length X + points_in ops'
  | _ :: ops' => points_in ops'
  end.
(** The calls of tell that are no warm start. *)
Definition paid (o : op) : bool := match o with OTell _ _ false => true | _ => false end.
(** The observations of a batch that belong to sub-space i: the finite values, with the points as the optimizer of that sub-space
    proposed them. *)
Definition share (i : nat) (idx : list nat) (ds : list dict) (fv : list fval) : list (dict * Q) :=
  finite_obs (map snd (filter (fun t => fst t =? i) (combine idx (combine ds fv)))).
(** The observations that an optimizer holds. *)
Definition holds (s : st dict) : list (dict * fval) := map (fun r => (rx r, rf r)) (rows s).
