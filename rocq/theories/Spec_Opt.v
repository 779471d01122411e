(** Vocabulary for the statements about the ask/tell/run state machine.
    Apart from [exec]/[exec_any], which only iterate [tell], nothing here mentions the
    helpers of the model. *)
From Coq Require Import List Bool Arith ZArith QArith String.
From Verif Require Import Model_Opt.
Import ListNotations.
Open Scope nat_scope.

Section Spec.
  Context {xv : Type}.
  Notation call := (call xv).
  Notation st := (st xv).

  (** A history of tell calls all of which return normally. *)
  Fixpoint exec (c : cfg) (s : st) (ks : list call) : option st :=
    match ks with
    | [] => Some s
    | k :: ks' => match tell c s k with
                  | (None, s') => exec c s' ks'
                  | (Some _, _) => None
                  end
    end.

  (** A history of tell calls some of which may raise (the caller catches the exception). *)
  Definition exec_any (c : cfg) (s : st) (ks : list call) : st :=
    fold_left (fun s k => snd (tell c s k)) ks s.

  (** The observations told by a call: each point with its value. *)
  Definition told1 (k : call) : list (xv * fval) := combine (c_X k) (c_f k).

  (** The finite observations of a list of told pairs, in order. *)
  Fixpoint finite_obs (l : list (xv * fval)) : list (xv * Q) :=
    match l with
    | [] => []
    | (x, FNum q) :: t => (x, q) :: finite_obs t
    | _ :: t => finite_obs t
    end.

  Definition observed (ks : list call) : list (xv * Q) := finite_obs (flat_map told1 ks).

  (** Number of points told in calls that are not warm starts. *)
  Fixpoint points_told (ks : list call) : nat :=
    match ks with
    | [] => 0
    | k :: t => (if c_warm k then 0 else List.length (c_X k)) + points_told t
    end.

  Definition paid_calls (ks : list call) : list call := filter (fun k => negb (c_warm k)) ks.

  Definition rows (s : st) : list (row xv) := match data s with Some d => d | None => [] end.

  (** Observed value q is strictly better than p. *)
  Definition better (minimize : bool) (q p : Q) : Prop := if minimize then (q < p)%Q else (p < q)%Q.

  (** q is a best element of l. *)
  Definition best_of (minimize : bool) (q : Q) (l : list Q) : Prop :=
    In q l /\ forall p, In p l -> ~ better minimize p q.
End Spec.
