(** Vocabulary for the statements about proposals. *)
From Coq Require Import List Bool Arith ZArith QArith Qabs String.
From Verif Require Import Model_Opt Model_Var Model_Ask.
Import ListNotations.
Open Scope nat_scope.

(** y is a near-duplicate of the proposal x: every real component within the tolerance
    1e-8 + 1e-5 |x_i|, every other component equal. *)
Definition near_duplicate (vs : list var) (y x : point) : Prop :=
  forall i v, nth_error vs i = Some v ->
    exists a b, nth_error y i = Some a /\ nth_error x i = Some b /\
      match vkind v with
      | KReal _ _ _ => exists p q, as_num a = Some p /\ as_num b = Some q /\
                       (Qabs (p - q) <= (1 # 100000000) + (1 # 100000) * Qabs q)%Q
      | _ => val_eqb a b = true
      end.

(** v is an admissible value of a variable of kind k. *)
Definition admissible (k : kind) (v : val) : Prop :=
  match k with
  | KReal lb ub _ => exists q, as_num v = Some q /\ (lb <= q)%Q /\ (q <= ub)%Q
  | KInt lb ub step => exists i, (0 <= i)%Z /\ v = VI (lb + i * step) /\ (lb + i * step <= ub)%Z
  | KDiscrete l | KOrdinal l => In v l
  | KSubset e => exists r t, 1 <= r <= List.length e /\ v = VT t /\ In t (combinations e r)
  | KBool => v = VB false \/ v = VB true
  end.

Definition in_space (vs : list var) (x : point) : Prop :=
  Forall2 (fun v a => admissible (vkind v) a) vs x.

(** The value of the variable named n in the point x. *)
Fixpoint component (vs : list var) (x : point) (n : string) : option val :=
  match vs, x with
  | v :: vs', a :: x' => if String.eqb (vname v) n then Some a else component vs' x' n
  | _, _ => None
  end.

(** The components of x that belong to variables not named in f, in order. *)
Fixpoint free_part (vs : list var) (f : fixed_t) (x : point) : point :=
  match vs, x with
  | v :: vs', a :: x' =>
    if existsb (fun p => String.eqb (fst p) (vname v)) f then free_part vs' f x'
    else a :: free_part vs' f x'
  | _, _ => []
  end.
