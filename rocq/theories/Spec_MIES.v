(** Vocabulary for the statements about the evolution strategy. *)
From Coq Require Import List Bool Arith ZArith QArith.
From Verif Require Import Model_Var Model_Ask Spec_Ask Model_MIES.
Import ListNotations.

(** v lies in the domain of a variable of kind k, where an Integer variable only asks for an
    integer between the bounds (its step is not looked at). *)
Definition within (k : kind) (v : val) : Prop :=
  match k with
  | KInt lb ub _ => exists z, v = VI z /\ (lb <= z <= ub)%Z
  | _ => admissible k v
  end.
Definition in_domain (vs : list var) (x : point) : Prop :=
  Forall2 (fun v a => within (vkind v) a) vs x.

(** The constructors of the variables accept these parameters. *)
Definition proper (v : var) : Prop :=
  match vkind v with
  | KReal lb ub _ => (lb < ub)%Q
  | KInt lb ub step => (lb < ub)%Z /\ (0 < step)%Z
  | _ => True
  end.

(** f is at least as good as g. *)
Definition no_worse (minimise : bool) (f g : Q) : Prop := if minimise then (f <= g)%Q else (g <= f)%Q.

(** What the random number generators guarantee: parents are positions of the population and a
    drawn level is a position in the levels of the j-th categorical variable (randint). *)
Definition draws_ok (vs : list var) (mu : nat) (d : draws) : Prop :=
  (d_p1 d < mu)%nat /\ (d_p2 d < mu)%nat /\
  forall j i v, nth_error (id_d vs) j = Some i -> nth_error vs i = Some v -> (d_level d j < length (levels (vkind v)))%nat.
