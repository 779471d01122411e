(** Vocabulary for the statements about whole runs. *)
From Coq Require Import List Bool Arith ZArith QArith String.
From Verif Require Import Model_Opt Model_Var Model_Pareto Model_Ask Spec_Ask Spec_Pareto Model_MIES Spec_MIES Model_Sampler Model_Propose Spec_Propose Model_Run.
Import ListNotations.
Open Scope nat_scope.

(** A variable that can be sampled under constraints: no Subset, and the levels of a categorical one are of one type. *)
Definition one_type (k : kind) : Prop :=
  match k with
  | KDiscrete l | KOrdinal l => (forall v, In v l -> exists s, v = VS s) \/ (forall v, In v l -> exists z, v = VI z) \/ (forall v, In v l -> exists q, v = VR q)
  | KSubset _ => False
  | _ => True
  end.
(** The space is not empty and its integer variables take every integer between the bounds. *)
Definition good_space (P : problem) : Prop :=
  p_space P <> [] /\ plain_space (p_space P) /\ ((p_h P <> None \/ p_g P <> None) -> forall v, In v (p_space P) -> one_type (vkind v)).
(** A point of the space as it is sampled: the values of the real variables are floats. *)
Definition sampled (vs : list var) (x : point) : Prop :=
  in_space vs x /\ forall i v lb ub p, nth_error vs i = Some v -> vkind v = KReal lb ub p -> exists q, nth_error x i = Some (VR q).
(** What sampling without constraints, the random number generators and argsort guarantee. *)
Definition good_world (P : problem) (W : world) : Prop :=
  sorts (w_argsort W) /\
  (forall k pass n x, In x (w_init W k pass n) -> sampled (p_space P) x) /\
  (forall k pass t s r i v lv, nth_error (p_space P) i = Some v -> Model_Sampler.d_level (w_draw W k pass t s r i) = Some lv -> lv < List.length (levels (vkind v))) /\
  (forall k pass m n, List.length (w_choose W k pass m n) = n) /\
  (forall k j i, run_inputs_ok (p_space P) (w_start W k j i) (w_rnd W k j i)).
(** The calls of a run in order, and the finite observations among them. *)
Definition all_calls {A} (log : list (list A)) : list A := List.concat log.
Fixpoint finite_values (l : list (point * res fval)) : list (point * Q) :=
  match l with
  | [] => []
  | (x, Ok (FNum q)) :: l' => (x, q) :: finite_values l'
  | _ :: l' => finite_values l'
  end.
Fixpoint given_values (l : list (point * fval)) : list (point * Q) :=
  match l with [] => [] | (x, FNum q) :: l' => (x, q) :: given_values l' | _ :: l' => given_values l' end.
Definition warm_values (w : option (list point * list fval)) : list (point * Q) :=
  match w with Some (X, Y) => given_values (combine X Y) | None => [] end.
(** No real variable is rounded. *)
Definition unrounded (vs : list var) : Prop := forall v lb ub p, In v vs -> vkind v = KReal lb ub p -> p = None.
