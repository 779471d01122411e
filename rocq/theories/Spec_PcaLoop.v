(** Vocabulary for the statements about the PCA-assisted optimizer. *)
From Coq Require Import Bool Arith Reals List.
From Verif Require Import Model_PCA Properties_PCA Model_PcaLoop.
Import ListNotations.
Open Scope R_scope.

(** What sklearn guarantees: the components of a matrix with d columns are orthonormal rows of length d. *)
Definition pca_ok (d : nat) (sk_fit : list (list R) -> option (list (list R))) : Prop :=
  forall M comps, sk_fit M = Some comps -> (forall c, In c comps -> length c = d /\ norm2 c = 1) /\ orthonormal comps.
(** z maximizes v over a box. *)
Definition maximizes (v : list R -> R) (box : list (R * R)) (z : list R) : Prop := in_box z box /\ forall z', in_box z' box -> v z' <= v z.
(** The proposal made in the state s maximizes the penalized acquisition function over the reduced space. *)
Definition exact_inner (bounds : list (R * R)) (acq : pst -> list R -> R) (inner : pst -> option (list R)) (s : pst) : Prop :=
  forall p b, p_model s = true -> p_pca s = Some p -> p_space s = Some b -> exists z, inner s = Some z /\ maximizes (penalized p bounds (acq s)) b z.
(** The states after the iterations of a run. *)
Inductive reached bounds minimize doe_size n_default sk_fit gp_fits inner sample (f : list R -> option R) : pst -> Prop :=
| reached_start : reached bounds minimize doe_size n_default sk_fit gp_fits inner sample f p_start
| reached_step s X s' : reached bounds minimize doe_size n_default sk_fit gp_fits inner sample f s ->
    ask doe_size n_default inner sample s None = Points X -> tell bounds minimize sk_fit gp_fits s X (map f X) = (s', true) ->
    reached bounds minimize doe_size n_default sk_fit gp_fits inner sample f s'.
(** The samples of the search space at hand. *)
Definition samples_ok (bounds : list (R * R)) (sample : pst -> nat -> list (list R)) : Prop :=
  forall s n x, In x (sample s n) -> in_box x (match p_space s with Some b => b | None => bounds end).
(** The values that are numbers, with their points, in the order they were told. *)
Inductive kept : list (list R) -> list (option R) -> list (list R * R) -> Prop :=
| kept_nil : kept [] [] []
| kept_some x X v y l : kept X y l -> kept (x :: X) (Some v :: y) ((x, v) :: l)
| kept_none x X y l : kept X y l -> kept (x :: X) (None :: y) l.
(** u is a better value than v. *)
Definition better (minimize : bool) (u v : R) : Prop := if minimize then u < v else v < u.
