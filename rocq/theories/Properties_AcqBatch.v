(** Property C245: acquisition functions at several points. *)
From Coq Require Import Reals List Bool Arith Lia Lra.
From Verif Require Import Lib_Normal Model_Acquisition Model_AcqBatch.
Import ListNotations.
Open Scope R_scope.

(** The values in an answer. *)
Definition values (a : answer) : list (option R) := match a with Number v => [Some v] | Array l => l end.
(** C245, read as: the call succeeds, with the value at each point. *)
Definition value_at_each (exp_max : R) (a : acquisition) (minimize : bool) (s : surrogate) (X : list (list R)) : Prop :=
  exists r, call exp_max a minimize s X = Ok r /\ values r = map (value exp_max a minimize s) X.

(** C245 holds for UCB with any number of points. *)
Theorem C245_UCB_partial :
  forall exp_max alpha minimize s X, value_at_each exp_max (AUCB alpha) minimize s X.
Proof.
  intros M al mi s X. eexists. split; [reflexivity|]. cbn [values call value]. unfold predict_rows. rewrite map_map.
  apply map_ext. intros x. unfold value, UCB_value. destruct (predict mi s x). reflexivity.
Qed.
Print Assumptions C245_UCB_partial.
(** C245 holds for every acquisition function with one point. *)
Theorem C245_one_point_partial :
  forall exp_max a minimize s x, value_at_each exp_max a minimize s [x].
Proof.
  intros M [al|p|e p|t p] mi s x; [apply C245_UCB_partial| | |];
    unfold value_at_each, call, EI_rows, PI_rows, MGFI_rows, predict_rows, value, EI_value, PI_value, MGFI_value;
    cbn [map truth bind]; destruct (predict mi s x) as [y sd]; cbn [fst snd].
  - destruct (EI_small s sd); [eexists; split; reflexivity|]. destruct p; eexists; split; reflexivity.
  - destruct p; [|eexists; split; reflexivity]. eexists. split; [reflexivity|]. reflexivity.
  - destruct (MGFI_small sd); [eexists; split; reflexivity|]. destruct p; eexists; split; reflexivity.
Qed.
Print Assumptions C245_one_point_partial.
(** C245 fails for EI, EpsilonPI, PI and MGFI with any two or more points and any surrogate: the call raises. *)
Theorem C245_several_refuted :
  forall exp_max a minimize s X, (forall alpha, a <> AUCB alpha) -> (2 <= length X)%nat ->
    call exp_max a minimize s X = Err ValueError.
Proof.
  intros M a mi s X H L. destruct X as [|x [|x' X]]; [simpl in L; lia|simpl in L; lia|].
  destruct a as [al|p|e p|t p]; [exfalso; exact (H al eq_refl)| | |]; reflexivity.
Qed.
Print Assumptions C245_several_refuted.
(** Which objects that are: whatever the constructors of the other classes return. *)
Theorem C245_classes_refuted :
  forall exp_max c minimize s k a X, c <> UCB -> construct c minimize s k = Ok a -> (2 <= length X)%nat ->
    call exp_max a minimize s X = Err ValueError.
Proof.
  intros M c mi s k a X HC HA L. apply C245_several_refuted; [|exact L]. intros al ->.
  destruct c; try congruence; cbn in HA; unfold new_EpsilonPI, bind in HA;
    repeat match goal with
    | H : context [if ?b then _ else _] |- _ => destruct b; try discriminate
    | H : context [match set_plugin ?a ?b ?c with _ => _ end] |- _ => destruct (set_plugin a b c); try discriminate
    | H : context [match set_positive ?a with _ => _ end] |- _ => destruct (set_positive a); try discriminate
    | H : context [match MGFI_set_t ?a with _ => _ end] |- _ => destruct (MGFI_set_t a); try discriminate
    end.
Qed.
Print Assumptions C245_classes_refuted.

Definition flat : surrogate := Surrogate (fun x => (hd 0 x, 1)) (fun x => ([], [])) (Some 1) (Some [3; 4]).
Example C245_example :
  call 700 (AUCB (/ 2)) true flat [[1]; [2]] = Ok (Array [Some (1 + / 2 * sqrt 1); Some (2 + / 2 * sqrt 1)]) /\
  call 700 (AEI (Some 3)) true flat [[1]; [2]] = Err ValueError /\
  (exists a, construct EI true flat no_kwargs = Ok a) /\ value_at_each 700 (AEI (Some 3)) true flat [[1]].
Proof.
  split; [reflexivity|]. split; [reflexivity|]. split; [eexists; reflexivity|]. apply C245_one_point_partial.
Qed.
