(** Properties C49-C51: condition trees and conditional spaces. *)
From Coq Require Import Bool Arith String List Lia.
From Verif Require Import Lib_List Model_Node Spec_Node Proofs_Node Proofs_NodePaths.
Import ListNotations.
Open Scope string_scope.

(** A tree used in the examples. *)
Definition sample : tree :=
  Node "x" [("x == 1", Node "a" []); ("x == 1", Node "b" []); ("x == 2", Node "c" [("c == 0", Node "d" [])])].

(** * C49 *)
(** Refuted, for every tree: deepcopy returns None, as does every removal with invert = False. *)
Theorem C49_deepcopy_refuted : forall t, deepcopy t = None /\ forall ns, remove ns false t = None.
Proof. intro t. split; reflexivity. Qed.
Print Assumptions C49_deepcopy_refuted.

(** Keep-only removal: the nodes of the result are exactly the nodes of the given tree all of whose
    ancestors (and they themselves) are kept, in the same order and under the same conditions; the
    result is None exactly if the root is not kept. *)
Theorem C49_keep_partial :
  forall ns t, (remove ns true t = None <-> ~ In (tname t) ns) /\
    forall t' b, remove ns true t = Some t' ->
      spots b t' = filter (fun path => forallb (fun q => existsb (String.eqb (snd q)) ns) path) (spots b t).
Proof.
  intros ns t. split.
  - destruct t as [n cs]. simpl. rewrite <- mem_In. destruct (mem n ns); split; intro H; try discriminate; try congruence; auto.
  - intros t' b H. pose proof (keep_spots ns t b) as K. unfold remove in H. rewrite H in K. exact K.
Qed.
Print Assumptions C49_keep_partial.

Example C49_example : remove ["x"; "b"; "d"] true sample = Some (Node "x" [("x == 1", Node "b" [])]).
Proof. reflexivity. Qed.

(** * C50 *)
(** Every forest of trees with distinct names and with children at the roots survives. *)
Theorem C50_round_trip_partial :
  forall ts, NoDup (flat_map all_names ts) -> (forall t, In t ts -> children t <> []) ->
    exists depth, forall fuel, depth <= fuel -> from_dict fuel (forest_dict ts) = Some ts.
Proof.
  intros ts N H. exists (fold_right Nat.max 0 (map height ts)). intros fuel F. apply from_dict_forest; [exact N|exact H|].
  intros t Ht. apply Nat.le_trans with (2 := F). clear - Ht. induction ts as [|u ts IH]; [destruct Ht|]. simpl.
  destruct Ht as [->|Ht]; [lia|]. specialize (IH Ht). lia.
Qed.
Print Assumptions C50_round_trip_partial.

(** Refuted for a tree of one node: it is lost. *)
Theorem C50_round_trip_refuted :
  forall n fuel, from_dict fuel (to_dict (Node n [])) = Some [].
Proof. reflexivity. Qed.
Print Assumptions C50_round_trip_refuted.

Example C50_example :
  NoDup (flat_map all_names [sample; Node "y" [("y == 0", Node "z" [])]]) /\
  from_dict 9 (forest_dict [sample; Node "y" [("y == 0", Node "z" [])]]) = Some [sample; Node "y" [("y == 0", Node "z" [])]].
Proof.
  split; [|vm_compute; reflexivity]. simpl. repeat (constructor; [simpl; intuition discriminate|]). constructor.
Qed.

(** * C51 *)
(** [set_of] is Python's set(...) in any iteration order. *)
Definition is_set (set_of : list string -> list string) : Prop :=
  (forall l, NoDup (set_of l)) /\ (forall l x, In x (set_of l) <-> In x l).

(** The paths of every tree: each sequence of conditions that leads to a leaf is listed once, with
    all leaves it leads to, in order. *)
Theorem C51_paths_group_leaves :
  forall set_of t, is_set set_of -> children t <> [] ->
    NoDup (map fst (all_paths set_of t)) /\
    forall c v, In (c, v) (all_paths set_of t) <-> v = leaves_at c t /\ v <> [].
Proof.
  intros set_of t [S1 S2] NE. destruct (all_paths_spec set_of S1 S2 t NE) as [N G]. split; [exact N|].
  intros c v. rewrite <- (pget_In _ _ _ N), G. unfold leaves_at. fold (sel c (leaves t)).
  destruct (sel c (leaves t)) as [|x l]; simpl; split.
  - discriminate.
  - intros [-> Q]. congruence.
  - intro Q. injection Q as <-. split; [reflexivity|discriminate].
  - intros [-> _]. reflexivity.
Qed.
Print Assumptions C51_paths_group_leaves.

(** For forests of simple trees (under each condition a single child or leaves only) with different
    conditions: the sub-spaces are exactly the outcomes, each once; a sub-space holds the variables
    outside the trees and the active leaf variables. *)
Theorem C51_subspaces_partial :
  forall set_of vars iso ts, is_set set_of ->
    (forall x, In x iso <-> In x vars /\ ~ In x (flat_map all_names ts)) ->
    (forall t, In t ts -> simple t /\ children t <> []) ->
    ForallOrdPairs (fun t u => forall c, In c (conditions t) -> In c (conditions u) -> False) ts ->
    let subs := unconditional set_of ts iso in
    NoDup (map fst subs) /\
    (forall k, In k (map fst subs) <-> exists v, outcomes ts k v) /\
    (forall k vs, In (k, vs) subs -> exists v, outcomes ts k v /\
       forall x, In x vs <-> (In x vars /\ ~ In x (flat_map all_names ts)) \/ In x v).
Proof.
  intros set_of vars iso ts [S1 S2] HI HS FO subs. destruct (unconditional_spec set_of S1 S2 ts iso HS FO) as [N G].
  split; [exact N|]. split.
  - intro k. rewrite in_map_iff. split.
    + intros ([k' vs]&<-&I). apply G in I. destruct I as (v&O&_). exists v. exact O.
    + intros (v&O). exists (k, app iso v). split; [reflexivity|]. apply G. exists v. auto.
  - intros k vs I. apply G in I. destruct I as (v&O&->). exists v. split; [exact O|]. intro x. rewrite in_app_iff, HI. reflexivity.
Qed.
Print Assumptions C51_subspaces_partial.

(** Refuted in general: under x == 1 both the leaf a and the node c are active; the sub-space for
    x == 1, c == 0 lacks a. *)
Theorem C51_subspaces_refuted :
  exists t, forall set_of, is_set set_of ->
    outcomes [t] ["x == 1"; "c == 0"] ["a"; "d"] /\
    In (["x == 1"; "c == 0"], ["d"]) (unconditional set_of [t] []) /\
    In (["x == 1"], ["a"]) (unconditional set_of [t] []) /\ (forall v, ~ outcomes [t] ["x == 1"] v).
Proof.
  exists (Node "x" [("x == 1", Node "a" []); ("x == 1", Node "c" [("c == 0", Node "d" [])])]). intros set_of HS.
  set (t := Node "x" [("x == 1", Node "a" []); ("x == 1", Node "c" [("c == 0", Node "d" [])])]).
  assert (NE : children t <> []) by discriminate. destruct (C51_paths_group_leaves set_of t HS NE) as [N G].
  assert (U : forall k v, In (k, v) (all_paths set_of t) -> In (k, v) (unconditional set_of [t] [])).
  { intros k v H. unfold unconditional. change (map (all_paths set_of) [t]) with [all_paths set_of t].
    assert (E : forall P : pdict, product [P] = P).
    { clear. induction P as [|[a b] P IH]; [reflexivity|]. cbn [product flat_map map app fst snd] in *. rewrite !app_nil_r, IH. reflexivity. }
    rewrite E. pose proof (pupdate_new (all_paths set_of t) [] N) as Q. unfold pupdate in Q. rewrite Q. simpl.
    apply in_map_iff. exists (k, v). auto. }
  split; [|split; [|split]].
  - change ["x == 1"; "c == 0"] with (app ["x == 1"; "c == 0"] []). change ["a"; "d"] with (app ["a"; "d"] []).
    constructor; [|constructor]. constructor; [left; reflexivity|]. simpl.
    change ["c == 0"] with (app [] ["c == 0"]). change ["a"; "d"] with (app ["a"] ["d"]).
    constructor; [constructor|]. change ["c == 0"] with (app ["c == 0"] []). change ["d"] with (app ["d"] []).
    constructor; [|constructor]. constructor; [left; reflexivity|]. simpl.
    change (@nil string) with (app (@nil string) []) at 1. change ["d"] with (app ["d"] []). constructor; constructor.
  - apply U, G. split; [reflexivity|discriminate].
  - apply U, G. split; [reflexivity|discriminate].
  - assert (X1 : forall n c cs p v, outcome (Node n (c :: cs)) p v -> p <> []).
    { intros n c cs p v O. inversion O; subst; discriminate. }
    assert (X2 : forall p v, outcomes [Node "a" []; Node "c" [("c == 0", Node "d" [])]] p v -> p <> []).
    { intros p v O. inversion O as [|? ? p1 v1 p2 v2 A B]; subst. inversion B as [|? ? p3 v3 p4 v4 C D]; subst.
      intro E. apply X1 in C. apply app_eq_nil in E. destruct E as [_ E]. apply app_eq_nil in E. destruct E as [E _]. contradiction. }
    assert (X3 : forall p v, outcome t p v -> p <> ["x == 1"]).
    { intros p v O. unfold t in O. inversion O as [|? ? br p' ? I OS]; subst. intro E. injection E as -> ->. exact (X2 _ _ OS eq_refl). }
    assert (X4 : forall p v, outcomes [t] p v -> p <> ["x == 1"]).
    { intros p v O. inversion O as [|? ? p1 v1 p2 v2 A B]; subst. inversion B; subst. rewrite app_nil_r. exact (X3 _ _ A). }
    intros v O. exact (X4 _ _ O eq_refl).
Qed.
Print Assumptions C51_subspaces_refuted.

Example C51_example :
  let set_of := fun l => nodup string_dec l in
  is_set set_of /\ simple sample /\ children sample <> [] /\
  unconditional set_of [sample; Node "y" [("y == 0", Node "z" [])]] ["w"] =
    [(["x == 1"; "y == 0"], ["w"; "a"; "b"; "z"]); (["x == 2"; "c == 0"; "y == 0"], ["w"; "d"; "z"])].
Proof.
  split; [|split; [|split; [discriminate|vm_compute; reflexivity]]].
  - split; [intro l; apply NoDup_nodup|intros l x; apply nodup_In].
  - repeat match goal with
    | |- simple _ => constructor
    | |- forall c, In c _ -> simple (snd c) => intros c Hc; simpl in Hc; repeat (destruct Hc as [<-|Hc]; [simpl|]); try contradiction
    end; intros br Hb; simpl in Hb; repeat (destruct Hb as [<-|Hb]); try contradiction; simpl; auto.
    left. intros c [<-|[<-|[<-|[]]]]; simpl; intro; try reflexivity; discriminate.
    left. intros c [<-|[<-|[<-|[]]]]; simpl; intro; try reflexivity; discriminate.
Qed.
