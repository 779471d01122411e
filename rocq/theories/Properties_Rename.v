(** Renaming the variables of a space (C263). *)
From Coq Require Import List Arith String Lia.
From Verif Require Import Model_Opt Model_Node Spec_Node Model_Structure Proofs_Structure Model_Rename.
From Verif Require Import Properties_Node.
From Verif Require Proofs_Opt Proofs_Space Properties_Structure.
Import ListNotations.
Open Scope string_scope.

Lemma prefix_NoDup p n : NoDup (map (fun i => p ++ str_nat i) (seq 0 n)).
Proof.
  apply FinFun.Injective_map_NoDup; [|apply seq_NoDup]. intros i j E. apply Proofs_Space.str_app_cancel in E. now apply Proofs_Opt.str_nat_inj.
Qed.
Lemma named ns : forall l, List.length ns = List.length l -> map cn (map (fun p => CV (fst p) (cc (snd p))) (combine ns l)) = ns /\
  map cc (map (fun p => CV (fst p) (cc (snd p))) (combine ns l)) = map cc l.
Proof. induction ns as [|n ns IH]; intros [|v l] L; cbn in *; try discriminate; auto. injection L as L. destruct (IH l L) as [-> ->]. auto. Qed.
(** A list of distinct names, one for each variable: the variables have these names in order, everything else is as before. *)
Theorem C263_names_partial : forall ns s, List.length ns = List.length (vars s) -> NoDup ns ->
  exists s', set_names (Names ns) s = Some s' /\ map cn (vars s') = ns /\ map cc (vars s') = map cc (vars s) /\ structure s' = structure s.
Proof.
  intros ns s L N. unfold set_names. cbn [listed]. rewrite (proj2 (Nat.eqb_eq _ _) L). eexists. split; [reflexivity|]. cbn [vars structure]. destruct (named ns (vars s) L) as [A B].
  rewrite renamed_id by (now rewrite A). auto.
Qed.
Print Assumptions C263_names_partial.
(** A string: the names are numbered. *)
Theorem C263_prefix : forall p s, exists s', set_names (Prefix p) s = Some s' /\ map cn (vars s') = map (fun i => p ++ str_nat i) (seq 0 (List.length (vars s))) /\ NoDup (map cn (vars s')).
Proof.
  intros p s. set (ns := map (fun i => p ++ str_nat i) (seq 0 (List.length (vars s)))). assert (L : List.length ns = List.length (vars s)) by (unfold ns; now rewrite map_length, seq_length).
  destruct (C263_names_partial ns s L (prefix_NoDup _ _)) as (s' & E & N & _). exists s'. split; [exact E|]. rewrite N. split; [reflexivity|apply prefix_NoDup].
Qed.
Print Assumptions C263_prefix.
(** Another number of names is refused. *)
Theorem C263_wrong_number : forall ns s, List.length ns <> List.length (vars s) -> set_names (Names ns) s = None.
Proof. intros ns s L. unfold set_names. cbn [listed]. now rewrite (proj2 (Nat.eqb_neq _ _) L). Qed.
Print Assumptions C263_wrong_number.
(** Refuted: repeated names are accepted, but they are not the names the space then has. *)
Theorem C263_repeated_refuted : exists s s', set_names (Names ["z"; "z"; "y"]) s = Some s' /\ map cn (vars s') = ["z0"; "z1"; "y"].
Proof. exists (CS [CV "a" None; CV "b" None; CV "c" None] []). eexists. split; reflexivity. Qed.
Print Assumptions C263_repeated_refuted.
(** Refuted: the conditions keep the old names, and the unconditional sub-spaces can no longer be found. *)
Theorem C263_conditions_refuted : forall set_of, is_set set_of -> let s := CS Properties_Structure.three [Node "x" [("x == 1", Node "a" [])]] in
  construct 9 ANone Properties_Structure.three = Ok s /\
  exists s', set_names (Names ["x"; "w"; "b"]) s = Some s' /\ map cn (vars s') = ["x"; "w"; "b"] /\
    subspaces set_of s ["b"] = Ok [(["x == 1"], ["b"; "a"])] /\ subspaces set_of s' ["w"; "b"] = Err IndexE.
Proof.
  intros set_of [S1 S2] s. split; [reflexivity|]. eexists. split; [reflexivity|]. split; [reflexivity|].
  assert (E : set_of ["x == 1"] = ["x == 1"]).
  { pose proof (S1 ["x == 1"]) as N. pose proof (S2 ["x == 1"]) as I. destruct (set_of ["x == 1"]) as [|u [|w r]].
    - destruct (proj2 (I "x == 1")). now left.
    - destruct (proj1 (I u) (or_introl eq_refl)) as [<-|[]]. reflexivity.
    - destruct (proj1 (I u) (or_introl eq_refl)) as [<-|[]]. destruct (proj1 (I w) (or_intror (or_introl eq_refl))) as [<-|[]]. inversion N as [|? ? A _]; subst. destruct A. now left. }
  unfold subspaces. cbn [s structure existsb children orb]. unfold unconditional. cbn [map all_paths fst]. rewrite E. split; reflexivity.
Qed.
Print Assumptions C263_conditions_refuted.
Example C263_case : exists s', set_names (Prefix "v") (CS [CV "a" None; CV "b" None] []) = Some s' /\ map cn (vars s') = ["v0"; "v1"].
Proof. eexists. split; reflexivity. Qed.
