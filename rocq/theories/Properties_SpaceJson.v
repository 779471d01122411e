(** Property C269: a search space written to a json file and read back. *)
From Coq Require Import Bool Arith ZArith QArith String List Lia.
From Verif Require Import Lib_List Model_Var Model_Opt Model_Space Model_SpaceDict Model_SpaceJson Properties_Space Properties_SpaceDict.
Import ListNotations.
Open Scope nat_scope.

(** The contract of json.load: a text with more opening than closing braces is no json, and braces with nothing between them are the
    dictionary without items. *)
Definition is_open (t : token) : bool := match t with Open => true | _ => false end.
Definition is_close (t : token) : bool := match t with Close => true | _ => false end.
Definition reads_json (load : text -> option (list entry)) : Prop :=
  load [Open; Close] = Some [] /\
  forall t, List.length (filter is_close t) < List.length (filter is_open t) -> load t = None.

Lemma to_dict_cons h s v r : variables h s = v :: r -> exists e es, to_dict h s = e :: es /\ exists t, etype e = TCls t.
Proof.
  intros E. assert (N : to_dict h s <> []).
  { unfold to_dict. rewrite E. cbn [fold_left]. assert (G : forall vs d, d <> [] -> fold_left (fun d v => set_item d (entry_of v)) vs d <> []).
    { induction vs as [|w vs IH]; intros d Hd; [exact Hd|]. cbn [fold_left]. apply IH. destruct d as [|x d]; [congruence|]. cbn [set_item]. destruct (String.eqb (ekey x) (ekey (entry_of w))); discriminate. }
    apply G. discriminate. }
  destruct (to_dict h s) as [|e es] eqn:D; [congruence|]. exists e, es. split; [reflexivity|].
  assert (I : In e (to_dict h s)) by (rewrite D; now left). apply to_dict_In in I as (w & _ & ->). eexists. reflexivity.
Qed.
Lemma vals_flat f (l : list val) : (forall v, f (Val v) = false) -> filter f (map Val l) = [].
Proof. intros F. induction l as [|v l IH]; [reflexivity|]. cbn [map filter]. now rewrite F. Qed.

(** Refuted, for every space that is not empty: to_json raises a TypeError, the text that the file had before is lost, the file is left
    with text that is no json, and from_json then raises. *)
Theorem C269_round_trip_refuted :
  forall load adj fs file h s, reads_json load -> data s <> [] ->
    exists fs' t, to_json fs file h s = (fs', false) /\ fs' file = Some t /\ load t = None /\ from_json load adj fs' file = None /\
      forall other, other <> file -> fs' other = fs other.
Proof.
  intros load adj fs file h s [_ LO] NE.
  assert (V : exists v r, variables h s = v :: r) by (unfold variables; destruct (data s) as [|v r]; [congruence|eexists; eexists; reflexivity]).
  destruct V as (v & r & V). destruct (to_dict_cons h s v r V) as (e & es & D & c & T).
  unfold to_json. rewrite D. unfold dump, dump_items. cbn [fold_right]. unfold dump_value at 1. rewrite T. cbn [dump_type andthen fst snd app].
  eexists. eexists. split; [reflexivity|]. unfold write at 1. rewrite String.eqb_refl. split; [reflexivity|].
  assert (L : forall t, t = Open :: Key (ekey e) :: Open :: Key "range"%string :: LOpen :: map Val (bounds_of e) ++ [LClose; Key "type"%string] -> load t = None).
  { intros t ->. apply LO. cbn [filter is_open is_close]. rewrite !filter_app, !vals_flat by reflexivity. simpl. lia. }
  split; [apply L; rewrite ?app_nil_r; reflexivity|]. split.
  - unfold from_json, write. rewrite String.eqb_refl, L; [reflexivity|]. rewrite ?app_nil_r. reflexivity.
  - intros other Ho. unfold write. destruct (String.eqb_spec other file); [congruence|reflexivity].
Qed.
Print Assumptions C269_round_trip_refuted.

(** The part that holds: the space without variables comes back. *)
Theorem C269_round_trip_partial :
  forall load adj fs file h s, reads_json load -> data s = [] ->
    exists fs' h' t, to_json fs file h s = (fs', true) /\ from_json load adj fs' file = Some (h', t) /\ variables h' t = variables h s.
Proof.
  intros load adj fs file h [d n] [L0 _] E. simpl in E. subst d. exists (write fs file [Open; Close]), [], (mkSp [] []). split; [reflexivity|]. split; [|reflexivity].
  unfold from_json, write. rewrite String.eqb_refl. change (match load [Open; Close] with Some es => from_dict adj es | None => None end = Some ([], mkSp [] [])). rewrite L0. reflexivity.
Qed.
Print Assumptions C269_round_trip_partial.

(** A loader that meets the contract, and a file whose text is lost. *)
Example C269_case :
  let load := fun t => match t with [Open; Close] => Some [] | _ => None end in
  let '(h, s) := fresh [rv "a"; iv "b"] in
  let fs := fun f => if String.eqb f "space.json" then Some [Open; Close] else None in
  reads_json load /\ data s <> [] /\ option_map (fun p => List.length (data (snd p))) (from_json load (fun _ b => b) fs "space.json") = Some 0 /\
  snd (to_json fs "space.json" h s) = false /\
  option_map (fun p => List.length (data (snd p))) (from_json load (fun _ b => b) (fst (to_json fs "space.json" h s)) "space.json") = None.
Proof.
  split; [split; [reflexivity|]|split; [discriminate|vm_compute; auto]].
  intros [|[] [|[] [|]]] H; try reflexivity. simpl in H. lia.
Qed.
