(** Conditions of search spaces and the operations on spaces (C253-C259). *)
From Coq Require Import Bool Arith String List Lia Permutation.
From Verif Require Import Lib_List Model_Node Spec_Node Proofs_Node Properties_Node Model_Structure Spec_Structure Proofs_Structure.
From Verif Require Model_Var Model_Space Proofs_Space.
Import ListNotations.
Open Scope nat_scope.
Open Scope string_scope.

(** A selector x, a variable a that exists for x == 1, and a variable b without condition. *)
Definition three : list cvar := [CV "x" None; CV "a" (Some ("x", "x == 1")); CV "b" None].
Lemma three_ok : NoDup (map cn three) /\ closed three /\ acyclic three /\ declared three <> [].
Proof.
  split; [|split; [|split]].
  - cbn. repeat (constructor; [cbn; intuition discriminate|]). constructor.
  - intros x c y [[= <- <- <-]|[]]. cbn. auto.
  - exists (fun n => if String.eqb n "a" then 1 else 0). intros x c y [[= <- <- <-]|[]]. cbn. lia.
  - discriminate.
Qed.

(** ** C253: constructing a space. *)
(** The trees hold exactly the conditions of the variables, each once. *)
Theorem C253_conditions_partial l : NoDup (map cn l) -> closed l -> acyclic l ->
  exists depth, forall fuel, depth <= fuel -> exists s, construct fuel ANone l = Ok s /\ vars s = l /\
    Permutation (flat_map edges (structure s)) (declared l) /\ NoDup (flat_map all_names (structure s)).
Proof.
  intros N C (rank & R). exists (depth_of rank l). intros fuel Hf. destruct (construct_ok l rank N C R fuel Hf) as (ts & E & _ & NN & P). eexists. split; [exact E|]. auto.
Qed.
Print Assumptions C253_conditions_partial.
(** Refuted: c depends on a variable that is not in the space; the condition of d on c is then lost, although both are in the space. *)
Theorem C253_conditions_refuted : forall fuel, exists s,
  construct (S (S (S fuel))) ANone [CV "c" (Some ("x", "x == 1")); CV "d" (Some ("c", "c == 0"))] = Ok s /\ structure s = [].
Proof. intros fuel. eexists. split; reflexivity. Qed.
Print Assumptions C253_conditions_refuted.
(** Variables that depend on each other raise. *)
Theorem C253_cycles_raise a b c c' : a <> b -> forall fuel, set_structure fuel ANone [CV a (Some (b, c)); CV b (Some (a, c'))] = Err RecursionE.
Proof.
  intros Ne fuel. unfold set_structure. cbn [start]. set (d := scan [] _). assert (B : forall g s, fst s = [] -> build g d s a = None /\ build g d s b = None).
  { assert (E : d = [(b, [(a, c)]); (a, [(b, c')])]). { unfold d, scan. cbn. destruct (String.eqb_spec b a); [congruence|reflexivity]. }
    assert (Ga : get d a = Some [(b, c')]). { rewrite E. cbn. destruct (String.eqb_spec b a); [congruence|]. now rewrite String.eqb_refl. }
    assert (Gb : get d b = Some [(a, c)]). { rewrite E. cbn. now rewrite String.eqb_refl. }
    clearbody d. induction g as [|f IH]; intros s Es; [split; reflexivity|]. destruct (IH s Es) as [Ia Ib]. destruct s as [ca nr]. cbn in Es. subst ca. cbn [build]. rewrite Ga, Gb. cbn [get fst]. rewrite Ia, Ib. auto. }
  unfold from_dict. assert (K : exists r, map fst d = b :: r). { unfold d, scan. cbn. destruct (String.eqb b a); eexists; reflexivity. }
  destruct K as (r & ->). cbn [build_all fst get]. destruct (B fuel ([], []) eq_refl) as [_ Bb]. now rewrite Bb.
Qed.
Print Assumptions C253_cycles_raise.
Example C253_example : NoDup (map cn three) /\ closed three /\ acyclic three /\
  construct 9 ANone three = Ok (CS three [Node "x" [("x == 1", Node "a" [])]]).
Proof. destruct three_ok as (A & B & C & _). repeat split; auto. Qed.

(** ** C254: sub-spaces keep the conditions among their variables. *)
Lemma no_conditions l : (forall v, In v l -> cc v = None) -> forall d, scan d l = d.
Proof. unfold scan. induction l as [|v l IH]; cbn; intros A d; auto. rewrite (A v (or_introl eq_refl)). apply IH. auto. Qed.
Lemma keep_filter ns ts : flat_map (spots "") (flat_map (fun t => match remove ns true t with Some u => [u] | None => [] end) ts)
  = filter (fun path => forallb (fun q => existsb (String.eqb (snd q)) ns) path) (flat_map (spots "") ts).
Proof.
  induction ts as [|t ts IH]; cbn [flat_map]; auto. rewrite flat_map_app, IH, filter_app. f_equal. pose proof (keep_spots ns t "") as K. unfold remove.
  destruct (keep ns t) as [u|]; cbn [flat_map]; [rewrite app_nil_r; exact K|exact K].
Qed.
Lemma picks_NoDup l ps : NoDup (map cn l) -> NoDup ps ->
  NoDup (map cn (flat_map (fun p => match nth_error l p with Some v => [v] | None => [] end) ps)).
Proof.
  intros N. induction 1 as [|p ps P NP IH]; cbn; [constructor|]. rewrite map_app. apply NoDup_app_intro; auto.
  - destruct (nth_error l p); repeat constructor. intros [].
  - intros x A B. apply P. apply in_map_iff in B as (w & E & B). apply in_flat_map in B as (q & Q & B). destruct (nth_error l q) as [w'|] eqn:Eq; [|destruct B]. destruct B as [->|[]].
    destruct (nth_error l p) as [v|] eqn:Ep; [|destruct A]. destruct A as [<-|[]]. replace p with q; auto. apply (proj1 (NoDup_nth_error (map cn l)) N).
    + rewrite map_length. apply nth_error_Some. congruence.
    + rewrite !nth_error_map, Ep, Eq. cbn. congruence.
Qed.
(** Conditions given by the argument structure: the nodes of the sub-space are those nodes all of whose ancestors are in the sub-space. *)
Theorem C254_slice_partial s ps : (forall v, In v (vars s) -> cc v = None) -> NoDup (map cn (vars s)) -> NoDup ps ->
  NoDup (flat_map all_names (structure s)) -> (forall t, In t (structure s) -> children t <> []) ->
  exists depth, forall fuel, depth <= fuel -> exists s', getitem fuel s ps = Ok s' /\
    vars s' = flat_map (fun p => match nth_error (vars s) p with Some v => [v] | None => [] end) ps /\
    flat_map (spots "") (structure s')
    = filter (fun path => forallb (fun q => existsb (String.eqb (snd q)) (map cn (vars s'))) path) (flat_map (spots "") (structure s)).
Proof.
  intros NC N NP NN Ch. destruct (C50_round_trip_partial (structure s) NN Ch) as (depth & RT). exists depth. intros fuel Hf. set (l := flat_map _ ps).
  assert (NCl : forall v, In v l -> cc v = None). { intros v I. apply in_flat_map in I as (p & _ & I). destruct (nth_error (vars s) p) eqn:E; [|destruct I]. destruct I as [<-|[]]. apply NC. eapply nth_error_In; eauto. }
  assert (NL : NoDup (map cn l)) by (now apply picks_NoDup).
  unfold getitem, restrict, construct. fold l. rewrite renamed_id by auto. unfold set_structure at 1. cbn [start]. rewrite no_conditions by auto. cbn [from_dict build_all map filter option_map fst snd flat_map vars].
  unfold set_structure. cbn [start]. rewrite nodes_some. cbn [option_map]. rewrite no_conditions, RT by auto. eexists. split; [reflexivity|]. cbn [vars structure]. split; auto. apply keep_filter.
Qed.
Print Assumptions C254_slice_partial.
(** Refuted: conditions given with the variables.  Whatever the space, if it has a condition, the sub-space of all its variables has a
    condition twice. *)
Theorem C254_slice_refuted l : NoDup (map cn l) -> closed l -> acyclic l -> declared l <> [] ->
  exists depth, forall fuel, depth <= fuel -> exists s s', construct fuel ANone l = Ok s /\ getitem fuel s (seq 0 (List.length l)) = Ok s' /\
    vars s' = vars s /\ NoDup (flat_map edges (structure s)) /\ ~ NoDup (flat_map edges (structure s')).
Proof.
  intros N C (rank & R) NE. exists (depth_of rank l). intros fuel Hf. destruct (construct_ok l rank N C R fuel Hf) as (ts & E & _ & NN & P).
  destruct (again_twice l rank ts N C R NE NN P fuel Hf) as (ts' & E' & D). exists (CS l ts), (CS l ts'). split; auto. split.
  - unfold getitem, restrict. cbn [vars structure]. rewrite nth_all, E. cbn [vars]. now rewrite E'.
  - cbn [vars structure]. split; auto. split; auto. now apply edges_NoDup.
Qed.
Print Assumptions C254_slice_refuted.
(** Taking out one variable (pop, remove): the other variables stay in their order, and again the nodes all of whose ancestors stay. *)
Theorem C254_remove_partial s p : (forall v, In v (vars s) -> cc v = None) -> NoDup (map cn (vars s)) -> p < List.length (vars s) ->
  NoDup (flat_map all_names (structure s)) -> (forall t, In t (structure s) -> children t <> []) ->
  exists depth, forall fuel, depth <= fuel -> exists s' v, remove_at fuel s p = Ok s' /\
    vars s = (firstn p (vars s') ++ v :: skipn p (vars s'))%list /\ S (List.length (vars s')) = List.length (vars s) /\ nth_error (vars s) p = Some v /\
    flat_map (spots "") (structure s')
    = filter (fun path => forallb (fun q => existsb (String.eqb (snd q)) (map cn (vars s'))) path) (flat_map (spots "") (structure s)).
Proof.
  intros NC N Hp NN Ch. destruct (C50_round_trip_partial (structure s) NN Ch) as (depth & RT). exists depth. intros fuel Hf.
  destruct (nth_error (vars s) p) as [v|] eqn:Ev; [|apply nth_error_None in Ev; lia]. apply nth_error_split in Ev as (l1 & l2 & E & L).
  assert (El : (firstn p (vars s) ++ skipn (S p) (vars s) = l1 ++ l2)%list).
  { rewrite E, <- L. rewrite firstn_app, Nat.sub_diag, firstn_all. replace (S (List.length l1)) with (List.length l1 + 1) by lia.
    rewrite skipn_app, skipn_all2 by lia. replace (List.length l1 + 1 - List.length l1) with 1 by lia. cbn. now rewrite app_nil_r. }
  assert (NL : NoDup (map cn (l1 ++ l2)%list)) by (rewrite E, map_app in N; rewrite map_app; exact (NoDup_remove_1 _ _ _ N)).
  assert (NCl : forall w, In w (l1 ++ l2)%list -> cc w = None) by (intros w I; apply NC; rewrite E; apply in_app_iff in I as [I|I]; apply in_or_app; cbn; auto).
  unfold remove_at. rewrite El, renamed_id by auto. unfold set_structure. cbn [start]. rewrite nodes_some. cbn [option_map]. rewrite no_conditions, RT by auto.
  eexists. exists v. split; [reflexivity|]. cbn [vars structure]. split; [|split; [|split; [reflexivity|apply keep_filter]]].
  - rewrite E, <- L, firstn_app, Nat.sub_diag, firstn_all, skipn_app, Nat.sub_diag, skipn_all2 by lia. cbn. now rewrite app_nil_r.
  - rewrite E, !app_length. cbn. lia.
Qed.
Print Assumptions C254_remove_partial.
(** The same for taking out a variable that has nothing to do with conditions. *)
Theorem C254_remove_refuted : forall fuel, exists s s', construct (S (S (S fuel))) ANone three = Ok s /\ remove_at (S (S (S fuel))) s 2 = Ok s' /\
  structure s = [Node "x" [("x == 1", Node "a" [])]] /\ structure s' = [Node "x" [("x == 1", Node "a" []); ("x == 1", Node "a" [])]].
Proof. intros fuel. eexists. eexists. repeat split; reflexivity. Qed.
Print Assumptions C254_remove_refuted.
Example C254_example : let s := CS [CV "x" None; CV "a" None; CV "b" None] [Node "x" [("x == 1", Node "a" []); ("x == 2", Node "b" [])]] in
  (forall v, In v (vars s) -> cc v = None) /\ NoDup (map cn (vars s)) /\ NoDup (flat_map all_names (structure s)) /\
  getitem 9 s [0; 2] = Ok (CS [CV "x" None; CV "b" None] [Node "x" [("x == 2", Node "b" [])]]).
Proof.
  cbn. split; [intros v [<-|[<-|[<-|[]]]]; reflexivity|]. split; [|split; [|reflexivity]]; repeat (constructor; [cbn; intuition discriminate|]); constructor.
Qed.

(** ** C255: the unconditional sub-spaces of a sub-space. *)
Lemma pset_In d k v p : In p (pset d k v) -> p = (k, v) \/ In p d.
Proof.
  induction d as [|[a w] d IH]; cbn; [intros [<-|[]]; auto|]. destruct (key_eqb a k) eqn:E.
  - unfold key_eqb in E. destruct (list_eq_dec string_dec a k); [subst|discriminate]. intros [<-|I]; auto.
  - intros [<-|I]; auto. apply IH in I as [->|I]; auto.
Qed.
Lemma psets_In m : forall d p, In p (fold_left (fun d kv => pset d (fst kv) (snd kv)) m d) -> In p m \/ In p d.
Proof.
  induction m as [|[k v] m IH]; cbn; auto. intros d p I. apply IH in I as [I|I]; auto. apply pset_In in I as [->|I]; auto.
Qed.
Lemma leaves_names : forall t q, In q (leaves t) -> In (snd q) (all_names t).
Proof.
  apply (tree_ind' (fun t => forall q, In q (leaves t) -> In (snd q) (all_names t))). intros n cs IH q I. destruct cs as [|c0 cs0]; [destruct I as [<-|[]]; now left|].
  cbn [leaves] in I. apply in_flat_map in I as (c & Ic & I). apply in_map_iff in I as (q' & <- & I). right. apply in_flat_map. exists c. split; auto. apply (IH c Ic q' I).
Qed.
Lemma product_names set_of ts : is_set set_of -> (forall t, In t ts -> children t <> []) -> forall k v, In (k, v) (product (map (all_paths set_of) ts)) ->
  forall x, In x v -> In x (flat_map all_names ts).
Proof.
  intros HS. induction ts as [|t ts IH]; cbn [map product flat_map]; intros Ch k v I x X; [destruct I as [[= <- <-]|[]]; destruct X|].
  apply in_flat_map in I as ([k1 v1] & I1 & I). apply in_map_iff in I as ([k2 v2] & [= <- <-] & I2). cbn in X. apply in_or_app. apply in_app_or in X as [X|X].
  - left. apply (C51_paths_group_leaves set_of t HS (Ch t (or_introl eq_refl))) in I1 as [-> _]. unfold leaves_at in X. apply in_map_iff in X as (q & <- & X). apply filter_In in X as [X _]. now apply leaves_names.
  - right. exact (IH (fun t I => Ch t (or_intror I)) k2 v2 I2 x X).
Qed.
(** A space without conditions is its only sub-space. *)
Theorem C255_no_conditions set_of s iso : (forall v, In v (vars s) -> cc v = None) -> NoDup (map cn (vars s)) ->
  forall fuel, exists s', construct fuel ANone (vars s) = Ok s' /\ subspaces set_of s' iso = Ok [([], map cn (vars s))].
Proof.
  intros NC N fuel. unfold construct. rewrite renamed_id by auto. unfold set_structure. cbn [start]. rewrite no_conditions by auto. eexists. split; reflexivity.
Qed.
Print Assumptions C255_no_conditions.
(** The space itself: they are those of C51. *)
Theorem C255_subspaces_partial l set_of iso : NoDup (map cn l) -> closed l -> acyclic l -> is_set set_of -> declared l <> [] ->
  exists depth, forall fuel, depth <= fuel -> exists s, construct fuel ANone l = Ok s /\
    ((forall x, In x iso -> In x (map cn l)) -> subspaces set_of s iso = Ok (unconditional set_of (structure s) iso)).
Proof.
  intros N C (rank & R) HS NE. exists (depth_of rank l). intros fuel Hf. destruct (construct_ok l rank N C R fuel Hf) as (ts & E & SS & NN & P). eexists. split; [exact E|]. intros HI.
  assert (NL : ts <> []). { intros ->. cbn in P. apply Permutation_nil in P. auto. }
  assert (EN : forall t, In t ts -> children t <> []).
  { unfold set_structure in SS. cbn [start] in SS. destruct (from_dict fuel (scan [] l)) as [ts0|] eqn:F; [|discriminate].
    assert (ND : NoDup (map fst (scan [] l))) by (apply scan_NoDup; constructor).
    assert (KN : forall k, In k (map fst (scan [] l)) <-> kids (scan [] l) k <> []). { intros k. rewrite kids_scan, keys_scan. cbn. tauto. }
    assert (KD : forall x c y, In (y, c) (kids (scan [] l) x) <-> In (x, c, y) (declared l)). { intros x c y. rewrite kids_scan. cbn. apply own_declared. }
    destruct (structure_gen l rank _ N C R ND KN KD fuel Hf) as (ts1 & F1 & Id & N1 & Sh & Rt & Cv). assert (ts1 = ts0) by congruence. subst ts1. rewrite Id in SS. injection SS as SS. subst ts0.
    assert (Hd : forall n k b, In (k, b) (kids (scan [] l) n) -> down rank l k < down rank l n). { intros n k b I. apply KD in I. eapply down_lt; eauto. }
    assert (Hh : forall n, In n (map fst (scan [] l)) -> down rank l n < fuel).
    { intros n I. assert (In n (map cn l)). { apply KN in I. destruct (kids (scan [] l) n) as [|[y c] r] eqn:Q; [congruence|]. apply (C n c y). apply KD. rewrite Q. now left. }
      pose proof (proj1 (list_max_le (map (down rank l) (map cn l)) _) (le_n _)) as Q. rewrite Forall_forall in Q. specialize (Q _ (in_map (down rank l) _ _ H)). unfold depth_of in Hf. lia. }
    destruct (from_dict_gen _ _ Hd fuel ND Hh) as (ts2 & F2 & _ & _ & Rt2). { intros n I. now apply KN. } assert (ts2 = ts) by congruence. subst ts2.
    intros t It Z. pose proof (Sh t It) as S. destruct t as [n cs]. cbn in Z. subst cs. inversion S as [? ? Ek _]; subst. cbn in Ek.
    apply (in_map tname) in It. apply Rt2 in It as [It _]. apply KN in It. cbn in It. congruence. }
  assert (VN : forall x, In x (flat_map all_names ts) -> In x (map cn l)).
  { intros x X. apply in_flat_map in X as (t & It & X).
    assert (A : forall t x, In x (all_names t) -> x = tname t \/ exists p c, In (p, c, x) (edges t)).
    { clear. apply (tree_ind' (fun t => forall x, In x (all_names t) -> x = tname t \/ exists p c, In (p, c, x) (edges t))). intros n cs IH x [<-|X]; auto. right.
      apply in_flat_map in X as (c & Ic & X). cbn [edges]. destruct (IH c Ic x X) as [->|(p & b & I)].
      - exists n, (fst c). apply in_flat_map. exists c. split; auto. now left.
      - exists p, b. apply in_flat_map. exists c. split; auto. now right. }
    destruct (A t x X) as [->|(p & c & I)].
    - destruct t as [n [|c0 cs0]] eqn:Et; [destruct (EN t); subst; auto|]. apply (C n (fst c0) (tname (snd c0))). apply (Permutation_in _ P). apply in_flat_map. exists t. subst t. split; auto. cbn. now left.
    - assert (D : In (p, c, x) (declared l)). { apply (Permutation_in _ P). apply in_flat_map. eauto. } apply declared_name in D as (v & V & <- & _). now apply in_map. }
  unfold subspaces. cbn [structure vars]. destruct ts as [|t0 ts0]; [congruence|]. remember (t0 :: ts0) as ts eqn:Ets.
  replace (existsb _ ts) with false. 2:{ symmetry. apply not_true_iff_false. intros X. apply existsb_exists in X as (t & It & X). specialize (EN t It). destruct (children t); congruence. }
  replace (forallb _ _) with true; auto. symmetry. apply forallb_forall. intros [k v] I. apply forallb_forall. intros x X. apply mem_In. unfold unconditional in I. apply in_map_iff in I as ([k' v'] & [= <- <-] & I).
  cbn in X. apply in_app_or in X as [X|X]; auto. apply psets_In in I as [I|[]]. apply VN. eapply product_names; eauto.
Qed.
Print Assumptions C255_subspaces_partial.
(** Refuted: a sub-space with the selector but without the variables that depend on it has no unconditional sub-spaces. *)
Theorem C255_selector_refuted : forall set_of iso fuel, exists s s', construct (S (S (S fuel))) ANone three = Ok s /\ getitem (S (S (S fuel))) s [0; 2] = Ok s' /\
  structure s' = [Node "x" []] /\ subspaces set_of s' iso = Err TypeE.
Proof. intros. eexists. eexists. repeat split; reflexivity. Qed.
Print Assumptions C255_selector_refuted.
(** Refuted: in those of a sub-space with both, the variable appears twice. *)
Theorem C255_twice_refuted : forall set_of fuel, is_set set_of -> exists s s', construct (S (S (S fuel))) ANone three = Ok s /\ getitem (S (S (S fuel))) s [0; 1; 2] = Ok s' /\
  subspaces set_of s ["b"] = Ok [(["x == 1"], ["b"; "a"])] /\ subspaces set_of s' ["b"] = Ok [(["x == 1"], ["b"; "a"; "a"])].
Proof.
  intros set_of fuel [S1 S2]. assert (E1 : forall l, l <> [] -> (forall x, In x l -> x = "x == 1") -> set_of l = ["x == 1"]).
  { intros l NE A. pose proof (S1 l) as N. assert (B : forall x, In x (set_of l) -> x = "x == 1") by (intros x X; apply A, S2, X).
    assert (I : In "x == 1" (set_of l)). { apply S2. destruct l as [|y l]; [congruence|]. rewrite <- (A y (or_introl eq_refl)). now left. }
    destruct (set_of l) as [|u [|w r]]; [destruct I|rewrite (B u (or_introl eq_refl)); reflexivity|]. inversion N as [|? ? N1 _]; subst. exfalso. apply N1. rewrite (B u (or_introl eq_refl)), (B w (or_intror (or_introl eq_refl))). now left. }
  exists (CS three [Node "x" [("x == 1", Node "a" [])]]), (CS three [Node "x" [("x == 1", Node "a" []); ("x == 1", Node "a" [])]]).
  split; [reflexivity|]. split; [reflexivity|]. unfold subspaces. cbn [structure vars three map cn].
  assert (P1 : all_paths set_of (Node "x" [("x == 1", Node "a" [])]) = [(["x == 1"], ["a"])]).
  { cbn [all_paths map fst]. rewrite E1; [reflexivity|discriminate|]. intros x [<-|[]]. reflexivity. }
  assert (P2 : all_paths set_of (Node "x" [("x == 1", Node "a" []); ("x == 1", Node "a" [])]) = [(["x == 1"], ["a"; "a"])]).
  { cbn [all_paths map fst]. rewrite E1; [reflexivity|discriminate|]. intros x [<-|[<-|[]]]; reflexivity. }
  unfold unconditional. cbn [map]. rewrite P1, P2. split; reflexivity.
Qed.
Print Assumptions C255_twice_refuted.
(** A space made of one variable object twice renames the variable, also for everybody else who holds it. *)
Theorem C255_renames_refuted v w : forall h sp, Model_Space.set_data [v; w] [1; 1] = (h, sp) ->
  Model_Space.vn (Model_Space.deref h 1) = Model_Space.vn w ++ "1".
Proof.
  intros h sp [= <- _]. unfold Model_Space.write_names, Model_Space.new_names. cbn [map seq List.length combine fold_left fst snd]. cbn [Model_Space.deref nth Model_Space.set_name].
  unfold Model_Space.new_name, Model_Space.count_name. cbn [nth firstn filter]. rewrite String.eqb_refl. cbn. rewrite ?String.eqb_refl. reflexivity.
Qed.
Print Assumptions C255_renames_refuted.
Example C255_example : subspaces (fun l => nodup string_dec l) (CS three [Node "x" [("x == 1", Node "a" [])]]) ["b"] = Ok [(["x == 1"], ["b"; "a"])].
Proof. reflexivity. Qed.

(** ** C256: the sum of spaces. *)
(** Spaces without trees (their conditions refer to variables elsewhere, or there are none): the sum has the conditions of both. *)
Theorem C256_sum_partial s t : structure s = [] -> structure t = [] -> NoDup (map cn (vars s ++ vars t)) -> closed (vars s ++ vars t) -> acyclic (vars s ++ vars t) ->
  exists depth, forall fuel, depth <= fuel -> exists r, plus fuel s t = Ok r /\ vars r = (vars s ++ vars t)%list /\
    Permutation (flat_map edges (structure r)) (declared (vars s) ++ declared (vars t)) /\ NoDup (flat_map all_names (structure r)).
Proof.
  intros Es Et N C A. destruct (C253_conditions_partial _ N C A) as (depth & H). exists depth. intros fuel Hf. destruct (H fuel Hf) as (r & E & V & P & NN). exists r.
  split; [|split; [exact V|split; [|exact NN]]].
  - unfold plus. rewrite Es, Et. exact E.
  - rewrite P. unfold declared. rewrite flat_map_app. reflexivity.
Qed.
Print Assumptions C256_sum_partial.
(** Refuted: if one of the spaces has a tree, the sum raises. *)
Theorem C256_sum_refuted s t fuel : (structure s ++ structure t <> [])%list -> plus fuel s t = Err UnboundLocalE.
Proof. unfold plus, construct, set_structure. destruct (structure s ++ structure t)%list as [|u r]; [congruence|]. reflexivity. Qed.
Print Assumptions C256_sum_refuted.
Example C256_example : let s := CS [CV "a" (Some ("x", "x == 1"))] [] in let t := CS [CV "x" None] [] in
  construct 9 ANone (vars s) = Ok s /\ construct 9 ANone (vars t) = Ok t /\
  plus 9 s t = Ok (CS [CV "a" (Some ("x", "x == 1")); CV "x" None] [Node "x" [("x == 1", Node "a" [])]]).
Proof. repeat split; reflexivity. Qed.

(** ** C257: the in-place operations do to the conditions what the others do. *)
Lemma filter_NoDup_names f l : NoDup (map cn l) -> NoDup (map cn (filter f l)).
Proof.
  induction l as [|v l IH]; cbn; auto. intros H. inversion H as [|? ? A B]; subst. destruct (f v); cbn; auto. constructor; auto.
  intros I. apply A. apply in_map_iff in I as (w & E & I). apply filter_In in I as [I _]. rewrite <- E. now apply in_map.
Qed.
(** Without conditions they agree. *)
Theorem C257_in_place_partial s t fuel : (forall v, In v (vars s ++ vars t) -> cc v = None) -> structure s = [] -> structure t = [] ->
  NoDup (map cn (vars s)) -> minus fuel s t = Ok (iminus s t) /\ plus fuel s t = Ok (iplus s t).
Proof.
  intros NC Es Et N. unfold minus, iminus, plus, iplus, restrict, construct. rewrite Es, Et. cbn [map app].
  assert (R : forall l, (forall v, In v l -> cc v = None) -> forall v, In v (renamed l) -> cc v = None).
  { intros l H v I. unfold renamed in I. apply in_map_iff in I as ([n w] & <- & I). cbn. apply H. eapply in_combine_r; eauto. }
  set (l := filter _ (vars s)).
  assert (Hl : forall v, In v l -> cc v = None). { intros v I. apply NC, in_or_app. left. now apply filter_In in I as [I _]. }
  assert (NL : NoDup (map cn l)) by (now apply filter_NoDup_names). split.
  - rewrite renamed_id by auto. unfold set_structure. cbn [start nodes option_map forest_dict fold_left]. rewrite !no_conditions by auto. cbn [from_dict build_all map filter option_map fst snd flat_map vars]. rewrite no_conditions by auto. reflexivity.
  - unfold set_structure. cbn [start nodes option_map forest_dict fold_left]. rewrite no_conditions by (apply R; auto). reflexivity.
Qed.
Print Assumptions C257_in_place_partial.
(** Refuted: -= leaves a condition of the variable that is gone, and the unconditional sub-spaces can then not be found. *)
Theorem C257_minus_refuted : forall fuel set_of, is_set set_of -> let t := CS [CV "a" None] [] in exists s r, construct (S (S (S fuel))) ANone three = Ok s /\
  minus (S (S (S fuel))) s t = Ok r /\ structure r = [Node "x" []] /\ vars (iminus s t) = vars r /\ structure (iminus s t) = [Node "x" [("x == 1", Node "a" [])]] /\
  subspaces set_of (iminus s t) ["b"] = Err IndexE.
Proof.
  intros fuel set_of [S1 S2] t. exists (CS three [Node "x" [("x == 1", Node "a" [])]]), (CS [CV "x" None; CV "b" None] [Node "x" []]). repeat (split; [reflexivity|]).
  unfold subspaces. cbn [iminus structure existsb children orb]. unfold unconditional. cbn [map all_paths fst].
  assert (E : set_of ["x == 1"] = ["x == 1"]).
  { pose proof (S1 ["x == 1"]) as N. pose proof (S2 ["x == 1"]) as I. destruct (set_of ["x == 1"]) as [|u [|w r]].
    - destruct (proj2 (I "x == 1")). now left.
    - destruct (proj1 (I u) (or_introl eq_refl)) as [<-|[]]. reflexivity.
    - destruct (proj1 (I u) (or_introl eq_refl)) as [<-|[]]. destruct (proj1 (I w) (or_intror (or_introl eq_refl))) as [<-|[]]. inversion N as [|? ? A _]; subst. destruct A. now left. }
  rewrite E. reflexivity.
Qed.
Print Assumptions C257_minus_refuted.
(** Refuted: += loses a condition between the spaces, and keeps working where + raises. *)
Theorem C257_plus_refuted : forall fuel, let s := CS [CV "a" (Some ("x", "x == 1"))] [] in let t := CS [CV "x" None] [] in
  exists r, plus (S (S (S fuel))) s t = Ok r /\ vars (iplus s t) = vars r /\ structure r = [Node "x" [("x == 1", Node "a" [])]] /\ structure (iplus s t) = [].
Proof. intros fuel s t. eexists. repeat split; reflexivity. Qed.
Print Assumptions C257_plus_refuted.
Example C257_example : let s := CS [CV "x" None; CV "a" None] [] in let t := CS [CV "a" None] [] in
  minus 3 s t = Ok (CS [CV "x" None] []) /\ plus 3 s t = Ok (CS [CV "x" None; CV "a0" None; CV "a1" None] []).
Proof. split; reflexivity. Qed.

(** ** C258: constructing a space does not change the dictionary passed as structure. *)
Theorem C258_argument_partial d l : (forall v, In v l -> cc v = None) -> after d l = d.
Proof. intros NC. unfold after. now apply no_conditions. Qed.
Print Assumptions C258_argument_partial.
Lemma dset_total (d : tdict) k v : list_sum (map (fun p => List.length (snd p)) (dset d k v)) + match get d k with Some w => List.length w | None => 0 end
  = list_sum (map (fun p => List.length (snd p)) d) + List.length v.
Proof.
  induction d as [|[x w] d IH]; cbn; [lia|]. destruct (String.eqb x k); cbn; [lia|]. unfold list_sum, tdict, dict in *. cbn in IH. lia.
Qed.
(** Refuted: whatever the dictionary, it changes as soon as one variable has a condition. *)
Theorem C258_argument_refuted d l v : In v l -> cc v <> None -> after d l <> d.
Proof.
  set (total := fun d : tdict => list_sum (map (fun p => List.length (snd p)) d)).
  assert (A : forall l d, total (scan d l) = total d + List.length (filter (fun v => match cc v with None => false | Some _ => true end) l)).
  { clear. induction l as [|v l IH]; intros d; cbn [scan fold_left filter List.length]; [unfold scan; cbn [fold_left]; lia|]. unfold scan in *. cbn [fold_left]. rewrite IH. destruct (cc v) as [[x c]|]; cbn [List.length]; [|lia].
    unfold dappend. pose proof (dset_total d x (match get d x with Some l0 => l0 ++ [(cn v, c)] | None => [(cn v, c)] end)%list) as T. unfold total. destruct (get d x); rewrite ?app_length in T; cbn [List.length] in T; lia. }
  intros I C E. specialize (A l d). unfold after in E. rewrite E in A.
  assert (F : In v (filter (fun v => match cc v with None => false | Some _ => true end) l)). { apply filter_In. split; auto. destruct (cc v); congruence. }
  destruct (filter _ l); [destruct F|]. cbn in A. lia.
Qed.
Print Assumptions C258_argument_refuted.
(** Refuted: constructing the space a second time from the same arguments gives another space. *)
Theorem C258_again_refuted : forall fuel, let d := [("x", [("b", "x == 2")])] in
  construct (S (S (S fuel))) (ADict d) three = Ok (CS three [Node "x" [("x == 2", Node "b" []); ("x == 1", Node "a" [])]]) /\
  construct (S (S (S fuel))) (ADict (after d three)) three = Ok (CS three [Node "x" [("x == 2", Node "b" []); ("x == 1", Node "a" []); ("x == 1", Node "a" [])]]).
Proof. intros fuel d. split; reflexivity. Qed.
Print Assumptions C258_again_refuted.
Example C258_example : after [("x", [("b", "x == 2")])] three = [("x", [("b", "x == 2"); ("a", "x == 1")])].
Proof. reflexivity. Qed.

(** ** C259: each copy in a replicated space has the conditions of the space. *)
(** One copy. *)
Theorem C259_one_partial s n : n <= 1 -> NoDup (map cn (vars s)) -> closed (vars s) -> acyclic (vars s) ->
  exists depth, forall fuel, depth <= fuel -> exists r, times fuel s n = Ok r /\ vars r = vars s /\
    Permutation (flat_map edges (structure r)) (declared (vars s)) /\ NoDup (flat_map all_names (structure r)).
Proof.
  intros L N C A. unfold times. replace (Nat.max 1 n) with 1 by lia. cbn [repeat List.concat]. rewrite app_nil_r. apply C253_conditions_partial; auto.
Qed.
Print Assumptions C259_one_partial.
(** Refuted: two copies have no conditions. *)
Theorem C259_copies_refuted : forall fuel, exists s r, construct (S (S (S fuel))) ANone three = Ok s /\ structure s <> [] /\
  times (S (S (S fuel))) s 2 = Ok r /\ map cn (vars r) = ["x0"; "a0"; "b0"; "x1"; "a1"; "b1"] /\ structure r = [].
Proof. intros fuel. eexists. eexists. split; [reflexivity|]. split; [discriminate|]. repeat split; reflexivity. Qed.
Print Assumptions C259_copies_refuted.
Example C259_example : times 9 (CS three [Node "x" [("x == 1", Node "a" [])]]) 1 = Ok (CS three [Node "x" [("x == 1", Node "a" [])]]).
Proof. reflexivity. Qed.
