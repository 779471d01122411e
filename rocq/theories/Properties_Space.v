(** Properties C41-C48 and C86: operations on search spaces. *)
From Coq Require Import Bool Arith ZArith QArith String List Lia Permutation.
From Verif Require Import Lib_List Model_Var Model_Opt Proofs_Ask Proofs_Var Model_Space Proofs_Space.
Import ListNotations.
Open Scope nat_scope.

(** Vocabulary.  [variables h s] are the variables of the space s as a user sees them.
    [proper_space h s] holds after construction: no dangling or repeated references, and the list
    of names is that of the variables.  [strip v] is the variable without its name. *)
Definition named_in (keys : list string) (v : vobj) : bool := existsb (String.eqb (vn v)) keys.
(** No variable that existed before has changed. *)
Definition untouched (h h' : heap) : Prop := forall r, r < length h -> deref h' r = deref h r.

Lemma map_deref_filter (h : heap) P (rs : list nat) :
  map (deref h) (filter (fun r => P (deref h r)) rs) = filter P (map (deref h) rs).
Proof. induction rs as [|r rs IH]; simpl; [reflexivity|]. destruct (P (deref h r)); simpl; rewrite IH; reflexivity. Qed.

Lemma filter_space_spec h s keys invert h' t : proper_space h s -> filter_space h s keys invert = (h', t) ->
  map strip (variables h' t) = map strip (filter (fun v => xorb invert (named_in keys v)) (variables h s)) /\
  proper_space h' t /\
  (NoDup (names s) -> h' = h /\ variables h' t = filter (fun v => xorb invert (named_in keys v)) (variables h s)).
Proof.
  intros HP H. unfold filter_space, select in H. rewrite (mask_data h s keys invert HP) in H.
  set (P := fun v => xorb invert (named_in keys v)).
  change (filter (fun r => xorb invert (existsb (String.eqb (vn (deref h r))) keys)) (data s))
    with (filter (fun r => P (deref h r)) (data s)) in H.
  assert (V : valid h (filter (fun r => P (deref h r)) (data s))).
  { intros r Hr. apply filter_In in Hr. apply (proj1 HP). apply Hr. }
  assert (N : NoDup (filter (fun r => P (deref h r)) (data s))) by (apply NoDup_filter; apply HP).
  split; [|split].
  - rewrite (sd_vars_strip _ _ _ _ H). unfold variables. rewrite <- map_deref_filter, map_map. reflexivity.
  - exact (set_data_proper _ _ _ _ H V N).
  - intro ND. rewrite (proper_names h s HP) in ND.
    assert (ND' : NoDup (get_names h (filter (fun r => P (deref h r)) (data s)))) by (apply NoDup_map_filter; exact ND).
    split; [exact (sd_id _ _ _ _ H V N ND')|].
    rewrite (sd_vars_id _ _ _ _ H V N ND'). unfold variables. rewrite map_deref_filter. reflexivity.
Qed.

(** C41, filter: for every space and key set the two results hold the selected and the remaining
    variables, in order.  If the names are distinct nothing is renamed and nothing else changes. *)
Theorem C41_filter_splits :
  forall h s keys h1 t h2 u, proper_space h s ->
    filter_space h s keys false = (h1, t) -> filter_space h s keys true = (h2, u) ->
    map strip (variables h1 t) = map strip (filter (named_in keys) (variables h s)) /\
    map strip (variables h2 u) = map strip (filter (fun v => negb (named_in keys v)) (variables h s)) /\
    (NoDup (names s) -> h1 = h /\ h2 = h /\
       variables h1 t = filter (named_in keys) (variables h s) /\
       variables h2 u = filter (fun v => negb (named_in keys v)) (variables h s)).
Proof.
  intros h s keys h1 t h2 u HP H1 H2.
  destruct (filter_space_spec h s keys false h1 t HP H1) as (A1&_&C1).
  destruct (filter_space_spec h s keys true h2 u HP H2) as (A2&_&C2).
  assert (E1 : forall l, filter (fun v => xorb false (named_in keys v)) l = filter (named_in keys) l).
  { intro l. apply filter_ext. intro v. destruct (named_in keys v); reflexivity. }
  assert (E2 : forall l, filter (fun v => xorb true (named_in keys v)) l = filter (fun v => negb (named_in keys v)) l).
  { intro l. apply filter_ext. intro v. destruct (named_in keys v); reflexivity. }
  rewrite E1 in A1, C1. rewrite E2 in A2, C2. repeat split; try assumption; [apply C1|apply C2|apply C1|apply C2]; assumption.
Qed.
Print Assumptions C41_filter_splits.

(** C41, subtraction (distinct names): exactly the variables of a whose name is not in b. *)
Theorem C41_subtraction_partial :
  forall h a b h' t, proper_space h a -> NoDup (names a) -> sub_space h a b = (h', t) ->
    variables h' t = filter (fun v => negb (named_in (names b) v)) (variables h a) /\ untouched h h'.
Proof.
  intros h a b h' t HP ND H. unfold sub_space in H. rewrite (sub_data h a b HP ND) in H.
  set (P := fun v => negb (named_in (names b) v)).
  change (filter (fun r => negb (existsb (String.eqb (vn (deref h r))) (names b))) (data a))
    with (filter (fun r => P (deref h r)) (data a)) in H.
  set (rs := filter (fun r => P (deref h r)) (data a)) in *.
  destruct (copies h rs) as [h1 cs] eqn:EC. destruct (copies_deref _ _ _ _ EC) as (D1&D2&D3&D4).
  assert (V : valid h1 cs) by (intros r Hr; rewrite D3 in Hr; apply in_seq in Hr; lia).
  assert (N : NoDup cs) by (rewrite D3; apply seq_NoDup).
  assert (ND' : NoDup (get_names h1 cs)).
  { unfold get_names. rewrite <- (map_map (deref h1) vn), D1, map_map. apply NoDup_map_filter.
    rewrite (proper_names h a HP) in ND. exact ND. }
  split.
  - rewrite (sd_vars_id _ _ _ _ H V N ND'), D1. unfold rs, variables. apply map_deref_filter.
  - intros r Hr. rewrite (sd_id _ _ _ _ H V N ND'). apply D2. exact Hr.
Qed.
Print Assumptions C41_subtraction_partial.

(** C41, concatenation of two or more spaces: all variables in order; the operands do not change;
    nothing is renamed if all names are distinct. *)
Theorem C41_concatenation :
  forall h ss h' t, (forall s, In s ss -> proper_space h s) -> length ss <> 1 -> concat_space h ss = (h', t) ->
    map strip (variables h' t) = map strip (flat_map (variables h) ss) /\ untouched h h' /\
    (NoDup (flat_map names ss) -> variables h' t = flat_map (variables h) ss).
Proof.
  intros h ss h' t HP L H.
  assert (H' : (let '(h1, rs) := copies h (flat_map data ss) in set_data h1 rs) = (h', t)).
  { destruct ss as [|s [|s' ss]]; simpl in *; try lia; exact H. }
  clear H. destruct (copies h (flat_map data ss)) as [h1 cs] eqn:EC. destruct (copies_deref _ _ _ _ EC) as (D1&D2&D3&D4).
  assert (V : valid h1 cs) by (intros r Hr; rewrite D3 in Hr; apply in_seq in Hr; lia).
  assert (N : NoDup cs) by (rewrite D3; apply seq_NoDup).
  assert (E : map (deref h) (flat_map data ss) = flat_map (variables h) ss).
  { clear. induction ss as [|s ss IH]; simpl; [reflexivity|]. rewrite map_app, IH. reflexivity. }
  split; [|split].
  - rewrite (sd_vars_strip _ _ _ _ H'). rewrite <- E, <- D1, map_map. reflexivity.
  - intros r Hr. rewrite (sd_other _ _ _ _ H' V); [apply D2; exact Hr|]. rewrite D3, in_seq. lia.
  - intro ND. rewrite (sd_vars_id _ _ _ _ H' V N); [rewrite D1; exact E|].
    unfold get_names. rewrite <- (map_map (deref h1) vn), D1, E.
    assert (EN : map vn (flat_map (variables h) ss) = flat_map names ss).
    { clear -HP. induction ss as [|s ss IH]; simpl; [reflexivity|]. rewrite map_app, IH by (intros; apply HP; right; assumption).
      f_equal. symmetry. apply (HP s). left. reflexivity. }
    rewrite EN. exact ND.
Qed.
Print Assumptions C41_concatenation.

(** A small vocabulary of witnesses. *)
Definition rv (n : string) : vobj := mkV n (KReal 0 1 None) None "linear".
Definition iv (n : string) : vobj := mkV n (KInt 0 9 1) None "".
Definition fresh (vs : list vobj) : heap * space := set_data vs (seq 0 (length vs)).
Lemma fresh_proper vs h s : fresh vs = (h, s) -> proper_space h s.
Proof.
  intro H. apply (set_data_proper _ _ _ _ H); [|apply seq_NoDup]. intros r Hr. apply in_seq in Hr. lia.
Qed.

(** Refuted for repeated names (reachable by construction, see C43): SearchSpace([x, x, x0]) has the
    names x0, x1, x0, and subtracting a space without these names drops the third variable. *)
Theorem C41_subtraction_refuted :
  exists vs h s b h' t, fresh vs = (h, s) /\ sub_space h s b = (h', t) /\
    names b = [] /\ length (variables h' t) < length (variables h s).
Proof.
  exists [rv "x"; rv "x"; rv "x0"]. destruct (fresh [rv "x"; rv "x"; rv "x0"]) as [h s] eqn:E.
  exists h, s, (mkSp [] []). destruct (sub_space h s (mkSp [] [])) as [h' t] eqn:F. exists h', t.
  vm_compute in E. injection E as <- <-. vm_compute in F. injection F as <- <-. vm_compute. auto.
Qed.
Print Assumptions C41_subtraction_refuted.

Example C41_example :
  let '(h, s) := fresh [rv "a"; iv "b"; rv "c"] in
  proper_space h s /\ NoDup (names s) /\
  (let '(h1, t) := filter_space h s ["c"; "a"; "z"]%string false in map vn (variables h1 t)) = ["a"; "c"]%string /\
  (let '(h1, t) := filter_space h s ["c"; "a"; "z"]%string true in map vn (variables h1 t)) = ["b"]%string /\
  (let '(h1, t) := concat_space h [s; s] in map vn (variables h1 t)) = ["a0"; "b0"; "c0"; "a1"; "b1"; "c1"]%string.
Proof.
  destruct (fresh [rv "a"; iv "b"; rv "c"]) as [h s] eqn:E. pose proof (fresh_proper _ _ _ E) as P.
  vm_compute in E. injection E as <- <-. split; [exact P|]. split.
  - simpl. repeat (constructor; [simpl; intuition discriminate|]). constructor.
  - vm_compute. auto.
Qed.

(** * C42 *)
(** For N >= 2: the same variables, names included, N copies of the original ones. *)
Theorem C42_replication_partial :
  forall h s N h1 t h2 u, proper_space h s -> 2 <= N ->
    mul_space h s N = (h1, t) -> imul_space h s N = (h2, u) ->
    variables h1 t = variables h2 u /\
    map strip (variables h2 u) = concat (repeat (map strip (variables h s)) N) /\
    length (variables h1 t) = N * length (variables h s).
Proof.
  intros h s N h1 t h2 u HP HN H1 H2. unfold mul_space in H1. unfold imul_space in H2.
  replace (Nat.max 1 N) with N in H1 by lia. replace (Nat.max 1 (N - 1)) with (N - 1) in H2 by lia.
  destruct (copies h (concat (repeat (data s) N))) as [g1 c1] eqn:E1.
  destruct (copies h (concat (repeat (data s) (N - 1)))) as [g2 c2] eqn:E2.
  destruct (copies_deref _ _ _ _ E1) as (A1&A2&A3&A4). destruct (copies_deref _ _ _ _ E2) as (B1&B2&B3&B4).
  destruct HP as (V&ND&HC).
  assert (V1 : valid g1 c1) by (intros r Hr; rewrite A3 in Hr; apply in_seq in Hr; lia).
  assert (N1 : NoDup c1) by (rewrite A3; apply seq_NoDup).
  assert (V2 : valid g2 (data s ++ c2)).
  { intros r Hr. apply in_app_or in Hr. destruct Hr as [Hr|Hr]; [apply V in Hr; lia|]. rewrite B3 in Hr. apply in_seq in Hr. lia. }
  assert (N2 : NoDup (data s ++ c2)).
  { apply NoDup_app_intro; [exact ND|rewrite B3; apply seq_NoDup|]. intros r Hr Hc. apply V in Hr. rewrite B3 in Hc. apply in_seq in Hc. lia. }
  assert (M : forall n, map (deref h) (concat (repeat (data s) n)) = concat (repeat (variables h s) n)).
  { induction n as [|n IH]; simpl; [reflexivity|]. rewrite map_app, IH. reflexivity. }
  assert (G1 : map (deref g1) c1 = concat (repeat (variables h s) N)) by (rewrite A1; apply M).
  assert (G2 : map (deref g2) (data s ++ c2) = concat (repeat (variables h s) N)).
  { rewrite map_app, B1, M. replace N with (S (N - 1)) at 2 by lia. cbn [repeat concat]. f_equal.
    unfold variables. apply map_ext_in. intros r Hr. apply B2. apply V. exact Hr. }
  assert (GN : get_names g1 c1 = get_names g2 (data s ++ c2)).
  { unfold get_names. rewrite <- (map_map (deref g1) vn), <- (map_map (deref g2) vn), G1, G2. reflexivity. }
  assert (EQ : variables h1 t = variables h2 u).
  { rewrite (sd_vars _ _ _ _ H1 V1 N1), (sd_vars _ _ _ _ H2 V2 N2), G1, G2, GN. reflexivity. }
  split; [exact EQ|]. split.
  - rewrite (sd_vars_strip _ _ _ _ H2). rewrite <- (map_map (deref g2) strip), G2.
    clear. induction N as [|N IH]; simpl; [reflexivity|]. rewrite map_app, IH. reflexivity.
  - unfold variables at 1. rewrite map_length, (sd_data _ _ _ _ H1), A3, seq_length.
    unfold variables. rewrite map_length. clear. induction N as [|N IH]; simpl; [reflexivity|]. rewrite app_length, IH. reflexivity.
Qed.
Print Assumptions C42_replication_partial.

(** For N = 0 and N = 1 the product is a copy of the space: the same variables, new names apart. *)
Theorem C42_at_most_one :
  forall h s N h1 t, proper_space h s -> N <= 1 -> mul_space h s N = (h1, t) ->
    map strip (variables h1 t) = map strip (variables h s) /\ (forall r, In r (data t) -> ~ In r (data s)).
Proof.
  intros h s N h1 t HP HN H1. unfold mul_space in H1. replace (Nat.max 1 N) with 1 in H1 by lia.
  cbn [repeat concat] in H1. rewrite app_nil_r in H1. destruct (copies h (data s)) as [g1 c1] eqn:E1.
  destruct (copies_deref _ _ _ _ E1) as (A1&A2&A3&A4). destruct HP as (V&ND&HC).
  assert (V1 : valid g1 c1) by (intros r Hr; rewrite A3 in Hr; apply in_seq in Hr; lia).
  assert (N1 : NoDup c1) by (rewrite A3; apply seq_NoDup).
  split.
  - rewrite (sd_vars_strip _ _ _ _ H1). transitivity (map strip (map (deref g1) c1)); [rewrite map_map; reflexivity|]. rewrite A1. reflexivity.
  - intros r Hr Hs. rewrite (sd_data _ _ _ _ H1), A3 in Hr. apply in_seq in Hr. apply V in Hs. lia.
Qed.
Print Assumptions C42_at_most_one.

(** Refuted for N = 1, for every non-empty space: s *= 1 doubles the space. *)
Theorem C42_replication_refuted :
  forall h s h1 t h2 u, proper_space h s -> data s <> [] ->
    mul_space h s 1 = (h1, t) -> imul_space h s 1 = (h2, u) ->
    length (variables h1 t) = length (variables h s) /\
    length (variables h2 u) = 2 * length (variables h s) /\ variables h1 t <> variables h2 u.
Proof.
  intros h s h1 t h2 u HP NE H1 H2. unfold mul_space in H1. unfold imul_space in H2.
  simpl in H1, H2. rewrite app_nil_r in H1, H2.
  assert (L1 : length (variables h1 t) = length (data s)).
  { unfold variables. rewrite map_length, (sd_data _ _ _ _ H1), seq_length. reflexivity. }
  assert (L2 : length (variables h2 u) = length (data s) + length (data s)).
  { unfold variables. rewrite map_length, (sd_data _ _ _ _ H2), app_length, seq_length. reflexivity. }
  assert (L : length (variables h s) = length (data s)) by apply map_length.
  assert (0 < length (data s)) by (destruct (data s); [congruence|simpl; lia]).
  repeat split; try lia. intro E. rewrite E in L1. lia.
Qed.
Print Assumptions C42_replication_refuted.

Example C42_example :
  let '(h, s) := fresh [rv "a"; iv "b"] in
  proper_space h s /\ data s <> [] /\
  (let '(h1, t) := imul_space h s 3 in map vn (variables h1 t)) = ["a0"; "b0"; "a1"; "b1"; "a2"; "b2"]%string /\
  (let '(h1, t) := imul_space h s 1 in map vn (variables h1 t)) = ["a0"; "b0"; "a1"; "b1"]%string.
Proof.
  destruct (fresh [rv "a"; iv "b"]) as [h s] eqn:E. pose proof (fresh_proper _ _ _ E) as P.
  vm_compute in E. injection E as <- <-. split; [exact P|]. split; [discriminate|]. vm_compute. auto.
Qed.

(** * C43 *)
(** Refuted: the suffix can produce a name that is already there. *)
Theorem C43_unique_names_refuted :
  exists vs h s, fresh vs = (h, s) /\ ~ NoDup (names s).
Proof.
  exists [rv "x"; rv "x"; rv "x0"]. destruct (fresh [rv "x"; rv "x"; rv "x0"]) as [h s] eqn:E. exists h, s.
  split; [reflexivity|]. vm_compute in E. injection E as <- <-. simpl. intro H. inversion H as [|? ? N _]; subst. apply N. simpl. auto.
Qed.
Print Assumptions C43_unique_names_refuted.

(** Unique if no repeated name followed by digits is another name of the list.  Distinct names are
    kept as they are. *)
Theorem C43_unique_names_partial :
  forall h rs h' s, valid h rs -> NoDup rs -> set_data h rs = (h', s) ->
    let given := map (fun r => vn (deref h r)) rs in
    (forall n m, In n given -> In m given -> (exists i j, i <> j /\ nth_error given i = Some n /\ nth_error given j = Some n) ->
       ~ (exists digits, digits <> EmptyString /\ all_digits digits /\ m = (n ++ digits)%string)) ->
    NoDup (names s) /\ names s = map vn (variables h' s) /\ (NoDup given -> names s = given).
Proof.
  intros h rs h' s V N H given HE. rewrite (sd_names _ _ _ _ H V N). split; [|split].
  - apply new_names_NoDup. intros n m Hn Hm C. apply (HE n m Hn Hm).
    change (get_names h rs) with given in *. clear - C. unfold count_name in C.
    induction given as [|x l IH]; simpl in C; [lia|]. destruct (String.eqb n x) eqn:E.
    + apply String.eqb_eq in E. subst x. destruct (filter (String.eqb n) l) as [|y t] eqn:F; [simpl in C; lia|].
      assert (I : In y (filter (String.eqb n) l)) by (rewrite F; left; reflexivity). apply filter_In in I.
      destruct I as [I1 I2]. apply String.eqb_eq in I2. subst y. apply In_nth_error in I1. destruct I1 as [j Hj].
      exists 0, (S j). split; [lia|]. split; [reflexivity|exact Hj].
    + destruct (IH C) as (i&j&A&B&D). exists (S i), (S j). split; [lia|]. auto.
  - rewrite <- (sd_names _ _ _ _ H V N). exact (sd_cached _ _ _ _ H).
  - intro ND. apply new_names_id. exact ND.
Qed.
Print Assumptions C43_unique_names_partial.

Example C43_example : names (snd (fresh [rv "x"; iv "y"; rv "x"])) = ["x0"; "y"; "x1"]%string.
Proof. reflexivity. Qed.
