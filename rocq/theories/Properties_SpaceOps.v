(** Properties C44-C48 and C86: type indices, update, aliasing, membership, equality, selection. *)
From Coq Require Import Bool Arith ZArith QArith String List Lia Permutation.
From Verif Require Import Lib_List Model_Var Model_Opt Proofs_Ask Proofs_Var Model_Space Proofs_Space Properties_Space.
Import ListNotations.
Open Scope nat_scope.

(** * C44 *)
Lemma nonzero_In m i : In i (nonzero m) <-> nth i m false = true.
Proof.
  unfold nonzero. rewrite filter_In, in_seq. split; [tauto|]. intro H. split; [|exact H].
  destruct (Nat.lt_ge_cases i (length m)); [lia|]. rewrite nth_overflow in H by lia. discriminate.
Qed.
Lemma nonzero_NoDup m : NoDup (nonzero m).
Proof. apply NoDup_filter, seq_NoDup. Qed.
Definition has_type (h : heap) (s : space) (t : string) (i : nat) : Prop :=
  exists v, nth_error (variables h s) i = Some v /\ type_name (vk v) = t.
Lemma mask_spec t h s i : nth i (mask t h s) false = true <-> has_type h s t i.
Proof.
  unfold has_type, mask, types, variables. rewrite !map_map.
  destruct (nth_error (data s) i) as [r|] eqn:E.
  - rewrite (nth_error_nth (map _ (data s)) i false (x := String.eqb (type_name (vk (deref h r))) t));
      [|rewrite nth_error_map, E; reflexivity].
    rewrite String.eqb_eq. rewrite nth_error_map, E. simpl. split.
    + intro H. exists (deref h r). auto.
    + intros (v&H&T). injection H as <-. exact T.
  - apply nth_error_None in E. rewrite nth_overflow by (rewrite map_length; exact E). split; [discriminate|].
    intros (v&H&_). apply nth_error_None in E. rewrite nth_error_map, E in H. discriminate.
Qed.
Lemma id_spec t h s i : In i (nonzero (mask t h s)) <-> has_type h s t i.
Proof. rewrite nonzero_In. apply mask_spec. Qed.
Lemma has_type_fun h s t u i : has_type h s t i -> has_type h s u i -> t = u.
Proof. intros (v&H&T) (w&H'&T'). congruence. Qed.

(** The groups partition the positions and hold exactly the variables of their type; the list of
    categorical positions and five of the six type masks agree with them.  Not provable: the
    subset and categorical masks, see below. *)
Theorem C44_type_index_partial :
  forall h s, let ix := set_index h s in
    Permutation (real_id ix ++ integer_id ix ++ ordinal_id ix ++ discrete_id ix ++ bool_id ix ++ subset_id ix)
                (seq 0 (length (variables h s))) /\
    Permutation (categorical_id ix) (discrete_id ix ++ ordinal_id ix ++ bool_id ix ++ subset_id ix) /\
    (forall t ids, In (t, ids) [("Real", real_id ix); ("Integer", integer_id ix); ("Ordinal", ordinal_id ix);
                                ("Discrete", discrete_id ix); ("Bool", bool_id ix); ("Subset", subset_id ix)]%string ->
       forall i, In i ids <-> has_type h s t i) /\
    (forall m ids, In (m, ids) [(real_mask ix, real_id ix); (integer_mask ix, integer_id ix); (ordinal_mask ix, ordinal_id ix);
                                (discrete_mask ix, discrete_id ix); (bool_mask ix, bool_id ix)] ->
       forall i, In i ids <-> nth i m false = true).
Proof.
  intros h s ix.
  assert (IDS : forall t ids, In (t, ids) [("Real", real_id ix); ("Integer", integer_id ix); ("Ordinal", ordinal_id ix);
                                ("Discrete", discrete_id ix); ("Bool", bool_id ix); ("Subset", subset_id ix)]%string ->
       forall i, In i ids <-> has_type h s t i).
  { intros t ids H i. simpl in H.
    repeat (destruct H as [H|H]; [injection H as <- <-; apply id_spec|]). destruct H. }
  assert (ND : forall t ids, In (t, ids) [("Real", real_id ix); ("Integer", integer_id ix); ("Ordinal", ordinal_id ix);
                                ("Discrete", discrete_id ix); ("Bool", bool_id ix); ("Subset", subset_id ix)]%string -> NoDup ids).
  { intros t ids H. simpl in H.
    repeat (destruct H as [H|H]; [injection H as <- <-; apply nonzero_NoDup|]). destruct H. }
  split; [|split; [apply Permutation_refl|split; [exact IDS|]]].
  - assert (R := fun i => IDS "Real"%string (real_id ix) (or_introl eq_refl) i).
    assert (I := fun i => IDS "Integer"%string (integer_id ix) (or_intror (or_introl eq_refl)) i).
    assert (O := fun i => IDS "Ordinal"%string (ordinal_id ix) (or_intror (or_intror (or_introl eq_refl))) i).
    assert (D := fun i => IDS "Discrete"%string (discrete_id ix) (or_intror (or_intror (or_intror (or_introl eq_refl)))) i).
    assert (B := fun i => IDS "Bool"%string (bool_id ix) (or_intror (or_intror (or_intror (or_intror (or_introl eq_refl))))) i).
    assert (Z := fun i => IDS "Subset"%string (subset_id ix) (or_intror (or_intror (or_intror (or_intror (or_intror (or_introl eq_refl)))))) i).
    apply NoDup_Permutation.
    + assert (N : forall l t, (forall i, In i l <-> has_type h s t i) ->
         forall m, (forall i, In i m -> exists u, u <> t /\ has_type h s u i) -> NoDup l -> NoDup m -> NoDup (l ++ m)).
      { intros l t Hl m Hm Nl Nm. apply NoDup_app_intro; [exact Nl|exact Nm|]. intros i Hi Hj.
        destruct (Hm i Hj) as (u&Hu&HT). apply Hu. apply Hl in Hi. exact (has_type_fun h s u t i HT Hi). }
      repeat (first [eapply N; [eassumption| |apply nonzero_NoDup|]]).
      6: apply nonzero_NoDup.
      all: intros i Hi; rewrite ?in_app_iff in Hi; repeat (destruct Hi as [Hi|Hi]);
        first [apply I in Hi|apply O in Hi|apply D in Hi|apply B in Hi|apply Z in Hi]; (eexists; split; [|exact Hi]); discriminate.
    + apply seq_NoDup.
    + intro i. rewrite !in_app_iff, R, I, O, D, B, Z, in_seq. unfold has_type.
      destruct (nth_error (variables h s) i) as [v|] eqn:E.
      * assert (i < length (variables h s)) by (apply nth_error_Some; congruence).
        split; [lia|]. intros _. destruct (vk v) eqn:K;
          [left|right; left|do 3 right; left|do 2 right; left|do 5 right|do 4 right; left]; exists v; rewrite K; split; reflexivity.
      * apply nth_error_None in E. split; [|lia]. intros H.
        repeat (destruct H as [H|H]); destruct H as (v&H&_); discriminate.
  - intros m ids H i. simpl in H.
    repeat (destruct H as [H|H]; [injection H as <- <-; apply nonzero_In|]). destruct H.
Qed.
Print Assumptions C44_type_index_partial.

(** Refuted for every space with a Subset variable: that position is listed in categorical_id but not
    marked in categorical_mask, nor in subset_mask. *)
Theorem C44_type_index_refuted :
  forall h s i, has_type h s "Subset"%string i -> let ix := set_index h s in
    In i (categorical_id ix) /\ nth i (categorical_mask ix) false = false /\ nth i (subset_mask ix) false = false.
Proof.
  intros h s i H ix. split.
  - unfold ix, set_index. cbn [categorical_id]. rewrite !in_app_iff, !id_spec. auto.
  - assert (F : forall t, t <> "Subset"%string -> nth i (mask t h s) false = false).
    { intros t Ht. apply not_true_is_false. intro E. apply mask_spec in E. apply Ht. exact (has_type_fun h s t _ i E H). }
    assert (M : forall a b, length a = length b -> nth i a false = false -> nth i b false = false -> nth i (map2 orb a b) false = false).
    { intros a b L A B. unfold map2. destruct (Nat.lt_ge_cases i (length a)) as [C|C].
      - rewrite (nth_error_nth _ i false (x := orb (nth i a false) (nth i b false))); [rewrite A, B; reflexivity|].
        rewrite nth_error_map. rewrite (nth_error_nth' (combine a b) (false, false)); [|rewrite combine_length; lia].
        rewrite combine_nth by exact L. reflexivity.
      - apply nth_overflow. rewrite map_length, combine_length. lia. }
    assert (L : forall t, length (mask t h s) = length (data s)) by (intro t; unfold mask, types; rewrite !map_length; reflexivity).
    assert (S : nth i (subset_mask ix) false = false).
    { unfold ix, set_index. cbn [subset_mask]. apply M; [rewrite !L; reflexivity|apply F; discriminate|apply F; discriminate]. }
    split; [|exact S]. unfold ix, set_index in *. cbn [categorical_mask subset_mask] in *. apply M; [|apply F; discriminate|exact S].
    unfold map2. rewrite map_length, combine_length, !L. lia.
Qed.
Print Assumptions C44_type_index_refuted.

Example C44_example :
  let '(h, s) := fresh [rv "a"; mkV "b" (KSubset [VI 1; VI 2]) None ""; iv "c"; mkV "d" KBool None ""; rv "e"] in
  has_type h s "Subset" 1 /\ real_id (set_index h s) = [0; 4] /\ categorical_id (set_index h s) = [3; 1] /\
  categorical_mask (set_index h s) = [false; false; false; true; false].
Proof. split; [exists (mkV "b" (KSubset [VI 1; VI 2]) None ""); split; reflexivity|]. vm_compute. auto. Qed.

(** * C45 *)
(** Dictionary semantics on the lists of variables: replace by name, then append the new ones. *)
Definition dict_update (va vb : list vobj) : list vobj :=
  map (fun v => match find (fun w => String.eqb (vn w) (vn v)) vb with Some w => w | None => v end) va ++
  filter (fun w => negb (named_in (map vn va) w)) vb.

Lemma filter_none {A} (P : A -> bool) l : (forall x, In x l -> P x = false) -> filter P l = [].
Proof.
  induction l as [|x l IH]; intro H; simpl; [reflexivity|]. rewrite (H x (or_introl eq_refl)). apply IH. intros; apply H; right; assumption.
Qed.
Lemma np_match_nil l : np_match l [] = [].
Proof.
  unfold np_match. destruct l as [|n [|m l]]; reflexivity.
Qed.
Lemma np_match_one l n : NoDup l -> np_match l [n] = match index_of n l with Some i => [i] | None => [] end.
Proof.
  intro ND. unfold np_match. destruct (index_of n l) as [i|] eqn:E.
  - destruct (index_of_nth _ _ _ E) as [H _].
    assert (L : i < length l) by (apply nth_error_Some; congruence).
    assert (S : seq 0 (length l) = seq 0 i ++ i :: seq (S i) (length l - S i)).
    { replace (length l) with (i + S (length l - S i)) at 1 by lia. rewrite seq_app. reflexivity. }
    assert (Z : forall q, (forall j, In j q -> j <> i /\ j < length l) -> filter (fun j => String.eqb (nth j l EmptyString) n) q = []).
    { induction q as [|j q IH]; intro Hq; simpl; [reflexivity|].
      destruct (String.eqb (nth j l EmptyString) n) eqn:F; [|apply IH; intros; apply Hq; right; assumption].
      exfalso. destruct (Hq j (or_introl eq_refl)) as [Ne Lj]. apply Ne. apply String.eqb_eq in F.
      apply (proj1 (NoDup_nth l EmptyString) ND j i Lj L). rewrite F. symmetry. apply nth_error_nth. exact H. }
    rewrite S, filter_app. cbn [filter]. rewrite (nth_error_nth l i _ H), String.eqb_refl.
    rewrite !Z; [reflexivity| |]; intros j Hj; apply in_seq in Hj; lia.
  - apply index_of_none in E. apply filter_none. intros j Hj. apply in_seq in Hj.
    apply not_true_is_false. intro F. apply String.eqb_eq in F. apply E. rewrite <- F. apply nth_In. lia.
Qed.

Lemma update_at_nth_error {A} (l : list A) i x j :
  nth_error (update_at l i (fun _ => x)) j = if i =? j then option_map (fun _ => x) (nth_error l j) else nth_error l j.
Proof.
  revert i j. induction l as [|y l IH]; intros [|i] [|j]; simpl; try reflexivity.
  - destruct (i =? j); reflexivity.
  - apply IH.
Qed.
Lemma map_update_at {A B} (f : A -> B) (l : list A) i x :
  map f (update_at l i (fun _ => x)) = update_at (map f l) i (fun _ => f x).
Proof. revert i. induction l as [|y l IH]; intros [|i]; simpl; try reflexivity. rewrite IH. reflexivity. Qed.
Lemma update_at_In {A} (l : list A) i (x y : A) : In y (update_at l i (fun _ => x)) -> In y l \/ y = x.
Proof.
  revert i. induction l as [|z l IH]; intros [|i] H; simpl in *; try tauto.
  - destruct H; auto.
  - destruct H as [H|H]; auto. destruct (IH _ H); auto.
Qed.
Lemma update_at_NoDup {A} (l : list A) i (x : A) : NoDup l -> ~ In x l -> NoDup (update_at l i (fun _ => x)).
Proof.
  revert i. induction l as [|z l IH]; intros [|i] H N; simpl in *; auto; inversion H; subst; constructor.
  - tauto.
  - assumption.
  - intro I. apply update_at_In in I. destruct I as [I|I]; [tauto|subst; tauto].
  - apply IH; tauto.
Qed.
Lemma update_at_same {A} (l : list A) i (x : A) : nth_error l i = Some x -> update_at l i (fun _ => x) = l.
Proof. revert i. induction l as [|z l IH]; intros [|i] H; simpl in *; try discriminate; [congruence|]. f_equal. auto. Qed.

Lemma find_name n (vb : list vobj) j : index_of n (map vn vb) = Some j ->
  find (fun w => String.eqb (vn w) n) vb = nth_error vb j.
Proof.
  revert j. induction vb as [|w vb IH]; intros j H; simpl in *; [discriminate|]. rewrite String.eqb_sym in H.
  destruct (String.eqb (vn w) n); [injection H as <-; reflexivity|].
  destruct (index_of n (map vn vb)) as [k|]; [|discriminate]. injection H as <-. simpl. apply IH. reflexivity.
Qed.
Lemma find_name_none n (vb : list vobj) : ~ In n (map vn vb) -> find (fun w => String.eqb (vn w) n) vb = None.
Proof.
  induction vb as [|w vb IH]; simpl; intro H; [reflexivity|]. destruct (String.eqb (vn w) n) eqn:E.
  - apply String.eqb_eq in E. tauto.
  - apply IH. tauto.
Qed.

(** Replacing by name. *)
Lemma replace_none va vb : (forall n, In n (map vn va) -> ~ In n (map vn vb)) ->
  map (fun v => match find (fun w => String.eqb (vn w) (vn v)) vb with Some w => w | None => v end) va = va.
Proof.
  intro H. transitivity (map (fun v : vobj => v) va); [|apply map_id]. apply map_ext_in. intros v Hv.
  rewrite find_name_none; [reflexivity|]. apply H. apply in_map. exact Hv.
Qed.
Lemma replace_one va vb n i j w : NoDup (map vn va) -> nth_error (map vn va) i = Some n ->
  index_of n (map vn vb) = Some j -> nth_error vb j = Some w ->
  (forall m, In m (map vn va) -> In m (map vn vb) -> m = n) ->
  map (fun v => match find (fun w => String.eqb (vn w) (vn v)) vb with Some w => w | None => v end) va
  = update_at va i (fun _ => w).
Proof.
  intros ND Hi Hj Hw HU. apply nth_error_ext. intro k. rewrite nth_error_map, update_at_nth_error.
  destruct (nth_error va k) as [v|] eqn:E; simpl; [|destruct (i =? k); reflexivity].
  assert (Ek : nth_error (map vn va) k = Some (vn v)) by (rewrite nth_error_map, E; reflexivity).
  destruct (i =? k) eqn:F.
  - apply Nat.eqb_eq in F. subst k. assert (vn v = n) by congruence. subst n.
    rewrite (find_name _ _ _ Hj), Hw. reflexivity.
  - apply Nat.eqb_neq in F. rewrite find_name_none; [reflexivity|]. intro I. apply F.
    assert (vn v = n) by (apply HU; [eapply nth_error_In; exact Ek|exact I]). subst n.
    apply (proj1 (NoDup_nth_error (map vn va)) ND); [apply nth_error_Some; congruence|congruence].
Qed.

(** With at most one shared and at most one new name, update does what the documentation says. *)
Theorem C45_update_partial :
  forall h a b upd new, proper_space h a -> proper_space h b -> NoDup (names a) -> NoDup (names b) ->
    (forall r, In r (data a) -> ~ In r (data b)) ->
    NoDup upd -> (forall n, In n upd <-> In n (names b) /\ In n (names a)) ->
    NoDup new -> (forall n, In n new <-> In n (names b) /\ ~ In n (names a)) ->
    length upd <= 1 -> length new <= 1 ->
    exists h' s, update_space h a b upd new = Some (h', s) /\
      variables h' s = dict_update (variables h a) (variables h b) /\ untouched h h'.
Proof.
  intros h a b upd new HA HB NA NB DIS NU HU NW HW LU LW.
  pose proof HA as (VA&DA&CA). pose proof HB as (VB&DB&CB).
  (* the appended variables *)
  assert (ADD : exists adds, map (fun j => nth j (data b) 0) (np_match (names b) new) = adds /\
            map (deref h) adds = filter (fun w => negb (named_in (map vn (variables h a)) w)) (variables h b) /\
            NoDup adds /\ (forall r, In r adds -> In r (data b))).
  { exists (map (fun j => nth j (data b) 0) (np_match (names b) new)). split; [reflexivity|].
    destruct new as [|n [|? ?]]; [| |simpl in LW; lia].
    - rewrite np_match_nil. simpl. split; [|split; [constructor|intros r []]]. symmetry. apply filter_none. intros w Hw.
      apply negb_false_iff. apply existsb_names. rewrite <- CA.
      destruct (in_dec string_dec (vn w) (names a)) as [I|I]; [exact I|]. exfalso.
      apply (proj2 (HW (vn w))). split; [|exact I]. rewrite CB. apply in_map. exact Hw.
    - rewrite (np_match_one _ _ NB). destruct (proj1 (HW n) (or_introl eq_refl)) as [Ib Ia].
      destruct (index_of n (names b)) as [k|] eqn:K; [|apply index_of_none in K; contradiction].
      destruct (index_of_nth _ _ _ K) as [Hk _]. simpl.
      rewrite CB in Hk. rewrite nth_error_map in Hk. destruct (nth_error (variables h b) k) as [w|] eqn:W; [|discriminate].
      injection Hk as Hn. unfold variables in W. rewrite nth_error_map in W.
      destruct (nth_error (data b) k) as [r|] eqn:R; [|discriminate]. injection W as W.
      rewrite (nth_error_nth _ _ 0 R). split; [|split; [constructor; [intros []|constructor]|intros q [<-|[]]; eapply nth_error_In; exact R]].
      rewrite W. assert (FI : forall vs, NoDup (map vn vs) -> In w vs ->
         (forall x, In x vs -> vn x = n \/ In (vn x) (names a)) ->
         filter (fun w => negb (named_in (map vn (variables h a)) w)) vs = [w]).
      { clear - CA Ia Hn. induction vs as [|x vs IH]; intros ND HI HX; [destruct HI|]. simpl in ND. inversion ND as [|? ? N D]; subst.
        simpl. destruct HI as [->|HI].
        - replace (named_in (map vn (variables h a)) w) with false.
          + simpl. f_equal. apply filter_none. intros y Hy. apply negb_false_iff, existsb_names.
            rewrite <- CA. destruct (HX y (or_intror Hy)) as [E|E]; [|exact E]. exfalso. apply N. rewrite <- E. apply in_map. exact Hy.
          + symmetry. apply not_true_is_false. unfold named_in. rewrite existsb_names, <- CA. exact Ia.
        - replace (named_in (map vn (variables h a)) x) with true.
          + simpl. apply IH; [exact D|exact HI|]. intros y Hy. apply HX. right. exact Hy.
          + symmetry. apply existsb_names. rewrite <- CA. destruct (HX x (or_introl eq_refl)) as [E|E]; [|exact E].
            exfalso. apply N. rewrite E. apply in_map. exact HI. }
      rewrite FI; [reflexivity| | |].
      + rewrite <- CB. exact NB.
      + unfold variables. rewrite <- W. apply in_map. eapply nth_error_In. exact R.
      + intros x Hx. destruct (in_dec string_dec (vn x) (names a)) as [I|I]; [right; exact I|]. left.
        assert (In (vn x) [n]) as [E|[]]; [|symmetry; exact E]. apply HW. split; [|exact I]. rewrite CB. apply in_map. exact Hx. }
  destruct ADD as (adds&EA&MA&NAD&IAD).
  assert (FIN : forall h1 d, length h <= length h1 -> (forall q, q < length h -> deref h1 q = deref h q) ->
      valid h1 d -> NoDup d -> (forall r, In r d -> ~ In r adds) ->
      map (deref h1) d = map (fun v => match find (fun w => String.eqb (vn w) (vn v)) (variables h b) with Some w => w | None => v end) (variables h a) ->
      exists h' s, Some (set_data h1 (d ++ adds)) = Some (h', s) /\
        variables h' s = dict_update (variables h a) (variables h b) /\ untouched h h').
  { intros h1 d LL KEEP Vd Nd Dd Md. destruct (set_data h1 (d ++ adds)) as [h' s] eqn:E. exists h', s. split; [reflexivity|].
    assert (V : valid h1 (d ++ adds)).
    { intros r Hr. apply in_app_or in Hr. destruct Hr as [Hr|Hr]; [auto|]. apply IAD in Hr. apply VB in Hr. lia. }
    assert (N : NoDup (d ++ adds)) by (apply NoDup_app_intro; auto).
    assert (M : map (deref h1) (d ++ adds) = dict_update (variables h a) (variables h b)).
    { rewrite map_app, Md. unfold dict_update. f_equal. rewrite <- MA. apply map_ext_in. intros r Hr. apply KEEP. apply VB, IAD, Hr. }
    assert (ND : NoDup (get_names h1 (d ++ adds))).
    { unfold get_names. rewrite <- (map_map (deref h1) vn), M. unfold dict_update. rewrite map_app.
      assert (NM : map vn (map (fun v => match find (fun w => String.eqb (vn w) (vn v)) (variables h b) with Some w => w | None => v end) (variables h a)) = names a).
      { rewrite map_map, CA. apply map_ext. intro v. destruct (find _ (variables h b)) as [w|] eqn:F; [|reflexivity].
        apply find_some in F. apply String.eqb_eq. apply F. }
      rewrite NM. apply NoDup_app_intro; [exact NA| |].
      - apply NoDup_map_filter. rewrite <- CB. exact NB.
      - intros n Hn Hm. apply in_map_iff in Hm. destruct Hm as (w&<-&Hw). apply filter_In in Hw. destruct Hw as [_ Hw].
        apply negb_true_iff in Hw. rewrite CA in Hn. apply existsb_names in Hn. unfold named_in in Hw. congruence. }
    split.
    - rewrite (sd_vars_id _ _ _ _ E V N ND). exact M.
    - intros r Hr. rewrite (sd_id _ _ _ _ E V N ND). apply KEEP. exact Hr. }
  unfold update_space. rewrite EA.
  destruct upd as [|n [|? ?]]; [| |simpl in LU; lia].
  - rewrite !np_match_nil. simpl. rewrite app_nil_r. apply (FIN h (data a)); auto.
    + intros r Hr Hq. apply IAD in Hq. exact (DIS r Hr Hq).
    + symmetry. apply (replace_none (variables h a)). intros n Hn Hm. rewrite <- CA in Hn. rewrite <- CB in Hm. apply (proj2 (HU n)). auto.
  - destruct (proj1 (HU n) (or_introl eq_refl)) as [Ib Ia].
    rewrite (np_match_one _ _ NA), (np_match_one _ _ NB).
    destruct (index_of n (names a)) as [i|] eqn:KI; [|apply index_of_none in KI; contradiction].
    destruct (index_of n (names b)) as [j|] eqn:KJ; [|apply index_of_none in KJ; contradiction].
    cbn [length Nat.ltb Nat.leb combine map fst snd].
    destruct (copies h [nth j (data b) 0]) as [h1 cs] eqn:EC. destruct (copies_deref _ _ _ _ EC) as (D1&D2&D3&D4).
    simpl in D1, D3, D4. rewrite D3 in *. clear D3. cbn [combine fold_left fst snd].
    destruct (index_of_nth _ _ _ KI) as [Hi _]. destruct (index_of_nth _ _ _ KJ) as [Hj _].
    assert (Hw : nth_error (variables h b) j = Some (deref h (nth j (data b) 0))).
    { unfold variables. rewrite nth_error_map. rewrite CB in Hj. unfold variables in Hj. rewrite map_map, nth_error_map in Hj.
      destruct (nth_error (data b) j) as [r|] eqn:R; [|discriminate]. rewrite (nth_error_nth _ _ 0 R). reflexivity. }
    apply (FIN h1 (update_at (data a) i (fun _ => length h))); auto.
    + lia.
    + intros r Hr. apply update_at_In in Hr. destruct Hr as [Hr|Hr]; [apply VA in Hr; lia|lia].
    + apply update_at_NoDup; [exact DA|]. intro I. apply VA in I. lia.
    + intros r Hr Hq. apply IAD in Hq. apply update_at_In in Hr. destruct Hr as [Hr| ->]; [exact (DIS r Hr Hq)|]. apply VB in Hq. lia.
    + rewrite (map_update_at (deref h1)). injection D1 as D1. rewrite D1. rewrite CA in Hi, NA. rewrite CB in KJ.
      rewrite (replace_one _ _ n i j _ NA Hi KJ Hw).
      * f_equal. unfold variables. apply map_ext_in. intros r Hr. apply D2, VA, Hr.
      * intros m Hm Hm'. rewrite <- CA in Hm. rewrite <- CB in Hm'. assert (In m [n]) as [E|[]]; [apply HU; auto|]. symmetry. exact E.
Qed.
Print Assumptions C45_update_partial.

(** Refuted: two of three names are shared, whatever order Python's set takes.  Nothing is replaced. *)
Theorem C45_update_refuted :
  exists h a b, proper_space h a /\ proper_space h b /\ NoDup (names a) /\ NoDup (names b) /\
    forall upd, Permutation upd ["x"; "y"]%string ->
      exists h' s, update_space h a b upd [] = Some (h', s) /\
        variables h' s = variables h a /\ variables h' s <> dict_update (variables h a) (variables h b).
Proof.
  exists [rv "x"; rv "y"; rv "z"; iv "x"; iv "y"], (mkSp [0; 1; 2] ["x"; "y"; "z"]%string), (mkSp [3; 4] ["x"; "y"]%string).
  split; [|split; [|split; [|split]]].
  - split; [|split; [|reflexivity]]; [intros r Hr; simpl in *; intuition lia|repeat (constructor; [simpl; intuition discriminate|]); constructor].
  - split; [|split; [|reflexivity]]; [intros r Hr; simpl in *; intuition lia|repeat (constructor; [simpl; intuition discriminate|]); constructor].
  - repeat (constructor; [simpl; intuition discriminate|]); constructor.
  - repeat (constructor; [simpl; intuition discriminate|]); constructor.
  - intros upd HP. assert (L : length upd = 2) by (rewrite (Permutation_length HP); reflexivity).
    destruct upd as [|m [|n [|? ?]]]; try discriminate.
    assert (E : update_space [rv "x"; rv "y"; rv "z"; iv "x"; iv "y"] (mkSp [0; 1; 2] ["x"; "y"; "z"]%string)
                 (mkSp [3; 4] ["x"; "y"]%string) [m; n] [] = Some (set_data [rv "x"; rv "y"; rv "z"; iv "x"; iv "y"] [0; 1; 2])).
    { unfold update_space, np_match. cbn [names data length Nat.eqb Nat.ltb combine map copies fold_left].
      match goal with |- context [?x <? 0] => destruct x end; reflexivity. }
    rewrite E. eexists. eexists. split; [vm_compute; reflexivity|]. split; [reflexivity|discriminate].
Qed.
Print Assumptions C45_update_refuted.

Example C45_example :
  exists h' s, update_space [rv "x"; rv "y"; iv "w"; iv "y"] (mkSp [0; 1] ["x"; "y"]%string) (mkSp [2; 3] ["w"; "y"]%string) ["y"%string] ["w"%string]
    = Some (h', s) /\ variables h' s = [rv "x"; iv "y"; iv "w"].
Proof. eexists. eexists. split; vm_compute; reflexivity. Qed.

(** * C46 *)
(** a + b: the kinds, bounds and defaults of existing variables never change; a variable that is not
    in b keeps its name; if the names of a and b are all distinct nothing changes. *)
Theorem C46_operands_partial :
  forall h a b h' t, proper_space h a -> proper_space h b -> add_space h a b = (h', t) ->
    (forall r, r < length h -> strip (deref h' r) = strip (deref h r)) /\
    (forall r, r < length h -> ~ In r (data b) -> deref h' r = deref h r) /\
    (NoDup (names a ++ names b) -> untouched h h' /\ variables h' t = variables h a ++ variables h b) /\
    map strip (variables h' t) = map strip (variables h a ++ variables h b).
Proof.
  intros h a b h' t HA HB H. unfold add_space in H. destruct HA as (VA&DA&CA). destruct HB as (VB&DB&CB).
  destruct (copies h (data a)) as [h1 cs] eqn:EC. destruct (copies_deref _ _ _ _ EC) as (D1&D2&D3&D4).
  assert (V : valid h1 (cs ++ data b)).
  { intros r Hr. apply in_app_or in Hr. rewrite D3, in_seq in Hr. destruct Hr as [Hr|Hr]; [lia|apply VB in Hr; lia]. }
  assert (N : NoDup (cs ++ data b)).
  { apply NoDup_app_intro; [rewrite D3; apply seq_NoDup|exact DB|]. intros r Hr Hb. apply VB in Hb. rewrite D3, in_seq in Hr. lia. }
  assert (M : map (deref h1) (cs ++ data b) = variables h a ++ variables h b).
  { rewrite map_app, D1. f_equal. unfold variables. apply map_ext_in. intros r Hr. apply D2, VB, Hr. }
  split; [|split; [|split]].
  - intros r Hr. rewrite (sd_strip _ _ _ _ H), D2 by exact Hr. reflexivity.
  - intros r Hr Hb. rewrite (sd_other _ _ _ _ H V); [apply D2, Hr|]. rewrite in_app_iff, D3, in_seq. intros [|]; [lia|contradiction].
  - intro ND. assert (G : NoDup (get_names h1 (cs ++ data b))).
    { unfold get_names. rewrite <- (map_map (deref h1) vn), M, map_app, <- CA, <- CB. exact ND. }
    split.
    + intros r Hr. rewrite (sd_id _ _ _ _ H V N G). apply D2, Hr.
    + rewrite (sd_vars_id _ _ _ _ H V N G). exact M.
  - rewrite (sd_vars_strip _ _ _ _ H), <- (map_map (deref h1) strip), M. reflexivity.
Qed.
Print Assumptions C46_operands_partial.

(** Refuted: with a common name, evaluating a + b renames the variable of b; the space b then has a
    cached name that none of its variables carries. *)
Theorem C46_operands_refuted :
  exists h a b h' t, proper_space h a /\ proper_space h b /\ add_space h a b = (h', t) /\
    map vn (variables h b) = ["x"%string] /\ map vn (variables h' b) = ["x1"%string] /\ names b = ["x"%string].
Proof.
  exists [rv "x"; iv "x"], (mkSp [0] ["x"%string]), (mkSp [1] ["x"%string]). eexists. eexists.
  split; [|split; [|split; [vm_compute; reflexivity|auto]]].
  - split; [|split; [|reflexivity]]; [intros r Hr; simpl in *; intuition lia|constructor; [intros []|constructor]].
  - split; [|split; [|reflexivity]]; [intros r Hr; simpl in *; intuition lia|constructor; [intros []|constructor]].
Qed.
Print Assumptions C46_operands_refuted.

Example C46_example :
  let '(h', t) := add_space [rv "x"; iv "y"] (mkSp [0] ["x"%string]) (mkSp [1] ["y"%string]) in
  variables h' t = [rv "x"; iv "y"] /\ firstn 2 h' = [rv "x"; iv "y"].
Proof. vm_compute. auto. Qed.

(** * C47 *)
Lemma sequence_Some {A} (l : list (option A)) bs : sequence l = Some bs <-> l = map Some bs.
Proof.
  revert bs. induction l as [|[x|] l IH]; intros bs; simpl.
  - split; [intro H; injection H as <-; reflexivity|]. destruct bs; [reflexivity|discriminate].
  - destruct (sequence l) as [r|]; simpl.
    + split.
      * intro H. injection H as <-. simpl. f_equal. apply IH. reflexivity.
      * destruct bs as [|b bs]; simpl; intro H; [discriminate|]. injection H as -> H. f_equal. f_equal.
        assert (E : Some r = Some bs) by (apply IH; exact H). congruence.
    + split; [discriminate|]. destruct bs as [|b bs]; simpl; intro H; [discriminate|]. injection H as -> H.
      assert (E : None = Some bs) by (apply IH; exact H). discriminate.
  - split; [discriminate|]. destruct bs; simpl; discriminate.
Qed.
Lemma contains_list_spec h s x :
  contains_list h s x = Some true <->
  (forall i v, nth_error x i = Some v -> exists w, nth_error (variables h s) i = Some w /\ contains (vk w) v = Some true).
Proof.
  unfold contains_list, variables.
  set (f := fun p : nat * val => match nth_error (data s) (fst p) with Some r => contains (vk (deref h r)) (snd p) | None => None end).
  assert (NE : forall i, nth_error (map f (combine (seq 0 (length x)) x)) i = option_map (fun v => f (i, v)) (nth_error x i)).
  { intro i. rewrite nth_error_map. assert (G : forall (y : list val) k, nth_error (combine (seq k (length y)) y) i = option_map (fun v => (k + i, v)) (nth_error y i)).
    { clear. intros y. revert i. induction y as [|b y IH]; intros i k; simpl; [destruct i; reflexivity|].
      destruct i as [|i]; simpl; [rewrite Nat.add_0_r; reflexivity|]. rewrite IH. rewrite Nat.add_succ_r. reflexivity. }
    rewrite G. destruct (nth_error x i); reflexivity. }
  split.
  - intros H i v Hv. destruct (sequence (map f (combine (seq 0 (length x)) x))) as [bs|] eqn:E; [|discriminate].
    simpl in H. injection H as H. apply sequence_Some in E. pose proof (NE i) as Q. rewrite E, Hv in Q. simpl in Q.
    rewrite nth_error_map in Q. destruct (nth_error bs i) as [b|] eqn:B; [|discriminate]. simpl in Q. injection Q as Q.
    rewrite forallb_forall in H. rewrite (H b (nth_error_In _ _ B)) in Q. unfold f in Q. simpl in Q.
    rewrite nth_error_map. destruct (nth_error (data s) i) as [r|]; [|discriminate]. exists (deref h r). auto.
  - intro H. assert (E : sequence (map f (combine (seq 0 (length x)) x)) = Some (repeat true (length x))).
    { apply sequence_Some. apply nth_error_ext. intro i. rewrite NE, nth_error_map.
      destruct (nth_error x i) as [v|] eqn:Hv; simpl.
      - destruct (H i v Hv) as (w&Hw&Hc). assert (L : i < length x) by (apply nth_error_Some; congruence).
        rewrite (nth_error_repeat true L). simpl. unfold f. simpl. rewrite nth_error_map in Hw.
        destruct (nth_error (data s) i) as [r|]; [|discriminate]. injection Hw as <-. f_equal. exact Hc.
      - apply nth_error_None in Hv. rewrite (proj2 (nth_error_None _ _)); [reflexivity|]. rewrite repeat_length. exact Hv. }
    rewrite E. simpl. f_equal. clear. induction (length x); simpl; auto.
Qed.

(** A value a variable admits: a number between the bounds, both included, or one of the levels. *)
Definition admits (v : vobj) (y : val) : Prop :=
  match vk v with
  | KReal lb ub _ => exists q, as_num y = Some q /\ (lb <= q)%Q /\ (q <= ub)%Q
  | KInt lb ub _ => exists q, as_num y = Some q /\ (inject_Z lb <= q)%Q /\ (q <= inject_Z ub)%Q
  | k => exists w, In w (levels k) /\ val_eqb y w = true
  end.
Lemma contains_admits v y : contains (vk v) y = Some true <-> admits v y.
Proof.
  assert (G : forall l, Some (existsb (val_eqb y) l) = Some true <-> exists w, In w l /\ val_eqb y w = true).
  { intro l. rewrite <- existsb_exists. split; [intro H; injection H; auto|intros ->; reflexivity]. }
  assert (B : forall lb ub, match as_num y with Some q => Some (Qle_bool lb q && Qle_bool q ub) | None => None end = Some true <->
                            exists q, as_num y = Some q /\ (lb <= q)%Q /\ (q <= ub)%Q).
  { intros lb ub. split.
    - destruct (as_num y) as [q|]; [|discriminate]. intro H. injection H as H. apply andb_true_iff in H.
      rewrite !Qle_bool_iff in H. exists q. tauto.
    - intros (q&->&H1&H2). apply Qle_bool_iff in H1, H2. rewrite H1, H2. reflexivity. }
  unfold contains, admits. destruct (vk v); auto.
Qed.
Lemma contains_admits_all vs x :
  Forall2 (fun v y => contains (vk v) y = Some true) vs x <-> Forall2 admits vs x.
Proof. split; induction 1; constructor; auto; apply contains_admits; auto. Qed.

(** For lists with one value per variable the answer is exactly componentwise membership; longer
    lists are never members (they raise an exception). *)
Theorem C47_membership_partial :
  forall h s x,
    (length x = length (variables h s) ->
       (contains_list h s x = Some true <-> Forall2 admits (variables h s) x)) /\
    (length (variables h s) < length x -> contains_list h s x = None).
Proof.
  intros h s x. split.
  - intro L. rewrite contains_list_spec, <- contains_admits_all. split.
    + intro H. revert x L H. generalize (variables h s). induction l as [|w l IH]; intros [|y x] L H; simpl in L; try discriminate; constructor.
      * destruct (H 0 y eq_refl) as (w'&E&C). injection E as <-. exact C.
      * apply IH; [congruence|]. intros i v Hv. exact (H (S i) v Hv).
    + intro F. clear L. induction F as [|w y l x C F IH]; intros [|i] v Hv; simpl in *; try discriminate.
      * injection Hv as <-. exists w. auto.
      * apply IH. exact Hv.
  - intro L. unfold contains_list. unfold variables in L. rewrite map_length in L.
    assert (In None (map (fun p => match nth_error (data s) (fst p) with Some r => contains (vk (deref h r)) (snd p) | None => None end)
                      (combine (seq 0 (length x)) x))) as I.
    { apply in_map_iff. exists (length (data s), nth (length (data s)) x (VI 0)). split.
      - simpl. rewrite (proj2 (nth_error_None (data s) (length (data s)))) by lia. reflexivity.
      - replace (length (data s)) with (nth (length (data s)) (seq 0 (length x)) 0) at 1 by (rewrite seq_nth; lia).
        rewrite <- combine_nth by apply seq_length. apply nth_In. rewrite combine_length, seq_length. lia. }
    revert I. generalize (map (fun p => match nth_error (data s) (fst p) with Some r => contains (vk (deref h r)) (snd p) | None => None end)
                      (combine (seq 0 (length x)) x)). induction l as [|o l IH]; intro I; [destruct I|].
    destruct I as [->|I]; [reflexivity|]. simpl. destruct o; [|reflexivity]. specialize (IH I).
    destruct (sequence l); simpl in *; [discriminate|reflexivity].
Qed.
Print Assumptions C47_membership_partial.

(** Refuted, for every space and every admissible assignment: each proper prefix is accepted too, down
    to the empty list. *)
Theorem C47_membership_refuted :
  forall h s x k, Forall2 admits (variables h s) x ->
    contains_list h s (firstn k x) = Some true.
Proof.
  intros h s x k F. apply contains_admits_all in F. apply contains_list_spec. revert k. induction F as [|w y l x C F IH]; intros [|k] [|i] v Hv; simpl in *; try discriminate.
  - injection Hv as <-. exists w. auto.
  - exact (IH k i v Hv).
Qed.
Print Assumptions C47_membership_refuted.

Example C47_example :
  let '(h, s) := fresh [rv "a"; iv "b"] in
  contains_list h s [VR (1#2); VI 3] = Some true /\ contains_list h s [VR (3#2); VI 3] = Some false /\
  contains_list h s [] = Some true /\ contains_list h s [VR (1#2); VI 3; VI 3] = None.
Proof. vm_compute. auto. Qed.

(** * C48 *)
Lemma list_eqb_refl {A} (f : A -> A -> bool) : (forall x, f x x = true) -> forall l, list_eqb f l l = true.
Proof. intros H l. induction l as [|x l IH]; simpl; [reflexivity|]. rewrite H, IH. reflexivity. Qed.
Lemma opt_eqb_refl o : opt_eqb val_eqb o o = true.
Proof. destruct o; simpl; [apply val_eqb_refl|reflexivity]. Qed.
Lemma var_eqb_refl v : var_eqb v v = true.
Proof. unfold var_eqb, tuple_eqb. rewrite !String.eqb_refl, val_eqb_refl, opt_eqb_refl. reflexivity. Qed.
Lemma var_eqb_sym v w : var_eqb v w = var_eqb w v.
Proof.
  unfold var_eqb, tuple_eqb. rewrite (String.eqb_sym (type_name (vk v))), (String.eqb_sym (vn v)), (val_eqb_sym (VT (vbounds (vk v)))).
  f_equal. f_equal. destruct (vdef v), (vdef w); simpl; try reflexivity. apply val_eqb_sym.
Qed.
Lemma var_eqb_trans u v w : var_eqb u v = true -> var_eqb v w = true -> var_eqb u w = true.
Proof.
  unfold var_eqb, tuple_eqb. rewrite !andb_true_iff, !String.eqb_eq. intros (((A1&A2)&A3)&A4) (((B1&B2)&B3)&B4).
  split; [split; [split; [congruence|eapply val_eqb_trans; eassumption]|]|congruence].
  destruct (vdef u), (vdef v), (vdef w); simpl in *; try discriminate; try reflexivity. eapply val_eqb_trans; eassumption.
Qed.
Lemma in_set_mem hash v l : in_set hash v l = true <->
  exists w, In w l /\ hash (hash_key v) = hash (hash_key w) /\ var_eqb v w = true.
Proof.
  unfold in_set. rewrite existsb_exists. split; intros (w&H1&H2); exists w; split; auto.
  - apply andb_true_iff in H2. rewrite Z.eqb_eq in H2. exact H2.
  - apply andb_true_iff. rewrite Z.eqb_eq. exact H2.
Qed.

(** Equality of variables is an equivalence relation, and so is equality of spaces. *)
Theorem C48_equivalence :
  (forall v, var_eqb v v = true) /\ (forall v w, var_eqb v w = true -> var_eqb w v = true) /\
  (forall u v w, var_eqb u v = true -> var_eqb v w = true -> var_eqb u w = true) /\
  (forall hash h, (forall a, space_eqb hash h a a = true) /\
     (forall a b, space_eqb hash h a b = true -> space_eqb hash h b a = true) /\
     (forall a b c, space_eqb hash h a b = true -> space_eqb hash h b c = true -> space_eqb hash h a c = true)).
Proof.
  split; [exact var_eqb_refl|]. split; [intros v w H; rewrite var_eqb_sym; exact H|]. split; [exact var_eqb_trans|].
  intros hash h. unfold space_eqb, set_eqb. split; [|split].
  - intro a. rewrite Nat.eqb_refl. simpl. assert (E : forallb (fun v => in_set hash v (variables h a)) (variables h a) = true).
    { apply forallb_forall. intros v Hv. apply in_set_mem. exists v. split; [exact Hv|]. split; [reflexivity|apply var_eqb_refl]. }
    rewrite E. reflexivity.
  - intros a b H. rewrite !andb_true_iff in *. rewrite Nat.eqb_eq in *. destruct H as (L&P&Q). auto.
  - assert (T : forall l m n, forallb (fun v => in_set hash v m) l = true -> forallb (fun v => in_set hash v n) m = true ->
                 forallb (fun v => in_set hash v n) l = true).
    { intros l m n H1 H2. rewrite forallb_forall in *. intros v Hv. apply H1, in_set_mem in Hv. destruct Hv as (w&Hw&E1&E2).
      apply H2, in_set_mem in Hw. destruct Hw as (z&Hz&F1&F2). apply in_set_mem. exists z. split; [exact Hz|]. split; [congruence|].
      eapply var_eqb_trans; eassumption. }
    intros a b c H1 H2. rewrite !andb_true_iff in *. rewrite Nat.eqb_eq in *. destruct H1 as (L1&P1&Q1), H2 as (L2&P2&Q2).
    split; [congruence|]. split; eapply T; eassumption.
Qed.
Print Assumptions C48_equivalence.

(** Equal hashes, where Python's hash gives equal numbers for equal tuples: for all variables except
    real and integer ones, and for those too if precision, scale and step agree. *)
Theorem C48_hash_partial :
  forall hash : val -> Z, (forall a b, val_eqb a b = true -> hash a = hash b) ->
    forall v w, var_eqb v w = true ->
      (forall lb ub p, vk v = KReal lb ub p -> vscale v = vscale w /\ exists lb' ub', vk w = KReal lb' ub' p) ->
      (forall lb ub st, vk v = KInt lb ub st -> exists lb' ub', vk w = KInt lb' ub' st) ->
      hash (hash_key v) = hash (hash_key w).
Proof.
  intros hash HH v w E HR HI. apply HH. unfold var_eqb in E. rewrite !andb_true_iff, !String.eqb_eq in E. destruct E as (((T&B)&D)&N).
  unfold hash_key. rewrite val_eqb_VT. rewrite N. cbn [app list_eqb]. rewrite val_eqb_refl. fold (tuple_eqb (vbounds (vk v)) (vbounds (vk w))).
  rewrite B. cbn [andb].
  assert (OV : val_eqb (opt_val (vdef v)) (opt_val (vdef w)) = true).
  { destruct (vdef v), (vdef w); simpl in *; try discriminate; try reflexivity. rewrite D. reflexivity. }
  rewrite OV. cbn [andb].
  destruct (vk v) as [lb ub p|lb ub st| | | |] eqn:K.
  - destruct (HR lb ub p eq_refl) as (S&lb'&ub'&K'). rewrite K', S. apply list_eqb_refl. exact val_eqb_refl.
  - destruct (HI lb ub st eq_refl) as (lb'&ub'&K'). rewrite K'. apply list_eqb_refl. exact val_eqb_refl.
  - destruct (vk w); try discriminate. reflexivity.
  - destruct (vk w); try discriminate. reflexivity.
  - destruct (vk w); try discriminate. reflexivity.
  - destruct (vk w); try discriminate. reflexivity.
Qed.
Print Assumptions C48_hash_partial.

(** Refuted: two real variables that compare equal but hash different tuples; two spaces that hold
    them compare unequal for every hash function that separates these tuples. *)
Theorem C48_hash_refuted :
  exists v w, var_eqb v w = true /\ val_eqb (hash_key v) (hash_key w) = false /\
    forall hash, hash (hash_key v) <> hash (hash_key w) ->
      space_eqb hash [v; w] (mkSp [0] ["x"%string]) (mkSp [1] ["x"%string]) = false.
Proof.
  exists (mkV "x" (KReal 0 1 None) None "linear"), (mkV "x" (KReal 0 1 (Some 2%Z)) None "linear").
  split; [reflexivity|]. split; [reflexivity|]. intros hash H.
  unfold space_eqb, set_eqb, in_set. cbn [data length Nat.eqb variables map forallb existsb andb].
  unfold deref. cbn [nth]. apply Z.eqb_neq in H. rewrite H. reflexivity.
Qed.
Print Assumptions C48_hash_refuted.

Example C48_example : var_eqb (iv "a") (iv "a") = true /\ var_eqb (iv "a") (rv "a") = false /\
  (exists lb ub, vk (iv "a") = KInt lb ub 1).
Proof. split; [reflexivity|]. split; [reflexivity|]. exists 0%Z, 9%Z. reflexivity. Qed.

(** * C86 *)
Lemma Some_inj {A} (x y : A) : Some x = Some y -> x = y.
Proof. congruence. Qed.
Lemma filter_true {A} (l : list A) : filter (fun _ => true) l = l.
Proof. induction l as [|x l IH]; simpl; congruence. Qed.
Lemma NoDup_map_nth {A} (l : list A) d idx : NoDup l -> NoDup idx -> (forall i, In i idx -> i < length l) ->
  NoDup (map (fun i => nth i l d) idx).
Proof.
  intros ND. induction idx as [|i idx IH]; intros N H; simpl; [constructor|]. inversion N; subst. constructor.
  - intro I. apply in_map_iff in I. destruct I as (j&E&Hj). assert (j = i); [|subst; contradiction].
    apply (proj1 (NoDup_nth l d) ND); [apply H; right; exact Hj|apply H; left; reflexivity|exact E].
  - apply IH; [assumption|]. intros; apply H; right; assumption.
Qed.

(** Selecting by distinct known names returns exactly these variables in the order asked for; an
    unknown name is an error.  The names of the space must be distinct. *)
Theorem C86_select_by_names :
  forall h s ns, proper_space h s -> NoDup (names s) -> NoDup ns ->
    (forall h' t, select_names h s ns = Some (h', t) ->
       h' = h /\ map vn (variables h' t) = ns /\ (forall v, In v (variables h' t) -> In v (variables h s))) /\
    (select_names h s ns = None <-> exists n, In n ns /\ ~ In n (map vn (variables h s))).
Proof.
  intros h s ns HP ND NS. pose proof HP as (V&DD&C).
  assert (IDX : forall l idx, sequence (map (fun n => index_of n (names s)) l) = Some idx ->
     length idx = length l /\ map (fun i => nth i (names s) EmptyString) idx = l /\ forall i, In i idx -> i < length (names s)).
  { induction l as [|n l IH]; intros idx H; simpl in H.
    - injection H as <-. simpl. repeat split; auto. intros i [].
    - destruct (index_of n (names s)) as [i|] eqn:E; [|discriminate].
      destruct (sequence (map (fun n => index_of n (names s)) l)) as [r|]; [|discriminate]. injection H as <-.
      destruct (IH r eq_refl) as (L&M&B). destruct (index_of_nth _ _ _ E) as [Hi _].
      simpl. rewrite L, M, (nth_error_nth _ _ EmptyString Hi). repeat split; auto.
      intros j [<-|Hj]; [apply nth_error_Some; congruence|auto]. }
  assert (LN : length (names s) = length (data s)) by (rewrite C; unfold variables; rewrite !map_length; reflexivity).
  split.
  - intros h' t H. unfold select_names in H. destruct (sequence (map (fun n => index_of n (names s)) ns)) as [idx|] eqn:E; [|discriminate].
    cbn [option_map] in H. apply Some_inj in H. destruct (IDX ns idx E) as (L&M&B). unfold select in H.
    assert (NI : NoDup idx).
    { apply (NoDup_map_inv (fun i => nth i (names s) EmptyString)). rewrite M. exact NS. }
    set (rs := map (fun i => nth i (data s) 0) idx) in *.
    assert (Vr : valid h rs). { intros r Hr. apply in_map_iff in Hr. destruct Hr as (i&<-&Hi). apply V, nth_In. rewrite <- LN. auto. }
    assert (Nr : NoDup rs) by (apply NoDup_map_nth; [exact DD|exact NI|intros; rewrite <- LN; auto]).
    assert (G : get_names h rs = ns).
    { rewrite <- M. unfold get_names, rs. rewrite map_map. apply map_ext_in. intros i Hi.
      rewrite C. unfold variables. rewrite map_map. symmetry.
      rewrite (nth_error_nth _ i EmptyString (x := vn (deref h (nth i (data s) 0)))); [reflexivity|].
      rewrite nth_error_map, (nth_error_nth' (data s) 0) by (rewrite <- LN; auto). reflexivity. }
    assert (NG : NoDup (get_names h rs)) by (rewrite G; exact NS).
    assert (EV : variables h' t = map (deref h) rs) by (apply (sd_vars_id _ _ _ _ H Vr Nr NG)).
    split; [exact (sd_id _ _ _ _ H Vr Nr NG)|]. split.
    + rewrite EV, map_map. exact G.
    + intros v Hv. rewrite EV in Hv. apply in_map_iff in Hv. destruct Hv as (r&<-&Hr). apply in_map_iff in Hr.
      destruct Hr as (i&<-&Hi). apply in_map. apply nth_In. rewrite <- LN. auto.
  - unfold select_names. rewrite <- C. split.
    + intro H. destruct (sequence (map (fun n => index_of n (names s)) ns)) as [idx|] eqn:E; [discriminate|]. clear - E.
      induction ns as [|n l IH]; simpl in E; [discriminate|]. destruct (index_of n (names s)) eqn:F.
      * destruct (sequence _) eqn:G; [discriminate|]. destruct (IH eq_refl) as (m&A&B). exists m. simpl. auto.
      * exists n. split; [left; reflexivity|]. apply index_of_none. exact F.
    + intros (n&Hn&Hm). apply index_of_none in Hm. assert (sequence (map (fun n => index_of n (names s)) ns) = None) as ->; [|reflexivity].
      clear - Hn Hm. induction ns as [|m l IH]; [destruct Hn|]. simpl. destruct Hn as [->|Hn]; [rewrite Hm; reflexivity|].
      destruct (index_of m (names s)); [|reflexivity]. rewrite (IH Hn). reflexivity.
Qed.
Print Assumptions C86_select_by_names.

(** Removing a name removes exactly that variable and keeps the order; an unknown name is an error. *)
Theorem C86_remove_by_name :
  forall h s n, proper_space h s -> NoDup (names s) ->
    (forall h' t, remove_name h s n = Some (h', t) ->
       h' = h /\ variables h' t = filter (fun v => negb (String.eqb (vn v) n)) (variables h s)) /\
    (remove_name h s n = None <-> ~ In n (map vn (variables h s))).
Proof.
  intros h s n HP ND. pose proof HP as (V&DD&C). unfold remove_name. rewrite <- C. split.
  - intros h' t H. destruct (index_of n (names s)) as [i|] eqn:E; [|discriminate]. cbn [option_map] in H. apply Some_inj in H.
    assert (RM : forall rs k, NoDup (get_names h rs) -> nth_error (get_names h rs) k = Some n ->
              remove_at rs k = filter (fun r => negb (String.eqb (vn (deref h r)) n)) rs).
    { induction rs as [|r rs IH]; intros [|k] N F; simpl in *; try discriminate; inversion N as [|? ? N1 N2]; subst.
      - injection F as F. unfold remove_at. simpl. rewrite F, String.eqb_refl. simpl. symmetry.
        rewrite <- (filter_true rs) at 2. apply filter_ext_in. intros q Hq. apply negb_true_iff, String.eqb_neq. intro Eq.
        apply N1. rewrite F, <- Eq. apply (in_map (fun r => vn (deref h r))). exact Hq.
      - unfold remove_at in *. simpl. rewrite <- (IH k N2 F).
        destruct (String.eqb (vn (deref h r)) n) eqn:Q; [|reflexivity]. exfalso. apply String.eqb_eq in Q. apply N1. rewrite Q.
        eapply nth_error_In. exact F. }
    destruct (index_of_nth _ _ _ E) as [Hi _]. rewrite (proper_names h s HP) in Hi, ND.
    rewrite (RM _ _ ND Hi) in H.
    set (P := fun v => negb (String.eqb (vn v) n)). change (fun r => negb (String.eqb (vn (deref h r)) n)) with (fun r => P (deref h r)) in H.
    assert (Vr : valid h (filter (fun r => P (deref h r)) (data s))) by (intros r Hr; apply filter_In in Hr; apply V, Hr).
    assert (Nr : NoDup (filter (fun r => P (deref h r)) (data s))) by (apply NoDup_filter; exact DD).
    assert (NG : NoDup (get_names h (filter (fun r => P (deref h r)) (data s)))) by (apply NoDup_map_filter; exact ND).
    split; [exact (sd_id _ _ _ _ H Vr Nr NG)|]. rewrite (sd_vars_id _ _ _ _ H Vr Nr NG). unfold variables. apply map_deref_filter.
  - rewrite <- index_of_none. destruct (index_of n (names s)); simpl; split; congruence.
Qed.
Print Assumptions C86_remove_by_name.

Example C86_example :
  let '(h, s) := fresh [rv "a"; iv "b"; rv "c"] in
  proper_space h s /\
  match select_names h s ["c"; "a"]%string with Some (h', t) => map vn (variables h' t) = ["c"; "a"]%string | None => False end /\
  match remove_name h s "b" with Some (h', t) => map vn (variables h' t) = ["a"; "c"]%string | None => False end /\
  select_names h s ["c"; "z"]%string = None.
Proof.
  destruct (fresh [rv "a"; iv "b"; rv "c"]) as [h s] eqn:E. pose proof (fresh_proper _ _ _ E) as P.
  vm_compute in E. injection E as <- <-. split; [exact P|]. vm_compute. auto.
Qed.
