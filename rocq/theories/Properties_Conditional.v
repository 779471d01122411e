(** Properties C70, C72, C79, C105, C106, C107. *)
From Coq Require Import Bool Arith ZArith QArith Lia Permutation String List.
From Verif Require Import Model_Conditional Spec_Conditional.
Import ListNotations.
Open Scope nat_scope.

Lemma eqb_neq a b : a <> b -> String.eqb a b = false.
Proof. apply String.eqb_neq. Qed.

Lemma lookup_dset d k v k' : lookup (dset d k v) k' = if String.eqb k k' then Some v else lookup d k'.
Proof.
  induction d as [|[a b] d IH]; cbn.
  - unfold lookup. cbn. destruct (String.eqb k k'); reflexivity.
  - destruct (String.eqb a k) eqn:E.
    + apply String.eqb_eq in E. subst a. unfold lookup. cbn. destruct (String.eqb k k'); reflexivity.
    + unfold lookup in *. cbn. destruct (String.eqb a k') eqn:E'.
      * apply String.eqb_eq in E'. subst a. rewrite String.eqb_sym, E. reflexivity.
      * exact IH.
Qed.
Lemma lookup_update e : forall d k, NoDup (map fst e) -> lookup (update d e) k = match lookup e k with Some v => Some v | None => lookup d k end.
Proof.
  induction e as [|[a b] e IH]; intros d k N; [reflexivity|]. inversion N as [|? ? Na N']; subst. unfold update in *. cbn [fold_left fst snd].
  rewrite (IH _ k N'), lookup_dset. unfold lookup at 3. cbn. destruct (String.eqb a k) eqn:E.
  - apply String.eqb_eq in E. subst a. cbn. assert (lookup e k = None) as ->; [|reflexivity].
    unfold lookup. destruct (find _ e) as [[c d']|] eqn:F; auto. exfalso. apply Na. apply find_some in F as [F1 F2]. cbn in F2.
    apply String.eqb_eq in F2. subst c. change k with (fst (k, d')). now apply in_map.
  - reflexivity.
Qed.
Lemma has_lookup d k : has d k = true <-> exists v, lookup d k = Some v.
Proof.
  unfold has, lookup. rewrite existsb_exists. split.
  - intros (p & Hp & E). destruct (find (fun p => String.eqb (fst p) k) d) as [q|] eqn:F; [cbn; eauto|].
    exfalso. apply (find_none _ _ F) in Hp. congruence.
  - intros [v H]. destruct (find _ d) as [q|] eqn:F; [|discriminate]. apply find_some in F as [A B]. eauto.
Qed.
Lemma has_in d k : has d k = true <-> In k (map fst d).
Proof.
  unfold has. rewrite existsb_exists, in_map_iff. split.
  - intros (p & Hp & E). apply String.eqb_eq in E. eauto.
  - intros (p & E & Hp). exists p. split; auto. now apply String.eqb_eq.
Qed.
Lemma lookup_none d k : lookup d k = None <-> ~ In k (map fst d).
Proof.
  rewrite <- has_in, has_lookup. split; [intros H [v Hv]; congruence|]. intros H. destruct (lookup d k) eqn:E; auto. exfalso. eauto.
Qed.
Lemma lookup_map_none l k : lookup (map (fun v => (v, PNone)) l) k = Some PNone \/ (lookup (map (fun v => (v, PNone)) l) k = None /\ ~ In k l).
Proof.
  induction l as [|a l IH]; [now right|]. unfold lookup in *. cbn. destruct (String.eqb a k) eqn:E; [now left|].
  destruct IH as [IH|[IH N]]; [now left|right]. split; auto. intros [->|H]; [|auto]. now rewrite String.eqb_refl in E.
Qed.

Section Ask.
  Variables (names : list string) (fixed : nat -> dict) (order : list string -> list string).
  Hypothesis order_perm : forall l, Permutation (order l) l.

  (** C70: a proposed point has exactly the variables of the space as keys; the variables of the
      sub-space have the values proposed there, the conditioning variables their values, and the
      remaining ones None.  So None stands exactly for the inactive variables. *)
  Theorem C70_complete_assignment :
    forall k d, NoDup (map fst (fixed k)) -> (forall v, In v (map fst d) \/ In v (map fst (fixed k)) -> In v names) ->
      (forall v, In v names <-> exists x, lookup (complete names fixed order k d) v = Some x) /\
      (forall v x, lookup (fixed k) v = Some x -> lookup (complete names fixed order k d) v = Some x) /\
      (forall v x, lookup (fixed k) v = None -> lookup d v = Some x -> lookup (complete names fixed order k d) v = Some x) /\
      (forall v, In v names -> lookup (fixed k) v = None -> lookup d v = None -> lookup (complete names fixed order k d) v = Some PNone).
  Proof.
    intros k d Nf Hn. unfold complete. set (d1 := update d (fixed k)).
    set (rest := order (filter (fun v => negb (has d1 v)) (nodup string_dec names))).
    assert (Hr : forall v, In v rest <-> In v names /\ lookup d1 v = None).
    { intros v. unfold rest. split; intros H.
      - apply (Permutation_in _ (order_perm _)), filter_In in H as [A B]. apply nodup_In in A. split; auto.
        apply negb_true_iff in B. apply lookup_none. intros C. apply has_in in C. congruence.
      - apply (Permutation_in _ (Permutation_sym (order_perm _))), filter_In. split; [now apply nodup_In|].
        apply negb_true_iff. destruct (has d1 v) eqn:E; auto. apply has_lookup in E as [x E]. destruct H. congruence. }
    assert (Nr : NoDup (map fst (map (fun v => (v, PNone)) rest))).
    { rewrite map_map. cbn. rewrite map_id. apply (Permutation_NoDup (Permutation_sym (order_perm _))). apply NoDup_filter, NoDup_nodup. }
    assert (L1 : forall v, lookup d1 v = match lookup (fixed k) v with Some x => Some x | None => lookup d v end) by (intros; now apply lookup_update).
    assert (L2 : forall v, lookup (update d1 (map (fun v => (v, PNone)) rest)) v =
                   match lookup (map (fun v => (v, PNone)) rest) v with Some x => Some x | None => lookup d1 v end) by (intros; now apply lookup_update).
    assert (L3 : forall v x, lookup d1 v = Some x -> lookup (update d1 (map (fun v => (v, PNone)) rest)) v = Some x).
    { intros v x H. rewrite L2. destruct (lookup_map_none rest v) as [E|[E _]]; rewrite E; auto.
      exfalso. assert (In v rest); [|apply Hr in H0; destruct H0; congruence].
      destruct (in_dec string_dec v rest); auto. exfalso.
      assert (lookup (map (fun v => (v, PNone)) rest) v = None); [|congruence]. apply lookup_none. now rewrite map_map, map_id. }
    assert (L4 : forall v, In v names -> lookup d1 v = None -> lookup (update d1 (map (fun v => (v, PNone)) rest)) v = Some PNone).
    { intros v Hv H. rewrite L2. destruct (lookup_map_none rest v) as [E|[E N]]; rewrite E; auto. exfalso. apply N, Hr. auto. }
    split; [|split; [|split]].
    - intros v. split.
      + intros Hv. destruct (lookup d1 v) eqn:E; eauto.
      + intros [x Hx]. destruct (lookup d1 v) eqn:E.
        * apply Hn. rewrite L1 in E. destruct (lookup (fixed k) v) eqn:Ef; [right|left]; apply has_in, has_lookup; eauto.
        * rewrite L2, E in Hx. destruct (lookup_map_none rest v) as [E'|[E' _]]; rewrite E' in Hx; [|discriminate].
          destruct (in_dec string_dec v rest) as [i|n]; [now apply Hr in i as [? _]|].
          exfalso. assert (lookup (map (fun v => (v, PNone)) rest) v = None); [|congruence]. apply lookup_none. now rewrite map_map, map_id.
    - intros v x H. apply L3. now rewrite L1, H.
    - intros v x H H'. apply L3. now rewrite L1, H.
    - intros v Hv H H'. apply L4; auto. now rewrite L1, H.
  Qed.

  Lemma truthy_falsy v : truthy v = false <-> falsy v.
  Proof.
    split.
    - destruct v as [|z|q|t|b]; cbn; intros H; try (apply negb_false_iff in H).
      + constructor.
      + apply Z.eqb_eq in H. subst. constructor.
      + constructor. now apply Qeq_bool_iff.
      + apply String.eqb_eq in H. subst. constructor.
      + subst. constructor.
    - intros []; cbn; auto. apply negb_false_iff. now apply Qeq_bool_iff.
  Qed.
  (** A point in which a variable has the value None, 0, 0.0, "" or False loses that variable. *)
  Lemma told_falsy k (d x : dict) v : told fixed k d = Some x -> NoDup (map fst d) -> (forall y, lookup d v = Some y -> truthy y = false) -> lookup x v = None.
  Proof.
    intros H Nd Hv. apply lookup_none. intros Hi.
    assert (G : forall (ks acc : dict), fold_left (fun acc kv => match acc with Some x => pop x (fst kv) | None => None end) ks (Some acc) = Some x ->
                  forall p, In p x -> In p acc).
    { induction ks as [|a ks IH]; cbn; intros acc E p Hp; [injection E as <-; auto|].
      destruct (pop acc (fst a)) as [acc'|] eqn:Ep.
      - specialize (IH _ E p Hp). unfold pop in Ep. destruct (has acc (fst a)); [|discriminate]. injection Ep as <-. now apply filter_In in IH as [? _].
      - exfalso. clear -E. induction ks as [|b ks IH]; cbn in E; [discriminate|auto]. }
    apply in_map_iff in Hi as ([v' y] & <- & Hp). apply (G _ _ H), filter_In in Hp as [Hp T]. cbn in *.
    enough (lookup d v' = Some y) by (rewrite (Hv _ H0) in T; discriminate).
    clear - Hp Nd. induction d as [|[a b] d IH]; [destruct Hp|]. inversion Nd; subst. unfold lookup in *. cbn. destruct Hp as [[= -> ->]|Hp].
    - now rewrite String.eqb_refl.
    - rewrite eqb_neq; [now apply IH|]. intros ->. apply H1. change v' with (fst (v', y)). now apply in_map.
  Qed.

  (** C105, full statement (refuted): telling a proposed point back stores it in the model of its
      sub-space with all its values.  Whatever the sub-space, a variable whose proposed value is
      falsy (an integer 0, a real 0.0, an empty string, False) is not passed on. *)
  Theorem C105_falsy_value_refuted :
    forall k d v, NoDup (map fst d) -> NoDup (map fst (fixed k)) ->
      (exists y, lookup d v = Some y /\ falsy y) -> ~ In v (map fst (fixed k)) ->
      NoDup (map fst (complete names fixed order k d)) ->
      forall x, told fixed k (complete names fixed order k d) = Some x -> lookup x v = None.
  Proof.
    intros k d v Nd Nf (y & Hy & T%truthy_falsy) Nv Nc x Hx. apply (told_falsy _ _ _ _ Hx Nc). intros y' Hy'.
    assert (E : lookup (complete names fixed order k d) v = Some y); [|congruence].
    unfold complete. set (d1 := update d (fixed k)).
    assert (L1 : lookup d1 v = Some y). { unfold d1. rewrite lookup_update by auto. apply lookup_none in Nv. now rewrite Nv. }
    rewrite lookup_update.
    - destruct (lookup_map_none (order (filter (fun v => negb (has d1 v)) (nodup string_dec names))) v) as [E|[E _]]; rewrite E; auto.
      exfalso. assert (In v (order (filter (fun v => negb (has d1 v)) (nodup string_dec names)))) as X.
      { destruct (in_dec string_dec v (order (filter (fun v => negb (has d1 v)) (nodup string_dec names)))); auto. exfalso.
        assert (lookup (map (fun v => (v, PNone)) (order (filter (fun v => negb (has d1 v)) (nodup string_dec names)))) v = None); [|congruence].
        apply lookup_none. now rewrite map_map, map_id. }
      apply (Permutation_in _ (order_perm _)), filter_In in X as [_ X]. apply negb_true_iff in X.
      assert (has d1 v = true) by (apply has_lookup; eauto). congruence.
    - rewrite map_map. cbn. rewrite map_id. apply (Permutation_NoDup (Permutation_sym (order_perm _))). apply NoDup_filter, NoDup_nodup.
  Qed.

  (** If the condition itself is falsy (a switch with the value False or 0), every point proposed in
      that sub-space is refused with a KeyError. *)
  Theorem C105_falsy_condition_refuted :
    forall k c w e d, fixed k = (c, w) :: e -> falsy w -> NoDup (map fst (fixed k)) ->
      NoDup (map fst (complete names fixed order k d)) -> (forall v, In v (map fst d) \/ In v (map fst (fixed k)) -> In v names) ->
      told fixed k (complete names fixed order k d) = None.
  Proof.
    intros k c w e d Hf Tw%truthy_falsy Nf Nc Hn. destruct (C70_complete_assignment k d Nf Hn) as (_ & F & _).
    specialize (F c w). set (D := complete names fixed order k d) in *. unfold told. rewrite Hf in *. cbn [fold_left fst].
    assert (P : pop (filter (fun kv => truthy (snd kv)) D) c = None).
    { unfold pop. destruct (has _ c) eqn:E; auto. exfalso. apply has_in, in_map_iff in E as ([c' y] & Ec & E). cbn in Ec. subst c'.
      apply filter_In in E as [E T]. cbn in T. assert (lookup D c = Some y).
      { clear - E Nc. clearbody D. induction D as [|[a b] D IH]; [destruct E|]. inversion Nc; subst. unfold lookup in *. cbn. destruct E as [[= -> ->]|E].
        - now rewrite String.eqb_refl.
        - rewrite eqb_neq; [now apply IH|]. intros ->. apply H1. change c with (fst (c, y)). now apply in_map. }
      rewrite F in H; [congruence|]. unfold lookup. cbn. now rewrite String.eqb_refl. }
    rewrite P. clear. induction e as [|b e IH]; cbn; auto.
  Qed.

  Lemma dset_new d k v : ~ In k (map fst d) -> dset d k v = d ++ [(k, v)].
  Proof.
    induction d as [|[a b] d IH]; cbn; intros N; auto. rewrite eqb_neq by tauto. rewrite IH; tauto.
  Qed.
  Lemma update_new e : forall d, NoDup (map fst e) -> (forall v, In v (map fst e) -> ~ In v (map fst d)) -> update d e = d ++ e.
  Proof.
    unfold update. induction e as [|[a b] e IH]; intros d N H; [now rewrite app_nil_r|]. inversion N; subst. cbn [fold_left fst snd].
    rewrite dset_new by (apply H; now left). rewrite IH; auto.
    - now rewrite <- app_assoc.
    - intros v Hv. rewrite map_app, in_app_iff. cbn. intros [X|[<-|[]]]; [|auto]. apply (H v); auto. now right.
  Qed.
  Lemma complete_form k d : NoDup (map fst (fixed k)) -> (forall v, In v (map fst (fixed k)) -> ~ In v (map fst d)) ->
    exists rest, complete names fixed order k d = (d ++ fixed k) ++ map (fun v => (v, PNone)) rest.
  Proof.
    intros Nf Hd. unfold complete. rewrite (update_new (fixed k) d Nf Hd).
    set (rest := order (filter (fun v => negb (has (d ++ fixed k) v)) (nodup string_dec names))). exists rest. apply update_new.
    - rewrite map_map. cbn. rewrite map_id. apply (Permutation_NoDup (Permutation_sym (order_perm _))). apply NoDup_filter, NoDup_nodup.
    - intros v Hv. rewrite map_map, map_id in Hv. apply (Permutation_in _ (order_perm _)), filter_In in Hv as [_ Hv].
      apply negb_true_iff in Hv. intros X. apply has_in in X. congruence.
  Qed.

  (** What does hold: a proposed point whose values, and whose conditions, are all truthy reaches
      the optimizer of its sub-space exactly as that optimizer proposed it. *)
  Theorem C105_told_back_partial :
    forall k d, NoDup (map fst (fixed k)) -> (forall v, In v (map fst (fixed k)) -> ~ In v (map fst d)) ->
      (forall p, In p d \/ In p (fixed k) -> ~ falsy (snd p)) ->
      told fixed k (complete names fixed order k d) = Some d.
  Proof.
    intros k d Nf Hd T0. assert (T : forall p, In p d \/ In p (fixed k) -> truthy (snd p) = true).
    { intros p I. destruct (truthy (snd p)) eqn:E; auto. exfalso. apply (T0 p I). now apply truthy_falsy. }
    destruct (complete_form k d Nf Hd) as [rest E]. rewrite E. unfold told. rewrite !filter_app.
    assert (F : forall l : dict, (forall p, In p l -> truthy (snd p) = true) -> filter (fun kv => truthy (snd kv)) l = l).
    { induction l as [|p l IH]; cbn; intros H; auto. rewrite (H p (or_introl eq_refl)), IH; auto. }
    rewrite (F d), (F (fixed k)) by auto.
    assert (Z : filter (fun kv => truthy (snd kv)) (map (fun v => (v, PNone)) rest) = []) by (clear; induction rest; cbn; auto).
    rewrite Z, app_nil_r. clear E Z F T rest. revert Nf Hd. generalize (fixed k) as e. induction e as [|[a b] e IH]; intros Nf Hd; cbn [fold_left fst].
    - now rewrite app_nil_r.
    - inversion Nf; subst. unfold pop at 2. assert (H : has (d ++ (a, b) :: e) a = true) by (apply has_in; rewrite map_app, in_app_iff; right; now left).
      rewrite H, filter_app. cbn. rewrite String.eqb_refl. cbn.
      assert (G : forall l : dict, ~ In a (map fst l) -> filter (fun p => negb (String.eqb (fst p) a)) l = l).
      { induction l as [|[c e'] l IHl]; cbn; intros N; auto. rewrite eqb_neq by tauto. cbn. rewrite IHl; tauto. }
      rewrite (G d), (G e); auto; [|apply Hd; now left]. apply IH; auto. intros v Hv. apply Hd. now right.
  Qed.
End Ask.
Print Assumptions C70_complete_assignment.
Print Assumptions C105_falsy_value_refuted.
Print Assumptions C105_falsy_condition_refuted.
Print Assumptions C105_told_back_partial.

Definition ex_fixed (k : nat) : dict := match k with 0 => [("c", PStr "A")] | _ => [("c", PStr "B")] end%string.
Example complete_case :
  complete ["a"; "b"; "c"]%string ex_fixed (fun l => l) 0 [("a"%string, PInt 3)] = [("a", PInt 3); ("c", PStr "A"); ("b", PNone)]%string /\
  told ex_fixed 0 (complete ["a"; "b"; "c"]%string ex_fixed (fun l => l) 0 [("a"%string, PInt 3)]) = Some [("a"%string, PInt 3)] /\
  told ex_fixed 0 (complete ["a"; "b"; "c"]%string ex_fixed (fun l => l) 0 [("a"%string, PInt 0)]) = Some [] /\
  told (fun _ => [("c"%string, PBool false)]) 0 (complete ["a"; "c"]%string (fun _ => [("c"%string, PBool false)]) (fun l => l) 0 [("a"%string, PInt 3)]) = None.
Proof. vm_compute. auto. Qed.

(** C106, full statement (refuted): the conditional optimizer stores every observation under the
    names of its variables.  Points of two sub-spaces told together: the value of b is stored under
    the name a. *)
Theorem C106_column_order_refuted :
  exists names fixed order k l d e,
    let X := [complete names fixed order k d; complete names fixed order l e] in
    exists i v, nth_error (fst (stored X)) i = Some v /\
      nth_error (nth 1 (snd (stored X)) []) i <> lookup (nth 1 X []) v.
Proof.
  exists ["a"; "b"; "c"]%string, ex_fixed, (fun l => l), 0, 1, [("a"%string, PInt 3)], [("b"%string, PInt 4)]. cbn zeta.
  exists 0, "a"%string. split; [reflexivity|]. vm_compute. discriminate.
Qed.
Print Assumptions C106_column_order_refuted.
(** What does hold: points that have their keys in the same order are stored under their names. *)
Theorem C106_same_order_partial :
  forall X, (forall d, In d X -> NoDup (map fst d)) -> (forall d e, In d X -> In e X -> map fst d = map fst e) ->
    forall r d i v, nth_error X r = Some d -> nth_error (fst (stored X)) i = Some v ->
      nth_error (nth r (snd (stored X)) []) i = lookup d v.
Proof.
  intros X Nd Same r d i v Hr Hi. destruct X as [|d0 X]; [destruct r; discriminate|]. cbn [stored fst snd] in *.
  assert (Hd : In d (d0 :: X)) by (eapply nth_error_In; eauto).
  assert (E : nth r (map (map snd) (d0 :: X)) [] = map snd d).
  { apply nth_error_nth. change (map snd d) with (map (@snd string value) d). rewrite nth_error_map, Hr. reflexivity. }
  unfold dict in *. rewrite E. rewrite (Same d0 d) in Hi by (auto; now left). specialize (Nd d Hd). clear - Hi Nd.
  revert i Hi. induction d as [|[a b] d IH]; intros i Hi; [destruct i; discriminate|]. inversion Nd; subst. unfold lookup. cbn. destruct i; cbn in *.
  - injection Hi as <-. now rewrite String.eqb_refl.
  - rewrite eqb_neq; [now apply IH|]. intros ->. apply H1. eapply nth_error_In; eauto.
Qed.
Print Assumptions C106_same_order_partial.

(** C107: the first round of the conditional optimizer visits every sub-space once, in order,
    however the proposals are distributed over calls of ask. *)
Theorem C107_initial_round :
  forall n_sub asks,
    (forall n r, In (n, r) asks -> forall m, length (r m) = m /\ forall i, In i (r m) -> i < n_sub) ->
    let idx := choose_all n_sub 0 asks in
    length idx = list_sum (map fst asks) /\ (forall i, In i idx -> i < n_sub) /\
    firstn n_sub idx = seq 0 (Nat.min n_sub (list_sum (map fst asks))).
Proof.
  intros n_sub asks Hr.
  assert (G : forall asks gen, gen <= n_sub -> (forall n r, In (n, r) asks -> forall m, length (r m) = m /\ forall i, In i (r m) -> i < n_sub) ->
     let idx := choose_all n_sub gen asks in
     length idx = list_sum (map fst asks) /\ (forall i, In i idx -> i < n_sub) /\
     firstn (n_sub - gen) idx = seq gen (Nat.min (n_sub - gen) (list_sum (map fst asks)))).
  { clear. induction asks as [|[n r] asks IH]; intros gen Hg Hr; cbn [choose_all map list_sum fold_right fst].
    - cbn. rewrite firstn_nil. rewrite Nat.min_0_r. repeat split; auto. intros i [].
    - unfold choose. set (k := Nat.min n (n_sub - gen)).
      destruct (IH (gen + k)) as (A & B & C); [unfold k; lia|intros; eapply Hr; right; eauto|].
      destruct (Hr n r (or_introl eq_refl) (n - k)) as [Lr Ir]. set (tl := choose_all n_sub (gen + k) asks) in *.
      fold (list_sum (map fst asks)) in *. split; [|split].
      + rewrite !app_length, seq_length, Lr, A. unfold k. lia.
      + intros i Hi. rewrite !in_app_iff in Hi. destruct Hi as [[Hi|Hi]|Hi]; auto. apply in_seq in Hi. unfold k in Hi. lia.
      + rewrite <- app_assoc, firstn_app, seq_length. destruct (Nat.le_gt_cases n (n_sub - gen)) as [Hn|Hn].
        * assert (Ek : k = n) by (unfold k; lia). rewrite Ek in *. replace (n - n) with 0 in * by lia. destruct (r 0); [|discriminate]. cbn [app].
          rewrite firstn_all2 by (rewrite seq_length; lia). replace (n_sub - gen - n) with (n_sub - (gen + n)) by lia. rewrite C, <- seq_app. f_equal. lia.
        * assert (Ek : k = n_sub - gen) by (unfold k; lia). rewrite Ek. rewrite Nat.sub_diag. cbn [firstn]. rewrite app_nil_r.
          rewrite firstn_all2 by (rewrite seq_length; lia). f_equal. lia. }
  destruct (G asks 0 (Nat.le_0_l _) Hr) as (A & B & C). rewrite Nat.sub_0_r in C. auto.
Qed.
Print Assumptions C107_initial_round.
Example round_case :
  choose_all 3 0 [(2, fun m => repeat 0 m); (2, fun m => repeat 1 m); (1, fun m => repeat 2 m)] = [0; 1; 2; 1; 2].
Proof. reflexivity. Qed.

(** C79: in a batch every acquisition function is used, in turn, and the numbers of uses of two of
    them differ by at most one. *)
Theorem C79_round_robin :
  forall N n, 0 < N ->
    length (criteria_of_batch N n) = n /\
    (forall i, i < n -> nth_error (criteria_of_batch N n) i = Some (i mod N)) /\
    (forall k, k < N -> n / N <= count_occ Nat.eq_dec (criteria_of_batch N n) k <= S (n / N)) /\
    (forall k l, k < N -> l < N ->
       count_occ Nat.eq_dec (criteria_of_batch N n) k <= S (count_occ Nat.eq_dec (criteria_of_batch N n) l)).
Proof.
  intros N n HN.
  assert (Cnt : forall n k, k < N -> count_occ Nat.eq_dec (criteria_of_batch N n) k = n / N + if k <? n mod N then 1 else 0).
  { clear n. intros n k Hk. unfold criteria_of_batch. induction n as [|n IH].
    - cbn. rewrite Nat.div_0_l, Nat.mod_0_l by lia. destruct (k <? 0) eqn:E; [apply Nat.ltb_lt in E; lia|reflexivity].
    - rewrite seq_S, map_app, count_occ_app, IH. cbn [map count_occ plus]. pose proof (Nat.div_mod n N ltac:(lia)) as D.
      pose proof (Nat.mod_upper_bound n N ltac:(lia)) as U.
      destruct (Nat.eq_dec (S (n mod N)) N) as [E|E].
      + assert (Q1 : S n / N = S (n / N)) by (symmetry; apply Nat.div_unique with 0; nia).
        assert (R1 : S n mod N = 0) by (symmetry; apply Nat.mod_unique with (S (n / N)); nia). rewrite Q1, R1.
        destruct (Nat.eq_dec (n mod N) k); destruct (k <? n mod N) eqn:X; [apply Nat.ltb_lt in X; lia|..]; cbn; try lia.
        apply Nat.ltb_ge in X. lia.
      + assert (Q1 : S n / N = n / N) by (symmetry; apply Nat.div_unique with (S (n mod N)); nia).
        assert (R1 : S n mod N = S (n mod N)) by (symmetry; apply Nat.mod_unique with (n / N); nia). rewrite Q1, R1.
        destruct (Nat.eq_dec (n mod N) k); destruct (k <? n mod N) eqn:X; destruct (k <? S (n mod N)) eqn:Y;
          rewrite ?Nat.ltb_lt, ?Nat.ltb_ge in *; lia. }
  split; [unfold criteria_of_batch; now rewrite map_length, seq_length|]. split; [|split].
  - intros i Hi. unfold criteria_of_batch. rewrite nth_error_map.
    rewrite (nth_error_nth' (seq 0 n) 0) by (now rewrite seq_length). rewrite seq_nth by auto. reflexivity.
  - intros k Hk. rewrite Cnt by auto. destruct (k <? n mod N); lia.
  - intros k l Hk Hl. rewrite !Cnt by auto. destruct (k <? n mod N), (l <? n mod N); lia.
Qed.
Print Assumptions C79_round_robin.
Example batch_case : criteria_of_batch 2 5 = [0; 1; 0; 1; 0].
Proof. reflexivity. Qed.

(** C72, full statement (refuted): the history returned by fmin contains every evaluated point in
    order, the initial design first.  No run with pairwise different points reports a point of the
    initial design. *)
Theorem C72_design_missing_refuted :
  forall (A : Type) N n it (all : list A), NoDup all ->
    forall x, In x (firstn N all) -> ~ In x (concat (data_per_iteration N n it all)).
Proof.
  intros A N n it all Nd x Hx Hi. unfold data_per_iteration in Hi. cbn [concat] in Hi.
  assert (S : In x (skipn N all)).
  { assert (F : forall (l : list A) j y, In y (firstn j l) -> In y l) by (intros l j y H; rewrite <- (firstn_skipn j l), in_app_iff; auto).
    assert (K : forall (l : list A) j y, In y (skipn j l) -> In y l) by (intros l j y H; rewrite <- (firstn_skipn j l), in_app_iff; auto).
    apply in_app_iff in Hi as [Hi|Hi]; [eapply F; eauto|]. apply in_concat in Hi as (l & Hl & Hy). apply in_map_iff in Hl as (i & <- & _).
    eapply K, F; eauto. }
  rewrite <- (firstn_skipn N all) in Nd. clear - Nd Hx S. induction (firstn N all) as [|a l IH]; [destruct Hx|]. cbn in Nd. inversion Nd; subst.
  destruct Hx as [->|Hx]; auto. apply H1. apply in_app_iff. auto.
Qed.
Print Assumptions C72_design_missing_refuted.
(** What does hold: from the second entry on, the history lists the points proposed after the
    initial design, in order and n per iteration; so together with the first N rows of the data
    (which fmin computes and drops) it is complete. *)
Theorem C72_iterations_partial :
  forall (A : Type) N n it (all : list A), length all <= N + (it - 1) * n ->
    firstn N all ++ concat (tl (data_per_iteration N n it all)) = all /\
    (forall i, i < it - 1 -> nth (S i) (data_per_iteration N n it all) [] = firstn n (skipn (N + i * n) all)).
Proof.
  intros A N n it all L. unfold data_per_iteration. cbn [tl]. split.
  - assert (G : forall (data : list A) k, concat (map (fun i => firstn n (skipn (i * n) data)) (seq 0 k)) = firstn (k * n) data).
    { intros data. induction k as [|k IH]; [reflexivity|]. rewrite seq_S, map_app, concat_app, IH. cbn. rewrite app_nil_r.
      clear. generalize (k * n) as a. intros a. rewrite Nat.add_comm. revert data. induction a as [|a IH]; intros data; [reflexivity|].
      destruct data; cbn; [now rewrite firstn_nil|]. f_equal. apply IH. }
    rewrite G. set (w := (it - 1) * n) in *. clearbody w. rewrite (firstn_all2 (skipn N all)) by (rewrite skipn_length; lia). apply firstn_skipn.
  - intros i Hi. cbn [nth]. apply nth_error_nth. rewrite nth_error_map.
    rewrite (nth_error_nth' (seq 0 (it - 1)) 0) by (now rewrite seq_length). rewrite seq_nth by auto. cbn.
    f_equal. f_equal. clear. revert all. induction N as [|N IH]; intros all; [reflexivity|]. destruct all; cbn; [now rewrite skipn_nil|apply IH].
Qed.
Print Assumptions C72_iterations_partial.
Example history_case :
  data_per_iteration 2 1 4 [10; 11; 12; 13; 14] = [[12; 13]; [12]; [13]; [14]] /\ length [10; 11; 12; 13; 14] <= 2 + (4 - 1) * 1.
Proof. split; [reflexivity|cbn; lia]. Qed.
