(** Concatenation, dictionaries and unique (Model_Sol.v). *)
From Coq Require Import Bool Arith ZArith QArith String List Lia Sorted.
From Verif Require Import Lib_List Model_Var Model_Opt Model_Sol Spec_Sol Proofs_Sol Proofs_SolOps Proofs_SolWrite Proofs_SolNew.
Import ListNotations.
Open Scope nat_scope.

Local Arguments pick : simpl never.
Local Arguments read : simpl never.
Local Arguments grid : simpl never.

(** ** Construction from rows succeeds *)
Definition good_items (m : nat) (f : list fitem) : Prop :=
  (m = 1 /\ Forall (fun i => is_FS i = true) f) \/
  (1 < m /\ Forall (fun i => is_FS i = false /\ List.length (item_list i) = m) f).

Lemma fl_array_good m f : good_items m f -> f <> [] -> exists a b, fl_array f = SOk (a, b).
Proof.
  intros [[_ F]|[M F]] NE; unfold fl_array;
  replace (fun i => match i with FS _ => true | FL _ => false end) with is_FS by reflexivity.
  - rewrite (proj2 (forallb_forall is_FS f)). eauto. apply Forall_forall; auto.
  - destruct f as [|[v|r] t]; [congruence| |].
    + apply Forall_inv in F. destruct F; discriminate.
    + replace (forallb is_FS (FL r :: t)) with false by reflexivity. cbv zeta.
      rewrite (proj2 (forallb_forall _ (FL r :: t))). eauto.
      pose proof (Forall_inv F) as [_ H]. simpl in H.
      rewrite Forall_forall in F. intros i I. apply F in I. destruct i; [destruct I; discriminate|].
      apply Nat.eqb_eq. simpl in I. lia.
Qed.

Lemma check_fitness_good m f : good_items m f -> f <> [] -> check_fitness (List.length f) m (FSeq f) = SOk f.
Proof.
  intros G NE. unfold check_fitness. destruct G as [[-> F]|[M F]].
  - simpl. rewrite Nat.eqb_refl. reflexivity.
  - destruct (Nat.ltb_spec 1 m); [|lia]. destruct f as [|[v|r] t]; [congruence| |].
    + apply Forall_inv in F. destruct F; discriminate.
    + cbn [sbind]. set (l := FL r :: t) in *.
      rewrite (proj2 (forallb_forall _ l)). 2:{ intros i I. rewrite Forall_forall in F. apply F in I. destruct i; [destruct I; discriminate|auto]. }
      rewrite (proj2 (forallb_forall _ l)). 2:{ intros i I. rewrite Forall_forall in F. apply F in I. destruct i; [destruct I; discriminate|]. apply Nat.eqb_eq. tauto. }
      cbn [sassert sbind]. rewrite Nat.eqb_refl. reflexivity.
Qed.

Lemma new_rows_ok h rows c f n i v g m :
  Forall (fun r => List.length r = c) rows -> rows <> [] -> 1 <= c -> good_items m f ->
  List.length f = List.length rows -> List.length i = List.length rows -> List.length v = c -> List.length g = m ->
  exists s h', new h (XRows rows) (FSeq f) (NSeq n) (ISeq i) (Some v) (Some g) m = SOk (s, h').
Proof.
  intros C NE C1 G LF LI LV LG. unfold new.
  assert (X : x_array (XRows rows) = SOk (A2 (grid (List.length rows) c) c, List.concat rows)).
  { destruct rows as [|[|a r] rest]; [congruence| |]. { apply Forall_inv in C. simpl in C. lia. }
    simpl. pose proof (Forall_inv C) as H. simpl in H. rewrite (proj2 (forallb_forall _ rest)).
    - rewrite H. reflexivity.
    - intros x I. apply Forall_inv_tail in C. rewrite Forall_forall in C. apply Nat.eqb_eq. rewrite (C x I). auto. }
  rewrite X. cbn [sbind]. cbv zeta. rewrite grid_length, <- LF.
  assert (NF : f <> []) by (intros ->; destruct rows; [congruence|discriminate]).
  rewrite check_fitness_good; auto. cbn [sbind]. rewrite LI, <- LF, Nat.eqb_refl, LV, Nat.eqb_refl, LG, Nat.eqb_refl. cbn [sassert sbind].
  destruct (fl_array_good m f G NF) as [a [b ->]]. cbn [sbind]. eauto.
Qed.

(** ** Concatenation *)
Definition flattened (s : sol) : Prop :=
  match xa s, fa s with A1 _, A1 _ => 1 < nobj s | _, _ => False end.

Lemma fit_list_good h s : wf h s -> ~ flattened s ->
  good_items (nobj s) (fit_list h s) /\ List.length (fit_list h s) = sN s /\ fits h s = map item_list (fit_list h s).
Proof.
  intros [WX [[LF [RF [NF CF]]] [_ [_ [SH [NO _]]]]]] NFL. unfold wf_fit, flattened, fit_list, fits, sN, good_items in *.
  destruct (xa s) as [ps|rs c], (fa s) as [l|fs k]; simpl in *.
  - assert (E : nobj s = 1) by lia. rewrite E in *. rewrite map_length, read_length by auto.
    split; [left; split; auto; apply Forall_map, Forall_forall; auto|]. split; auto.
    destruct l as [|p [|q l]]; try discriminate. inversion RF; subst.
    destruct (lt_nth_error _ _ H1) as [x X]. unfold read; simpl. rewrite X. reflexivity.
  - destruct SH as [M [L ->]]. rewrite map_length, map_map. split; [right; split; auto|split; auto].
    apply Forall_map, Forall_forall. intros x I. simpl. split; auto. rewrite read_length.
    + rewrite Forall_forall in CF. auto.
    + apply Forall_forall. intros p P. rewrite Forall_forall in RF. apply RF, in_concat. eauto.
  - destruct SH as [E L]. rewrite map_length, read_length by auto.
    split; [left; split; auto; apply Forall_map, Forall_forall; auto|]. split; auto.
    rewrite map_map. simpl. apply singles. auto.
  - destruct SH as [M [L ->]]. rewrite map_length, map_map. split; [right; split; auto|split; auto].
    apply Forall_map, Forall_forall. intros x I. simpl. split; auto. rewrite read_length.
    + rewrite Forall_forall in CF. auto.
    + apply Forall_forall. intros p P. rewrite Forall_forall in RF. apply RF, in_concat. eauto.
Qed.

Lemma values_shape h s : wf h s -> List.length (values h s) = sN s /\ Forall (fun r => List.length r = sdim s) (values h s).
Proof.
  intros [[_ [R [_ C]]] _]. unfold values, row_list, sN, sdim. destruct (xa s) as [ps|rs c]; simpl in *.
  - split; auto. constructor; auto. apply read_length; auto.
  - rewrite map_length. split; auto. apply read_rows; auto.
Qed.

Lemma evals_length h s : wf h s -> List.length (evals h s) = sN s.
Proof. intros [_ [_ [[_ [R _]] [_ [_ [_ [L _]]]]]]]. unfold evals, n_list. rewrite read_length; auto. Qed.

Lemma labels_length h s : wf h s -> List.length (labels h s) = sN s.
Proof. intros [_ [_ [_ [[_ [R _]] [_ [_ [_ [L _]]]]]]]]. unfold labels, i_list. rewrite lbuf_snd, read_length; auto. Qed.

Lemma good_app m a b : good_items m a -> good_items m b -> good_items m (a ++ b).
Proof.
  intros [[M A]|[M A]] [[M' B]|[M' B]]; try lia; [left|right]; split; auto; apply Forall_app; auto.
Qed.

Lemma same_set_spec a b : same_set a b = true <-> (forall x, In x a <-> In x b).
Proof.
  unfold same_set. rewrite andb_true_iff, !forallb_forall.
  assert (K : forall x l, existsb (String.eqb x) l = true <-> In x l).
  { intros x l. rewrite existsb_exists. split. intros [y [I E]]. apply String.eqb_eq in E. subst; auto.
    intro I. exists x. rewrite String.eqb_refl. auto. }
  split.
  - intros [H1 H2] x. split; intro I. apply K, H1; auto. apply K, H2; auto.
  - intro H. split; intros x I; apply K, H; auto.
Qed.

Lemma sadd_ok h a b :
  wf h a -> wf h b -> ~ flattened a -> ~ flattened b -> sdim a = sdim b -> nobj a = nobj b ->
  same_set (fnm a) (fnm b) = true -> same_set (vn a) (vn b) = true -> 1 <= sdim a -> 1 <= sN a + sN b ->
  exists s h', sadd h a b = SOk (s, h').
Proof.
  intros WA WB FA FB D O SF SV D1 N1.
  destruct (fit_list_good _ _ WA FA) as [GA [LA _]]. destruct (fit_list_good _ _ WB FB) as [GB [LB _]].
  destruct (values_shape _ _ WA) as [VA CA]. destruct (values_shape _ _ WB) as [VB CB].
  unfold sadd. rewrite D, Nat.eqb_refl, O, Nat.eqb_refl, SF, SV. cbn [sassert sbind].
  apply new_rows_ok with (c := sdim b).
  - apply Forall_app. rewrite D in CA. auto.
  - intro E. apply (f_equal (@List.length _)) in E. rewrite app_length in E. unfold values in *. simpl in E. lia.
  - lia.
  - apply good_app; auto. rewrite <- O. auto.
  - rewrite !app_length. unfold values in *. lia.
  - rewrite !app_length. pose proof (labels_length _ _ WA). pose proof (labels_length _ _ WB). unfold labels, values in *. lia.
  - destruct WA as [_ [_ [_ [_ [_ [_ [_ [_ [L _]]]]]]]]]. lia.
  - destruct WA as [_ [_ [_ [_ [_ [_ [_ [_ [_ L]]]]]]]]]. lia.
Qed.

Lemma same_rows_extends h h' t : extends h h' -> wf h t -> same_rows h h' t.
Proof.
  intros [[bx X] [[bf F] [[bn N] [bi I]]]] [[LX _] [[LF _] [[LN _] [[LI _] _]]]].
  unfold same_rows, values, row_list, fits, evals, n_list, labels, i_list. rewrite !lbuf_snd, X, F, N, I, map_app.
  simpl. rewrite !buf_app_old by auto. auto.
Qed.

Lemma extends_wf h h' t : extends h h' -> wf h t -> wf h' t.
Proof.
  intros [[bx X] [[bf F] [[bn N] [bi I]]]] [WX [WF [WN [WI W]]]].
  assert (G : forall A (l : list (list A)) b r a, wf_arr l r a -> wf_arr (l ++ [b]) r a).
  { intros A l b r a [L [R [ND C]]]. repeat split; auto. rewrite app_length; simpl; lia. rewrite buf_app_old; auto. }
  unfold wf. rewrite X, F, N, I, map_app. simpl.
  split; [apply G; auto|]. split; [apply G; auto|]. split; [apply G; auto|]. split; [apply G; auto|]. exact W.
Qed.

Lemma fresh_apart h s t : fresh_sol h s -> wf h t -> apart s t.
Proof.
  intros [X [F [N I]]] [[LX _] [[LF _] [[LN _] [[LI _] _]]]]. rewrite map_length in LI. unfold apart. lia.
Qed.

(** ** Dictionaries *)
Lemma dput_new {A} (d : list (string * A)) k v : ~ In k (map fst d) -> dput d k v = d ++ [(k, v)].
Proof.
  induction d as [|[k' v'] d IH]; simpl; auto. intro N. destruct (String.eqb_spec k' k); [tauto|]. rewrite IH; tauto.
Qed.

Lemma mk_dict_nodup {A} (l : list (string * A)) : NoDup (map fst l) -> mk_dict l = l.
Proof.
  unfold mk_dict. intro N. cut (forall d, NoDup (map fst (d ++ l)) -> fold_left (fun d p => dput d (fst p) (snd p)) l d = d ++ l).
  { intro K. apply (K []). auto. }
  clear N. induction l as [|[k v] l IH]; intros d N; simpl. rewrite app_nil_r; auto.
  rewrite dput_new.
  - rewrite IH. rewrite <- app_assoc. auto. rewrite <- app_assoc. auto.
  - rewrite map_app in N. simpl in N. apply NoDup_remove_2 in N. intro I. apply N, in_or_app. auto.
Qed.

Lemma map_fst_combine {A B} (l : list A) (m : list B) : List.length l = List.length m -> map fst (combine l m) = l.
Proof. revert m; induction l; intros [|b m] E; simpl in *; try discriminate; auto. f_equal. auto. Qed.
Lemma map_snd_combine {A B} (l : list A) (m : list B) : List.length l = List.length m -> map snd (combine l m) = m.
Proof. revert m; induction l; intros [|b m] E; simpl in *; try discriminate; auto. f_equal. auto. Qed.

Lemma row_dict_plain s r : NoDup (vn s) -> List.length r = List.length (vn s) -> row_dict s r = combine (vn s) r.
Proof. intros N L. unfold row_dict. apply mk_dict_nodup. rewrite map_fst_combine; auto. Qed.

(** ** unique *)
Lemma first_rows_spec eqb rows : forall seen k,
  (forall x y, eqb x y = true -> eqb y x = true) ->
  (forall x y z, eqb x y = true -> eqb y z = true -> eqb x z = true) -> (forall x, In x rows -> eqb x x = true) ->
  let ps := first_rows eqb seen rows k in
  StronglySorted lt ps /\ Forall (fun p => k <= p < k + List.length rows) ps /\
  (forall i r, nth_error rows i = Some r ->
     (In (k + i) ps <-> (forall s, In s seen -> eqb r s = false) /\
                       (forall j t, j < i -> nth_error rows j = Some t -> eqb r t = false))).
Proof.
  induction rows as [|r rows IH]; intros seen k SY TR RF; simpl.
  - repeat split; constructor || (destruct i; discriminate).
  - destruct (existsb (eqb r) seen) eqn:E.
    + destruct (IH seen (S k) SY TR (fun x I => RF x (or_intror I))) as [S1 [S2 S3]]. repeat split; auto.
      * eapply Forall_impl; [|exact S2]. simpl. lia.
      * intros s I1. destruct i as [|i]; simpl in *.
        { rewrite Forall_forall in S2. apply S2 in H0. lia. }
        replace (k + S i) with (S k + i) in H0 by lia. apply (S3 _ _ H) in H0. apply H0; auto.
      * intros j t L J. destruct i as [|i]; [lia|]. simpl in H.
        replace (k + S i) with (S k + i) in H0 by lia. apply (S3 _ _ H) in H0. destruct H0 as [H0 H1].
        destruct j as [|j]; simpl in J.
        { injection J as <-. apply existsb_exists in E. destruct E as [s [I1 I2]].
          destruct (eqb r0 r) eqn:Q; auto. rewrite <- (H0 s I1). symmetry. eapply TR; eauto. }
        apply (H1 j); auto. lia.
      * intros [H0 H1]. destruct i as [|i]; simpl in H.
        { injection H as <-. apply existsb_exists in E. destruct E as [s [I1 I2]]. rewrite (H0 s I1) in I2. discriminate. }
        replace (k + S i) with (S k + i) by lia. apply (S3 _ _ H). split; auto. intros j t L J. apply (H1 (S j)); auto. lia.
    + destruct (IH (r :: seen) (S k) SY TR (fun x I => RF x (or_intror I))) as [S1 [S2 S3]]. repeat split; auto.
      * constructor; auto. eapply Forall_impl; [|exact S2]. simpl. lia.
      * constructor. lia. eapply Forall_impl; [|exact S2]. simpl. lia.
      * intros s I1. destruct i as [|i]; simpl in *.
        { injection H as <-. destruct (eqb r s) eqn:Q; auto. rewrite <- E. symmetry. apply existsb_exists. eauto. }
        destruct H0 as [|H0]; [lia|]. replace (k + S i) with (S k + i) in H0 by lia. apply (S3 _ _ H) in H0. apply H0. simpl; auto.
      * intros j t L J. destruct i as [|i]; [lia|]. simpl in H. destruct H0 as [|H0]; [lia|].
        replace (k + S i) with (S k + i) in H0 by lia. apply (S3 _ _ H) in H0. destruct H0 as [H0 H1].
        destruct j as [|j]; simpl in J. { injection J as <-. apply H0. simpl; auto. } apply (H1 j); auto. lia.
      * intros [H0 H1]. destruct i as [|i]; simpl in H. { left. lia. }
        right. replace (k + S i) with (S k + i) by lia. apply (S3 _ _ H). split.
        { intros s [<-|I]; auto. apply (H1 0 r); auto. lia. }
        intros j t L J. apply (H1 (S j)); auto. lia.
Qed.

Lemma row_eqb_Forall2 eqb a b : row_eqb eqb a b = true <-> Forall2 (fun x y => eqb x y = true) a b.
Proof.
  revert b. induction a as [|x a IH]; intros [|y b]; simpl; split; intro H; try discriminate; auto; try (inversion H; fail).
  - apply andb_true_iff in H. constructor. tauto. apply IH. tauto.
  - inversion H; subst. rewrite H3. apply IH in H5. rewrite H5. auto.
Qed.

Lemma of_nat_positions n ps : Forall (fun p => p < n) ps -> sel_positions n (SList (map Z.of_nat ps)) = SOk ps.
Proof.
  intro R. simpl. apply smapM_ok. induction R as [|p ps L F IH]; simpl; constructor; auto.
  rewrite int_position_valid by lia. unfold resolve. destruct (Z.ltb_spec (Z.of_nat p) 0); [lia|]. rewrite Nat2Z.id. auto.
Qed.
