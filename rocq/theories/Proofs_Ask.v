(** Lemmas about Model_Ask.v. *)
From Coq Require Import List Bool Arith ZArith QArith Qabs Qround String Lia Lqa.
From Verif Require Import Model_Opt Model_Var Model_Ask Spec_Ask.
Import ListNotations.
Open Scope nat_scope.

(** * Lists *)
Lemma others_in {A} (l : list A) i j y :
  nth_error l j = Some y -> j <> i -> In y (others i l).
Proof.
  unfold others. intros H N. apply in_or_app.
  destruct (Nat.lt_ge_cases j i) as [L|L].
  - left. revert i j L N H. induction l as [|a l IH]; intros [|i] [|j] L N H; simpl in *; try discriminate; try lia.
    + injection H as ->. left; reflexivity.
    + right. apply (IH i j); auto; lia.
  - right. assert (i < j) by lia. clear L N. revert i j H0 H.
    induction l as [|a l IH]; intros i [|j] L H; try lia; try (destruct j; discriminate).
    destruct i as [|i].
    + simpl in *. eapply nth_error_In; eauto.
    + simpl in H. change (skipn (S (S i)) (a :: l)) with (skipn (S i) l). eapply IH; [|exact H]. lia.
Qed.

Lemma others_nth {A} (l : list A) i y :
  In y (others i l) -> exists j, nth_error l j = Some y /\ j <> i.
Proof.
  unfold others. intro H. apply in_app_or in H. destruct H as [H|H].
  - revert i H. induction l as [|a l IH]; intros [|i] H; simpl in H; try contradiction.
    destruct H as [<-|H].
    + exists 0; split; auto.
    + destruct (IH _ H) as (j&E&N). exists (S j); split; auto.
  - revert i H. induction l as [|a l IH]; intros i H.
    + destruct i; contradiction.
    + destruct i as [|i].
      * simpl in H. apply In_nth_error in H. destruct H as [j H]. exists (S j); split; auto.
      * change (skipn (S (S i)) (a :: l)) with (skipn (S i) l) in H.
        destruct (IH _ H) as (j&E&N). exists (S j); split; auto.
Qed.

Lemma combine_seq_in {A} (X : list A) k i x :
  In (i, x) (combine (seq k (List.length X)) X) -> k <= i /\ nth_error X (i - k) = Some x.
Proof.
  revert k; induction X as [|a X IH]; intros k; simpl; [intros []|].
  intros [E|H].
  - injection E as <- <-. rewrite Nat.sub_diag. auto.
  - apply IH in H. destruct H as [H1 H2]. split; [lia|].
    replace (i - k) with (S (i - S k)) by lia. exact H2.
Qed.

(** Order-preserving selections: every two positions of the selection come from two different
    positions of the original list. *)
Lemma filter_combine_pairs {A} (P : nat * A -> bool) (X : list A) k a b x y :
  a < b ->
  nth_error (map snd (filter P (combine (seq k (List.length X)) X))) a = Some x ->
  nth_error (map snd (filter P (combine (seq k (List.length X)) X))) b = Some y ->
  exists i j, k <= i /\ i < j /\ P (i, x) = true /\ P (j, y) = true /\
              nth_error X (i - k) = Some x /\ nth_error X (j - k) = Some y.
Proof.
  revert k a b; induction X as [|z X IH]; intros k a b L Ha Hb; simpl in *; [destruct a; discriminate|].
  destruct (P (k, z)) eqn:E; simpl in *.
  - destruct b as [|b]; [lia|]. destruct a as [|a].
    + simpl in Ha, Hb. injection Ha as <-.
      apply nth_error_In in Hb. apply in_map_iff in Hb. destruct Hb as ([j y']&<-&Hb).
      apply filter_In in Hb. destruct Hb as [Hb HP].
      apply combine_seq_in in Hb. destruct Hb as [H1 H2].
      exists k, j. simpl. rewrite Nat.sub_diag. repeat split; auto; try lia.
      replace (j - k) with (S (j - S k)) by lia. exact H2.
    + simpl in Ha, Hb. destruct (IH (S k) a b ltac:(lia) Ha Hb) as (i&j&H1&H2&H3&H4&H5&H6).
      exists i, j. repeat split; auto; try lia.
      * replace (i - k) with (S (i - S k)) by lia. exact H5.
      * replace (j - k) with (S (j - S k)) by lia. exact H6.
  - destruct (IH (S k) a b L Ha Hb) as (i&j&H1&H2&H3&H4&H5&H6).
    exists i, j. repeat split; auto; try lia.
    * replace (i - k) with (S (i - S k)) by lia. exact H5.
    * replace (j - k) with (S (j - S k)) by lia. exact H6.
Qed.

Lemma filter_length_le' {A} (P : A -> bool) l : List.length (filter P l) <= List.length l.
Proof. induction l; simpl; auto. destruct (P a); simpl; lia. Qed.

(** * near *)
Lemma near_iff vs : forall y x, near vs y x = true <-> near_duplicate vs y x.
Proof.
  induction vs as [|v vs IH]; intros y x.
  - simpl. split; auto. intros _ [|i] w; discriminate.
  - split.
    + destruct y as [|a y]; [discriminate|]. destruct x as [|b x]; [discriminate|].
      simpl. intro H. apply andb_true_iff in H. destruct H as [H1 H2].
      apply IH in H2. intros [|i] w Hw; simpl in Hw.
      * injection Hw as <-. exists a, b. repeat split; auto.
        unfold near1 in H1. destruct (vkind v); auto.
        destruct (as_num a) as [p|]; [|discriminate]. destruct (as_num b) as [q|]; [|discriminate].
        exists p, q. repeat split. apply Qle_bool_iff. exact H1.
      * apply (H2 i w Hw).
    + intro H. destruct (H 0 v eq_refl) as (a&b&Ea&Eb&Hk).
      destruct y as [|a' y]; [discriminate|]. destruct x as [|b' x]; [discriminate|].
      injection Ea as ->. injection Eb as ->. simpl. apply andb_true_iff. split.
      * unfold near1. destruct (vkind v); auto.
        destruct Hk as (p&q&->&->&Hk). apply Qle_bool_iff. exact Hk.
      * apply IH. intros i w Hw. apply (H (S i) w Hw).
Qed.

Section PreEval.
  Variable vs : list var.

  Lemma pre_in D X x :
    In x (pre_eval_check vs D X) ->
    In x X /\ forall y, In y D -> near vs y x = false.
  Proof.
    unfold pre_eval_check. intro H. apply in_map_iff in H. destruct H as ([i z]&E&H).
    simpl in E. subst z. apply filter_In in H. destruct H as [H HP]. simpl in HP.
    apply combine_seq_in in H. destruct H as [_ H]. rewrite Nat.sub_0_r in H.
    split; [eapply nth_error_In; eauto|].
    intros y Hy. apply negb_true_iff in HP.
    destruct (near vs y x) eqn:EN; auto.
    assert (exists j, nth_error D j = Some y) as [j Hj] by (apply In_nth_error; exact Hy).
    assert (Hi : i < List.length X) by (apply nth_error_Some; congruence).
    assert (In y (others i (X ++ D))).
    { apply others_in with (j := List.length X + j); [|lia].
      rewrite nth_error_app2 by lia. rewrite Nat.add_comm, Nat.add_sub. exact Hj. }
    assert (existsb (fun y0 => near vs y0 x) (others i (X ++ D)) = true).
    { apply existsb_exists. exists y; auto. }
    congruence.
  Qed.

  Lemma pre_length D X : List.length (pre_eval_check vs D X) <= List.length X.
  Proof.
    unfold pre_eval_check. rewrite map_length.
    eapply Nat.le_trans; [apply filter_length_le'|]. rewrite combine_length, seq_length. lia.
  Qed.

  Lemma pre_pairwise D X a b x y :
    a <> b -> nth_error (pre_eval_check vs D X) a = Some x ->
    nth_error (pre_eval_check vs D X) b = Some y -> near vs x y = false.
  Proof.
    assert (G : forall a b x y, a < b -> nth_error (pre_eval_check vs D X) a = Some x ->
              nth_error (pre_eval_check vs D X) b = Some y -> near vs x y = false /\ near vs y x = false).
    { clear. intros a b x y L Ha Hb. unfold pre_eval_check in Ha, Hb.
      destruct (filter_combine_pairs _ _ _ _ _ _ _ L Ha Hb) as (i&j&_&H2&H3&H4&H5&H6).
      simpl in H3, H4. rewrite Nat.sub_0_r in *.
      assert (Hi : i < List.length X) by (apply nth_error_Some; congruence).
      assert (Hj : j < List.length X) by (apply nth_error_Some; congruence).
      apply negb_true_iff in H3. apply negb_true_iff in H4. split.
      - destruct (near vs x y) eqn:EN; auto. rewrite <- H4. symmetry. apply existsb_exists. exists x. split; auto.
        apply others_in with (j := i); [|lia]. rewrite nth_error_app1 by lia. exact H5.
      - destruct (near vs y x) eqn:EN; auto. rewrite <- H3. symmetry. apply existsb_exists. exists y. split; auto.
        apply others_in with (j := j); [|lia]. rewrite nth_error_app1 by lia. exact H6. }
    intros N Ha Hb. destruct (Nat.lt_ge_cases a b) as [L|L].
    - apply (G a b x y L Ha Hb).
    - apply (G b a y x ltac:(lia) Hb Ha).
  Qed.

  (** If nothing is near anything else, nothing is dropped. *)
  Lemma pre_all D X :
    (forall i j x y, i <> j -> nth_error X i = Some x -> nth_error (X ++ D) j = Some y -> near vs y x = false) ->
    pre_eval_check vs D X = X.
  Proof.
    intro H. unfold pre_eval_check.
    assert (E : forall k l, (forall i x, In (i, x) (combine (seq k (List.length l)) l) -> nth_error X i = Some x) ->
      map snd (filter (fun p => negb (existsb (fun y => near vs y (snd p)) (others (fst p) (X ++ D))))
         (combine (seq k (List.length l)) l)) = l).
    { intros k l; revert k; induction l as [|a l IH]; intros k Hl; simpl; [reflexivity|].
      assert (HX : nth_error X k = Some a) by (apply Hl; left; reflexivity).
      assert (existsb (fun y => near vs y a) (others k (X ++ D)) = false).
      { destruct (existsb _ _) eqn:EE; auto. apply existsb_exists in EE. destruct EE as (y&Hy&HN).
        apply others_nth in Hy. destruct Hy as (j&Hj&N). rewrite (H k j a y) in HN; auto. }
      rewrite H0. simpl. f_equal. apply IH. intros i x Hi. apply Hl. right; exact Hi. }
    apply E. intros i x Hi. apply combine_seq_in in Hi. rewrite Nat.sub_0_r in Hi. tauto.
  Qed.
End PreEval.

(** * fill *)
Lemma sequence_some {A} (l : list (option A)) r :
  sequence l = Some r -> List.length r = List.length l /\ forall x, In x r -> In (Some x) l.
Proof.
  revert r; induction l as [|[a|] l IH]; intros r; simpl; try discriminate.
  - intros [= <-]; split; [reflexivity|intros x []].
  - destruct (sequence l) as [t|]; [|discriminate]. simpl. intros [= <-].
    destruct (IH t eq_refl) as [H1 H2]. simpl. split; [congruence|].
    intros x [<-|Hx]; auto.
Qed.

Lemma fillin_in vs fx X Y : fillin vs fx X = Ok Y ->
  List.length Y = List.length X /\
  forall y, In y Y -> match fx with
                      | None => In y X
                      | Some f => exists x, In x X /\ fill vs f x = Some y
                      end.
Proof.
  unfold fillin. destruct fx as [f|].
  - destruct (sequence _) as [t|] eqn:E; [|discriminate]. intros [= <-].
    destruct (sequence_some _ _ E) as [H1 H2]. rewrite map_length in H1. split; [exact H1|].
    intros y Hy. apply H2 in Hy. apply in_map_iff in Hy. destruct Hy as (x&Ex&Hx). eauto.
  - intros [= <-]. auto.
Qed.

Lemma lookup_existsb f n : existsb (fun p => String.eqb (fst p) n) f = match lookup f n with Some _ => true | None => false end.
Proof. induction f as [|[k v] f IH]; simpl; [reflexivity|]. destruct (String.eqb k n); simpl; auto. Qed.

Lemma fill_nil vs x y : fill vs [] x = Some y -> y = x.
Proof.
  revert x y; induction vs as [|v vs IH]; intros x y; simpl.
  - destruct x; [intros [= <-]; reflexivity|discriminate].
  - destruct x as [|a x]; [discriminate|]. destruct (fill vs [] x) eqn:E; [|discriminate].
    simpl. intros [= <-]. f_equal. apply IH, E.
Qed.

Lemma fill_component vs f : forall x y n c,
  fill vs f x = Some y -> In n (map vname vs) -> lookup f n = Some c -> component vs y n = Some c.
Proof.
  induction vs as [|v vs IH]; intros x y n c H Hn Hl; simpl in *; [contradiction|].
  destruct (String.eqb (vname v) n) eqn:E.
  - apply String.eqb_eq in E. rewrite E, Hl in H.
    destruct (fill vs f x); [|discriminate]. injection H as <-. reflexivity.
  - destruct Hn as [Hn|Hn]; [subst; rewrite String.eqb_refl in E; discriminate|].
    destruct (lookup f (vname v)).
    + destruct (fill vs f x) eqn:EF; [|discriminate]. injection H as <-. eauto.
    + destruct x as [|a x]; [discriminate|]. destruct (fill vs f x) eqn:EF; [|discriminate].
      injection H as <-. eauto.
Qed.

Lemma fill_free vs f : forall x y, fill vs f x = Some y -> free_part vs f y = x.
Proof.
  induction vs as [|v vs IH]; intros x y H; simpl in *.
  - destruct x; [injection H as <-; reflexivity|discriminate].
  - destruct (lookup f (vname v)) eqn:EL.
    + destruct (fill vs f x) eqn:EF; [|discriminate]. injection H as <-. simpl.
      rewrite lookup_existsb, EL. auto.
    + destruct x as [|a x]; [discriminate|]. destruct (fill vs f x) eqn:EF; [|discriminate].
      injection H as <-. simpl. rewrite lookup_existsb, EL. f_equal. auto.
Qed.

Lemma round_component vs : forall y n c v,
  NoDup (map vname vs) -> In v vs -> vname v = n ->
  component vs y n = Some c -> component vs (round_point vs y) n = Some (round_val (vkind v) c).
Proof.
  induction vs as [|w vs IH]; intros y n c v HN Hv Hn H; simpl in *; [contradiction|].
  destruct y as [|a y]; [discriminate|]. simpl. inversion HN; subst.
  destruct (String.eqb (vname w) (vname v)) eqn:E.
  - apply String.eqb_eq in E. injection H as ->. f_equal.
    destruct Hv as [->|Hv]; [reflexivity|]. exfalso. apply H2. rewrite E. apply in_map, Hv.
  - destruct Hv as [->|Hv]; [rewrite String.eqb_refl in E; discriminate|]. eauto.
Qed.

Lemma round_free vs f : forall y, List.length y = List.length vs ->
  free_part vs f (round_point vs y) = round_point (free_vars vs f) (free_part vs f y).
Proof.
  induction vs as [|v vs IH]; intros [|a y] L; simpl in *; try discriminate; [reflexivity|].
  rewrite lookup_existsb. destruct (lookup f (vname v)); simpl; rewrite IH by lia; reflexivity.
Qed.

Lemma fill_length vs f : forall x y, fill vs f x = Some y -> List.length y = List.length vs.
Proof.
  induction vs as [|v vs IH]; intros x y H; simpl in *.
  - destruct x; [injection H as <-; reflexivity|discriminate].
  - destruct (lookup f (vname v)).
    + destruct (fill vs f x) eqn:EF; [|discriminate]. injection H as <-. simpl. f_equal; eauto.
    + destruct x as [|a x]; [discriminate|]. destruct (fill vs f x) eqn:EF; [|discriminate].
      injection H as <-. simpl. f_equal; eauto.
Qed.

(** * create_DoE *)
Section Doe.
  Variable vs : list var.
  Variable samp : nat -> nat -> list point.
  Variable inner : nat -> point.
  Variable batch : bool.
  Notation doe_loop := (doe_loop vs samp).

  (** Anything true of every accepted row of every pass is true of the whole design. *)
  Lemma doe_loop_all (P : point -> Prop) D fx :
    (forall count n X x, fillin vs (Some fx) (samp count n) = Ok X ->
        In x (pre_eval_check vs D (map (round_point vs) X)) -> P x) ->
    forall passes count todo doe r,
      (forall x, In x doe -> P x) -> doe_loop D fx passes count todo doe = Ok r ->
      forall x, In x r -> P x.
  Proof.
    intros HP. induction passes as [|p IH]; intros count todo doe r Hd H; simpl in H.
    - destruct todo; injection H as <-; exact Hd.
    - destruct todo; [injection H as <-; exact Hd|].
      destruct (match sequence _ with Some _ => _ | None => _ end) as [X|e] eqn:E; [|discriminate].
      eapply IH; [|exact H]. intros x Hx. apply in_app_or in Hx. destruct Hx as [Hx|Hx]; auto.
      eapply HP; eauto.
  Qed.

  Lemma doe_loop_length D fx :
    (forall count n, List.length (samp count n) <= n) ->
    forall passes count todo doe r, doe_loop D fx passes count todo doe = Ok r ->
      List.length r <= List.length doe + todo.
  Proof.
    intro HS. induction passes as [|p IH]; intros count todo doe r H; simpl in H.
    - destruct todo; injection H as <-; lia.
    - destruct todo as [|t]; [injection H as <-; lia|].
      destruct (match sequence _ with Some _ => _ | None => _ end) as [X|e] eqn:E; [|discriminate].
      apply IH in H. rewrite app_length in H.
      destruct (fillin_in vs (Some fx) (samp count (S t)) X E) as [HL _].
      pose proof (pre_length vs D (map (round_point vs) X)) as HP. rewrite map_length in HP.
      specialize (HS count (S t)). lia.
  Qed.

  Lemma create_doe_length D n fx r :
    (forall count n, List.length (samp count n) <= n) ->
    create_doe vs samp D n fx = Ok r -> List.length r <= n.
  Proof. intros HS H. unfold create_doe in H. apply doe_loop_length in H; auto. Qed.

  Lemma cands_length n fx C :
    arg_max_acquisition vs inner batch n fx = Ok C -> List.length C <= max 1 n.
  Proof.
    unfold arg_max_acquisition. destruct (1 <? n) eqn:E.
    - destruct batch; [|discriminate]. intro H. apply fillin_in in H. destruct H as [H _].
      rewrite H. eapply Nat.le_trans; [apply filter_length_le'|]. rewrite map_length, seq_length. lia.
    - intro H. apply fillin_in in H. destruct H as [H _]. rewrite H.
      eapply Nat.le_trans; [apply filter_length_le'|]. cbn [List.length]. lia.
  Qed.

  Lemma ask_cases fitted D nd ds np fx X :
    ask vs samp inner batch fitted D nd ds np fx = Ok X ->
    let n : nat := match np with Some n => n | None => if fitted then nd else ds end in
    X <> [] /\
    ((fitted = false /\ create_doe vs samp D n fx = Ok X) \/
     (fitted = true /\ exists C, arg_max_acquisition vs inner batch n fx = Ok C /\
        let X0 := pre_eval_check vs D C in
        ((n <= List.length X0 /\ X = X0) \/
         (List.length X0 < n /\ exists E, create_doe vs samp D (n - List.length X0) fx = Ok E /\ X = X0 ++ E)))).
  Proof.
    unfold ask. destruct fitted.
    - set (n := match np with Some n => n | None => nd end).
      destruct (arg_max_acquisition vs inner batch n fx) as [C|e]; [|discriminate].
      cbn zeta. set (X0 := pre_eval_check vs D C).
      destruct (List.length X0 <? n) eqn:E.
      + apply Nat.ltb_lt in E. destruct (create_doe _ _ _ _ _) as [E0|e] eqn:EC; [|discriminate].
        destruct (X0 ++ E0) eqn:EX; [discriminate|]. intros [= <-]. split; [discriminate|].
        right. split; auto. exists C. split; auto. right. split; auto. exists E0. auto.
      + apply Nat.ltb_ge in E. destruct X0 eqn:EX; [discriminate|]. intros [= <-]. split; [discriminate|].
        right. split; auto. exists C. split; auto. fold X0. rewrite EX. left. auto.
    - destruct (create_doe _ _ _ _ _) as [[|e0 E0]|e] eqn:EC; try discriminate.
      intros [= <-]. split; [discriminate|]. left. split; auto.
  Qed.

  Lemma ask_count (fitted : bool) D nd ds np fx X :
    (forall count n, List.length (samp count n) <= n) ->
    let n : nat := match np with Some n => n | None => if fitted then nd else ds end in
    1 <= n ->
    ask vs samp inner batch fitted D nd ds np fx = Ok X -> 1 <= List.length X <= n.
  Proof.
    intros HS n Hn H. destruct (ask_cases _ _ _ _ _ _ _ H) as [HX HC]. fold n in HC.
    split; [destruct X; [congruence|simpl; lia]|].
    destruct HC as [[_ HC]|[_ (C&HA&[[H1 ->]|[H1 (E&H2&->)]])]].
    - eapply create_doe_length; eauto.
    - pose proof (cands_length _ _ _ HA). pose proof (pre_length vs D C). lia.
    - rewrite app_length. pose proof (create_doe_length _ _ _ _ HS H2). lia.
  Qed.

  Lemma ask_errors fitted D nd ds np fx e :
    (forall count n x, In x (samp count n) -> List.length x = List.length (free_vars vs (match fx with Some f => f | None => [] end))) ->
    (forall i, inner i = [] \/ List.length (inner i) = List.length (free_vars vs (match fx with Some f => f | None => [] end))) ->
    ask vs samp inner batch fitted D nd ds np fx = Err e -> e = EAskEmpty \/ e = ENotImplemented.
  Proof.
    intros HS HI.
    assert (HF : forall f x, List.length x = List.length (free_vars vs f) -> exists y, fill vs f x = Some y).
    { clear. intros f. induction vs as [|v l IH]; intros x H; simpl in *.
      - destruct x; [eauto|discriminate].
      - destruct (lookup f (vname v)) eqn:E; simpl in H.
        + destruct (IH x H) as [y ->]. simpl; eauto.
        + destruct x as [|a x]; [discriminate|]. destruct (IH x) as [y ->]; [simpl in H; lia|]. simpl; eauto. }
    assert (HSeq : forall f X, (forall x, In x X -> List.length x = List.length (free_vars vs f)) ->
               exists Y, fillin vs (Some f) X = Ok Y).
    { clear -HF. intros f X H. unfold fillin.
      assert (exists Y, sequence (map (fill vs f) X) = Some Y) as [Y ->]; [|eauto].
      induction X as [|x X IH]; simpl; [eauto|]. destruct (HF f x (H x (or_introl eq_refl))) as [y ->].
      destruct IH as [Y ->]; [intros; apply H; right; assumption|]. simpl; eauto. }
    set (f := match fx with Some f => f | None => [] end) in *.
    assert (HL : forall p c t d, exists r, doe_loop D f p c t d = Ok r).
    { induction p as [|p IH]; intros c t d; simpl; destruct t as [|t]; eauto.
      destruct (HSeq f (samp c (S t)) (HS c (S t))) as [Y HY]. unfold fillin in HY. rewrite HY. apply IH. }
    unfold ask, create_doe. fold f.
    destruct fitted.
    - set (n := match np with Some n => n | None => nd end).
      destruct (arg_max_acquisition vs inner batch n fx) as [C|e0] eqn:EA.
      + cbn zeta. destruct (List.length _ <? n).
        * destruct (HL 4 0 (n - List.length (pre_eval_check vs D C)) []) as [r ->].
          destruct (_ ++ r); [intros [= <-]; auto|discriminate].
        * destruct (pre_eval_check vs D C); [intros [= <-]; auto|discriminate].
      + intros [= <-]. unfold arg_max_acquisition in EA.
        assert (HFC : forall l, (forall c, In c l -> c = [] \/ List.length c = List.length (free_vars vs f)) ->
           exists Y, fillin vs fx (filter (fun c => negb (List.length c =? 0)) l) = Ok Y).
        { intros l Hl. unfold f in *. destruct fx as [f0|]; [|simpl; eauto]. apply HSeq. intros x Hx.
          apply filter_In in Hx. destruct Hx as [Hx1 Hx2]. destruct (Hl _ Hx1) as [->|Hx]; [discriminate|exact Hx]. }
        destruct (1 <? n).
        * destruct batch; [|injection EA as <-; auto].
          destruct (HFC (map inner (seq 0 n))) as [Y HY]; [|congruence].
          intros c Hc. apply in_map_iff in Hc. destruct Hc as (i&<-&_). apply HI.
        * destruct (HFC [inner 0]) as [Y HY]; [|congruence]. intros c [<-|[]]. apply HI.
    - destruct (HL 4 0 (match np with Some n => n | None => ds end) []) as [[|a r] ->]; [intros [= <-]; auto|discriminate].
  Qed.

  (** C11 *)
  Lemma doe_not_near D n fx r x y :
    create_doe vs samp D n fx = Ok r -> In x r -> In y D -> near vs y x = false.
  Proof.
    intros H Hx Hy. unfold create_doe in H.
    revert x Hx. eapply doe_loop_all; [| |exact H]; [|intros ? []].
    intros count m X x _ Hx. apply pre_in in Hx. apply Hx, Hy.
  Qed.

  Lemma ask_not_near fitted D nd ds np fx X x y :
    ask vs samp inner batch fitted D nd ds np fx = Ok X -> In x X -> In y D -> near vs y x = false.
  Proof.
    intros H Hx Hy. destruct (ask_cases _ _ _ _ _ _ _ H) as [_ HC].
    destruct HC as [[_ HC]|[_ (C&HA&[[H1 ->]|[H1 (E&H2&->)]])]].
    - eapply doe_not_near; eauto.
    - apply pre_in in Hx. apply Hx, Hy.
    - apply in_app_or in Hx. destruct Hx as [Hx|Hx].
      + apply pre_in in Hx. apply Hx, Hy.
      + eapply doe_not_near; eauto.
  Qed.

  (** C12, the part that holds: one pass of the duplicate check. *)
  Lemma ask_pairwise D nd ds np fx X C a b x y :
    let n := match np with Some n => n | None => nd end in
    ask vs samp inner batch true D nd ds np fx = Ok X ->
    arg_max_acquisition vs inner batch n fx = Ok C ->
    n <= List.length (pre_eval_check vs D C) ->
    a <> b -> nth_error X a = Some x -> nth_error X b = Some y -> near vs x y = false.
  Proof.
    intros n H HA HL N Ha Hb. destruct (ask_cases _ _ _ _ _ _ _ H) as [_ HC]. cbn zeta in HC. fold n in HC.
    destruct HC as [[? _]|[_ (C'&HA'&HC)]]; [discriminate|].
    assert (C' = C) by congruence. subst C'. destruct HC as [[H1 ->]|[H1 _]]; [|lia].
    eapply pre_pairwise; eauto.
  Qed.

  Lemma doe_pairwise D n (fx : option fixed_t) r a b x y :
    (forall X, fillin vs (Some (match fx with Some f => f | None => [] end)) (samp 0 n) = Ok X ->
       n <= List.length (pre_eval_check vs D (map (round_point vs) X))) ->
    create_doe vs samp D n fx = Ok r ->
    a <> b -> nth_error r a = Some x -> nth_error r b = Some y -> near vs x y = false.
  Proof.
    intros HL H N Ha Hb. unfold create_doe in H. set (f := match fx with Some f => f | None => [] end) in *.
    destruct n as [|n]; [simpl in H; injection H as <-; destruct a; discriminate|].
    cbn [Model_Ask.doe_loop] in H.
    destruct (fillin vs (Some f) (samp 0 (S n))) as [X|e] eqn:E; [|discriminate].
    specialize (HL X eq_refl).
    replace (S n - List.length (pre_eval_check vs D (map (round_point vs) X))) with 0 in H by lia.
    simpl in H. injection H as <-.
    eapply pre_pairwise; eauto.
  Qed.

  (** C13 *)
  Lemma ask_origin fitted D nd ds np f X x :
    ask vs samp inner batch fitted D nd ds np (Some f) = Ok X -> In x X ->
    (exists i, inner i <> [] /\ fill vs f (inner i) = Some x) \/
    (exists count n s y, In s (samp count n) /\ fill vs f s = Some y /\ x = round_point vs y).
  Proof.
    intros H Hx.
    assert (HD : forall n E, create_doe vs samp D n (Some f) = Ok E -> In x E ->
       exists count n s y, In s (samp count n) /\ fill vs f s = Some y /\ x = round_point vs y).
    { intros n E HE Hx'. unfold create_doe in HE. revert x Hx' Hx. 
      intros x Hx' _. revert x Hx'. eapply doe_loop_all; [| |exact HE]; [|intros ? []].
      intros count m Y z HF Hz. apply pre_in in Hz. destruct Hz as [Hz _].
      apply in_map_iff in Hz. destruct Hz as (y&<-&Hy).
      apply fillin_in in HF. destruct HF as [_ HF]. destruct (HF y Hy) as (s&Hs&Hf).
      exists count, m, s, y. auto. }
    assert (HCd : forall n C, arg_max_acquisition vs inner batch n (Some f) = Ok C -> In x C ->
       exists i, inner i <> [] /\ fill vs f (inner i) = Some x).
    { intros n C HA HxC. unfold arg_max_acquisition in HA.
      assert (G : forall l, fillin vs (Some f) (filter (fun c => negb (List.length c =? 0)) l) = Ok C ->
                 (forall c, In c l -> exists i, c = inner i) ->
                 exists i, inner i <> [] /\ fill vs f (inner i) = Some x).
      { intros l HF Hl. apply fillin_in in HF. destruct HF as [_ HF]. destruct (HF x HxC) as (c&Hc&Hfc).
        apply filter_In in Hc. destruct Hc as [Hc1 Hc2]. destruct (Hl c Hc1) as [i ->]. exists i. split; auto.
        intro E. rewrite E in Hc2. discriminate. }
      destruct (1 <? n).
      - destruct batch; [|discriminate]. apply (G _ HA). intros c Hc. apply in_map_iff in Hc. destruct Hc as (i&<-&_). eauto.
      - apply (G _ HA). intros c [<-|[]]. eauto. }
    destruct (ask_cases _ _ _ _ _ _ _ H) as [_ HC].
    destruct HC as [[_ HC]|[_ (C&HA&[[H1 ->]|[H1 (E&H2&->)]])]].
    - right. eapply HD; eauto.
    - left. apply pre_in in Hx. destruct Hx. eapply HCd; eauto.
    - apply in_app_or in Hx. destruct Hx as [Hx'|Hx'].
      + left. apply pre_in in Hx'. destruct Hx'. eapply HCd; eauto.
      + right. eapply HD; eauto.
  Qed.

  (** C14 *)
  Lemma ask_origin_free fitted D nd ds np X x :
    ask vs samp inner batch fitted D nd ds np None = Ok X -> In x X ->
    (exists i, inner i <> [] /\ x = inner i) \/
    (exists count n s, In s (samp count n) /\ x = round_point vs s).
  Proof.
    intros H Hx.
    assert (HD : forall n E, create_doe vs samp D n None = Ok E -> In x E ->
       exists count n s, In s (samp count n) /\ x = round_point vs s).
    { intros n E HE Hx'. unfold create_doe in HE. revert x Hx' Hx. 
      intros x Hx' _. revert x Hx'. eapply doe_loop_all; [| |exact HE]; [|intros ? []].
      intros count m Y z HF Hz. apply pre_in in Hz. destruct Hz as [Hz _].
      apply in_map_iff in Hz. destruct Hz as (y&<-&Hy).
      apply fillin_in in HF. destruct HF as [_ HF]. destruct (HF y Hy) as (s&Hs&Hf).
      apply fill_nil in Hf. subst y. exists count, m, s. auto. }
    assert (HCd : forall n C, arg_max_acquisition vs inner batch n None = Ok C -> In x C ->
       exists i, inner i <> [] /\ x = inner i).
    { intros n C HA HxC. unfold arg_max_acquisition in HA.
      assert (G : forall l, fillin vs None (filter (fun c => negb (List.length c =? 0)) l) = Ok C ->
                 (forall c, In c l -> exists i, c = inner i) ->
                 exists i, inner i <> [] /\ x = inner i).
      { intros l HF Hl. apply fillin_in in HF. destruct HF as [_ HF]. pose proof (HF x HxC) as Hc.
        simpl in Hc.
        apply filter_In in Hc. destruct Hc as [Hc1 Hc2]. destruct (Hl x Hc1) as [i ->]. exists i. split; auto.
        intro E. rewrite E in Hc2. discriminate. }
      destruct (1 <? n).
      - destruct batch; [|discriminate]. apply (G _ HA). intros c Hc. apply in_map_iff in Hc. destruct Hc as (i&<-&_). eauto.
      - apply (G _ HA). intros c [<-|[]]. eauto. }
    destruct (ask_cases _ _ _ _ _ _ _ H) as [_ HC].
    destruct HC as [[_ HC]|[_ (C&HA&[[H1 ->]|[H1 (E&H2&->)]])]].
    - right. eapply HD; eauto.
    - left. apply pre_in in Hx. destruct Hx. eapply HCd; eauto.
    - apply in_app_or in Hx. destruct Hx as [Hx'|Hx'].
      + left. apply pre_in in Hx'. destruct Hx'. eapply HCd; eauto.
      + right. eapply HD; eauto.
  Qed.
End Doe.

Lemma qclip_bounds x lb ub : (lb <= ub)%Q -> (lb <= qclip x lb ub)%Q /\ (qclip x lb ub <= ub)%Q.
Proof.
  intro H. unfold qclip. destruct (Qle_bool lb x) eqn:E1.
  - apply Qle_bool_iff in E1. destruct (Qle_bool x ub) eqn:E2.
    + apply Qle_bool_iff in E2. auto.
    + split; lra.
  - destruct (Qle_bool lb ub) eqn:E2.
    + split; lra.
    + split; lra.
Qed.

Lemma round_admissible k v :
  (forall lb ub p, k = KReal lb ub p -> (lb <= ub)%Q) ->
  admissible k v -> admissible k (round_val k v).
Proof.
  intros Hk H. destruct k; simpl in *; auto.
  destruct H as (q&E&H1&H2). rewrite E. exists (real_round lb ub prec q). split; [reflexivity|].
  unfold real_round. destruct prec; [|auto]. apply qclip_bounds. eapply Hk; reflexivity.
Qed.

Lemma round_in_space vs x :
  (forall v lb ub p, In v vs -> vkind v = KReal lb ub p -> (lb <= ub)%Q) ->
  in_space vs x -> in_space vs (round_point vs x).
Proof.
  intros Hv H. induction H as [|v a vs x Ha H IH]; simpl; [constructor|]. constructor.
  - apply round_admissible; auto. intros lb ub p E. eapply Hv; [left; reflexivity|exact E].
  - apply IH. intros w lb ub p Hw. apply Hv. right; exact Hw.
Qed.

(** * Evaluate *)
Section Eval.
  Context {A B : Type}.
  Variable f : A -> B.

  Lemma nth_set_nth {T} i j (v : T) l :
    nth_error (set_nth i v l) j = if (i =? j) && (j <? List.length l) then Some v else nth_error l j.
  Proof.
    revert i j; induction l as [|a l IH]; intros i j; simpl.
    - destruct i, j; simpl; try reflexivity. destruct (i =? j); reflexivity.
    - destruct i as [|i], j as [|j]; simpl; try reflexivity. rewrite IH. reflexivity.
  Qed.

  Lemma set_nth_length {T} i (v : T) l : List.length (set_nth i v l) = List.length l.
  Proof. revert i; induction l; intros [|i]; simpl; auto. Qed.

  Lemma finish_length X sl i : List.length (finish f X sl i) = List.length sl.
  Proof. unfold finish. destruct (nth_error X i); [apply set_nth_length|reflexivity]. Qed.

  Lemma fold_finish X sched : forall slots,
    List.length slots = List.length X ->
    List.length (fold_left (finish f X) sched slots) = List.length X /\
    forall j x, nth_error X j = Some x ->
      nth_error (fold_left (finish f X) sched slots) j =
        if existsb (Nat.eqb j) sched then Some (Some (f x)) else nth_error slots j.
  Proof.
    induction sched as [|i sched IH]; intros slots HL; simpl; [auto|].
    destruct (IH (finish f X slots i)) as [H1 H2]; [rewrite finish_length; exact HL|].
    split; [exact H1|]. intros j x Hx. rewrite (H2 j x Hx).
    destruct (existsb (Nat.eqb j) sched); [rewrite orb_true_r; reflexivity|]. rewrite orb_false_r.
    unfold finish. destruct (nth_error X i) as [xi|] eqn:Ei.
    - rewrite nth_set_nth. rewrite Nat.eqb_sym.
      assert (j < List.length slots) by (rewrite HL; apply nth_error_Some; congruence).
      apply Nat.ltb_lt in H. rewrite H, andb_true_r. destruct (j =? i) eqn:E; [|reflexivity].
      apply Nat.eqb_eq in E. subst. congruence.
    - destruct (j =? i) eqn:E; [|reflexivity]. apply Nat.eqb_eq in E. subst. congruence.
  Qed.

  Lemma sequence_all {T} (l : list T) : sequence (map Some l) = Some l.
  Proof. induction l; simpl; [reflexivity|]. rewrite IHl. reflexivity. Qed.

  Lemma nth_error_ext {T} (l m : list T) : (forall j, nth_error l j = nth_error m j) -> l = m.
  Proof.
    revert m; induction l as [|a l IH]; intros [|b m] H; auto.
    - specialize (H 0); discriminate.
    - specialize (H 0); discriminate.
    - f_equal; [specialize (H 0); simpl in H; congruence|]. apply IH. intro j. apply (H (S j)).
  Qed.

  Lemma evaluate_parallel_ok X sched :
    (forall i, i < List.length X -> In i sched) ->
    evaluate_parallel f X sched = Some (map f X).
  Proof.
    intro H. unfold evaluate_parallel.
    destruct (fold_finish X sched (repeat None (List.length X)) ltac:(apply repeat_length)) as [H1 H2].
    replace (fold_left (finish f X) sched (repeat None (List.length X))) with (map Some (map f X)).
    - apply sequence_all.
    - apply nth_error_ext. intro j. rewrite map_map.
      destruct (nth_error X j) as [x|] eqn:E.
      + rewrite (H2 j x E).
        assert (L : j < List.length X) by (apply nth_error_Some; congruence).
        assert (EX : existsb (Nat.eqb j) sched = true) by (apply existsb_exists; exists j; split; [apply H, L|apply Nat.eqb_refl]).
        rewrite EX. rewrite nth_error_map, E. reflexivity.
      + rewrite nth_error_map, E. simpl. symmetry. apply nth_error_None. rewrite H1.
        apply nth_error_None. exact E.
  Qed.
End Eval.

Lemma zip_star_entry {A B} (fs : list (A -> B)) (X : list A) :
  fs <> [] ->
  List.length (evaluate_multi fs X) = List.length X /\
  forall i x, nth_error X i = Some x -> nth_error (evaluate_multi fs X) i = Some (map (fun f => f x) fs).
Proof.
  unfold evaluate_multi. induction fs as [|f [|g fs] IH]; intro H; [congruence| |].
  - simpl. rewrite !map_length. split; auto. intros i x Hx. rewrite map_map, nth_error_map, Hx. reflexivity.
  - destruct (IH ltac:(discriminate)) as [H1 H2].
    change (zip_star (map (fun f0 => map f0 X) (f :: g :: fs))) with
      (map (fun p => fst p :: snd p) (combine (map f X) (zip_star (map (fun f0 => map f0 X) (g :: fs))))).
    set (T := zip_star (map (fun f0 : A -> B => map f0 X) (g :: fs))) in *.
    split; [rewrite map_length, combine_length, map_length; lia|].
    intros i x Hx. rewrite nth_error_map.
    assert (EC : nth_error (combine (map f X) T) i = Some (f x, map (fun f0 => f0 x) (g :: fs))).
    { specialize (H2 i x Hx). clear -Hx H2.
      assert (HM : nth_error (map f X) i = Some (f x)) by (rewrite nth_error_map, Hx; reflexivity).
      clear Hx. revert HM H2. generalize (map f X). intro Y. revert Y i.
      induction T as [|t T IH]; intros [|y Y] [|i]; simpl; try discriminate; auto.
      - congruence. }
    rewrite EC. reflexivity.
Qed.

(** * val_eqb *)
Lemma val_eqb_refl v : val_eqb v v = true.
Proof.
  revert v. fix IH 1. intros [q|z|s|b|l]; simpl.
  - apply Qeq_bool_iff. reflexivity.
  - apply Qeq_bool_iff. reflexivity.
  - apply String.eqb_refl.
  - apply Qeq_bool_iff. reflexivity.
  - induction l as [|a l IHl]; [reflexivity|]. rewrite (IH a). simpl. exact IHl.
Qed.

(** Rounding leaves c alone (up to ==) unless the variable is a real one with a precision. *)
Lemma round_val_noprec k c :
  (forall lb ub p, k <> KReal lb ub (Some p)) -> val_eqb (round_val k c) c = true.
Proof.
  intro H. destruct k as [lb ub [p|]| | | | |]; cbn [round_val]; try apply val_eqb_refl.
  - exfalso. eapply H. reflexivity.
  - destruct c; cbn [as_num]; try apply val_eqb_refl; simpl; apply Qeq_bool_iff; reflexivity.
Qed.

Lemma round_val_grid lb ub p c q :
  as_num c = Some q -> (real_round lb ub (Some p) q == q)%Q ->
  val_eqb (round_val (KReal lb ub (Some p)) c) c = true.
Proof.
  intros E H. cbn [round_val]. rewrite E. simpl. rewrite E. apply Qeq_bool_iff. exact H.
Qed.

Lemma ask_fixed vs samp inner batch fitted D nd ds np (f : fixed_t) X x :
  NoDup (map vname vs) ->
  (forall v c, In v vs -> lookup f (vname v) = Some c -> val_eqb (round_val (vkind v) c) c = true) ->
  ask vs samp inner batch fitted D nd ds np (Some f) = Ok X -> In x X ->
  (forall n c, In n (map vname vs) -> lookup f n = Some c ->
     exists c', component vs x n = Some c' /\ val_eqb c' c = true) /\
  ((exists i, inner i <> [] /\ free_part vs f x = inner i) \/
   (exists count n s, In s (samp count n) /\ free_part vs f x = round_point (free_vars vs f) s)).
Proof.
  intros HN HR H Hx. destruct (ask_origin _ _ _ _ _ _ _ _ _ _ _ _ H Hx) as [(i&Hi&E)|(count&n&s&y&Hs&E&->)].
  - split.
    + intros n c Hn Hl. exists c. split; [eapply fill_component; eauto|apply val_eqb_refl].
    + left. exists i. split; auto. apply fill_free, E.
  - split.
    + intros n0 c Hn Hl. pose proof (fill_component _ _ _ _ _ _ E Hn Hl) as HC.
      apply in_map_iff in Hn. destruct Hn as (v&<-&Hv).
      exists (round_val (vkind v) c). split; [eapply round_component; eauto|eauto].
    + right. exists count, n, s. split; auto. rewrite round_free by (eapply fill_length; eauto).
      f_equal. apply fill_free, E.
Qed.

Lemma ask_in_space vs samp inner batch fitted D nd ds np X :
  (forall v lb ub p, In v vs -> vkind v = KReal lb ub p -> (lb <= ub)%Q) ->
  (forall count n x, In x (samp count n) -> in_space vs x) ->
  (forall i, inner i <> [] -> in_space vs (inner i)) ->
  ask vs samp inner batch fitted D nd ds np None = Ok X ->
  forall x, In x X -> in_space vs x.
Proof.
  intros HB HS HI H x Hx.
  destruct (ask_origin_free _ _ _ _ _ _ _ _ _ _ _ H Hx) as [(i&Hi&->)|(c&n&s&Hs&->)].
  - auto.
  - apply round_in_space; eauto.
Qed.
