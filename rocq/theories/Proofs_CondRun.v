(** Lemmas about Model_CondRun.v. *)
From Coq Require Import Bool Arith ZArith QArith String List Lia.
From Verif Require Import Lib_List Model_Opt Spec_Opt Proofs_Opt Model_Conditional Model_CondRun Spec_CondRun.
Import ListNotations.
Open Scope nat_scope.

Lemma tell_top_effect c X fv warm s s' : tell_top c X fv warm s = (None, s') ->
  List.length fv = List.length X /\ X <> [] /\ exists X2, data s' = Some (rows s ++ X2) /\ Forall finrow X2 /\ map qpair X2 = finite_obs (combine X fv) /\
    (forall r, In r X2 -> rn r = 0) /\ evals s' = evals s + List.length X2 /\ rows s ++ X2 <> [] /\ stop_max s' = stop_max s /\ stop_tgt s' = stop_tgt s /\
    if warm then iters s' = iters s /\ hist s' = hist s else exists r, xopt c s' = Ok (Some r) /\ iters s' = S (iters s) /\ hist s' = hist s ++ [rf r].
Proof.
  unfold tell_top. destruct X as [|x X]; [discriminate|]. set (XX := x :: X). destruct (Nat.eqb_spec (List.length fv) (List.length XX)) as [L|]; [|discriminate].
  set (R := map (fun p => mkRow (fst (fst p)) (snd (fst p)) 0 (snd p)) (combine (combine XX fv) (map str_nat (seq 0 (List.length XX))))).
  assert (PR : map pair_of R = combine XX fv).
  { unfold R. rewrite map_map. assert (G : forall (a : list (dict * fval)) (b : list string), List.length a = List.length b ->
      map (fun p => pair_of (mkRow (fst (fst p)) (snd (fst p)) 0 (snd p))) (combine a b) = a).
    { induction a as [|[u v] a IH]; intros [|w b] E; try reflexivity; try discriminate. simpl in E. cbn [combine map fst snd]. rewrite IH by lia. reflexivity. }
    apply G. rewrite combine_length, map_length, seq_length, L. lia. }
  assert (Z : forall r, In r R -> rn r = 0) by (intros r Hr; apply in_map_iff in Hr as (p & <- & _); reflexivity).
  clearbody R. intros H. split; [exact L|]. split; [discriminate|]. exists (post_eval_check R).
  assert (FO : map qpair (post_eval_check R) = finite_obs (combine XX fv)) by (rewrite <- PR; symmetry; apply finite_obs_post).
  assert (ZZ : forall r, In r (post_eval_check R) -> rn r = 0) by (intros r Hr; apply filter_In in Hr; apply Z, Hr).
  assert (FF := post_finrow R).
  assert (K : match (let s1 := add_evals (set_data s (rows s ++ post_eval_check R)) (List.length (post_eval_check R)) in
      match xopt c s1 with Err e => (Some e, s1) | Ok None => (Some EAttribute, s1) | Ok (Some r) => (None, if warm then s1 else push_hist s1 (rf r)) end) with
      | (e, t) => e = None /\ t = s' end).
  { unfold rows. destruct (data s) as [[|d0 d]|]; [destruct (post_eval_check R) as [|a b]; [discriminate|]| |]; cbv zeta in H |- *; rewrite ?app_nil_l in *;
      match goal with |- match ?x with _ => _ end => change (x = (None, s')) in H; rewrite H end; auto. }
  cbv zeta in K. destruct (xopt c (add_evals (set_data s (rows s ++ post_eval_check R)) (List.length (post_eval_check R)))) as [[r|]|e] eqn:XO; destruct K as [K1 K2]; try discriminate.
  assert (NE : rows s ++ post_eval_check R <> []) by (intros E; unfold xopt in XO; cbn [data add_evals set_data] in XO; rewrite E in XO; discriminate).
  subst s'. destruct warm; cbn [data add_evals set_data push_hist evals iters hist stop_max stop_tgt]; repeat (split; [auto; fail|]); auto.
  exists r. split; [|auto]. rewrite <- XO. reflexivity.
Qed.

Section Top.
  Variable names : list string.
  Variable fixed : nat -> dict.
  Variable order : list string -> list string.
  Variable n_sub n_point : nat.
  Variable c : cfg.
  Variable propose : nat -> nat -> st dict -> res dict.
  Variable choice : nat -> nat -> list nat.
  Variable fitk : nat -> nat -> bool * option exn.
  Notation hist_of := (history names fixed order n_sub n_point c propose choice fitk).
  Notation ask := (cond_ask names fixed order n_sub n_point propose choice).
  Notation ctell := (cond_tell fixed c fitk).

  Lemma ask_top k n s o s' : ask k n s = (o, s') -> top s' = top s /\ subs s' = subs s.
  Proof.
    unfold cond_ask. destruct (choose n_sub (gen s) _ (choice k)) as [idx g]. destruct (ask_subs propose k 0 s idx); intros [= <- <-]; auto.
  Qed.
  Lemma tell_none k X fv w s s' : ctell k X fv w s = (None, s') ->
    List.length (bo_idx s) = List.length X /\ exists l t, tell_subs fixed c fitk k 0 (bo_idx s) X fv (subs s) = (None, l) /\ tell_top c X fv w (top s) = (None, t) /\ s' = CSt t l (gen s) (bo_idx s).
  Proof.
    unfold cond_tell. destruct (Nat.eqb_spec (List.length (bo_idx s)) (List.length X)) as [L|]; [|discriminate]. split; [exact L|].
    destruct (tell_subs fixed c fitk k 0 (bo_idx s) X fv (subs s)) as [[e|] l]; [discriminate|]. destruct (tell_top c X fv w (top s)) as [[e|] t]; [discriminate|]. injection H as <-. eauto.
  Qed.

  Lemma history_top ops : forall k s s', hist_of k s ops = Some s' -> Forall finrow (rows (top s)) ->
    Forall finrow (rows (top s')) /\ map qpair (rows (top s')) = map qpair (rows (top s)) ++ finite_obs (told_in ops) /\
    evals (top s') = evals (top s) + List.length (finite_obs (told_in ops)) /\ ((forall r, In r (rows (top s)) -> rn r = 0) -> forall r, In r (rows (top s')) -> rn r = 0).
  Proof.
    induction ops as [|[n|X fv w] ops IH]; intros k s s' H F; cbn [history] in H.
    - injection H as <-. cbn. rewrite app_nil_r, Nat.add_0_r. auto.
    - destruct (ask k n s) as [[X|e] s1] eqn:E; [|discriminate]. apply ask_top in E as [E _]. rewrite <- E in F |- *. exact (IH _ _ _ H F).
    - destruct (ctell k X fv w s) as [[e|] s1] eqn:E; [discriminate|]. apply tell_none in E as (L & l & t & _ & ET & ->).
      apply tell_top_effect in ET as (LF & NX & X2 & D & FX & Q2 & Z & EV & NE & _).
      assert (RT : rows t = rows (top s) ++ X2) by (unfold rows at 1; rewrite D; reflexivity).
      destruct (IH _ _ _ H) as (A & B & C & G); [cbn [top]; rewrite RT; apply Forall_app; auto|]. cbn [top] in *.
      split; [exact A|]. change (told_in (OTell X fv w :: ops)) with (combine X fv ++ told_in ops). rewrite finite_obs_app, app_length.
      split; [rewrite B, RT, map_app, Q2, app_assoc; reflexivity|]. split; [rewrite C, EV, <- Q2, map_length; lia|].
      intros Hz. apply G. intros r Hr. rewrite RT in Hr. apply in_app_iff in Hr as [Hr|Hr]; auto.
  Qed.

  (** hist_f: one entry for each call of tell that is no warm start; the entry is a best value of what was told until then. *)
  Lemma history_hist ops : forall k s s', hist_of k s ops = Some s' -> Forall finrow (rows (top s)) ->
    List.length (hist (top s')) = List.length (hist (top s)) + List.length (filter paid ops) /\ iters (top s') = iters (top s) + List.length (filter paid ops) /\
    firstn (List.length (hist (top s))) (hist (top s')) = hist (top s) /\
    forall ops1 X fv ops2, ops = ops1 ++ OTell X fv false :: ops2 ->
      exists q, nth_error (hist (top s')) (List.length (hist (top s)) + List.length (filter paid ops1)) = Some (FNum q) /\
        best_of (minimize c) q (map rq (rows (top s)) ++ map snd (finite_obs (told_in (ops1 ++ [OTell X fv false])))).
  Proof.
    induction ops as [|o ops IH]; intros k s s' H F; cbn [history] in H.
    - injection H as <-. cbn. rewrite !Nat.add_0_r, firstn_all. repeat split; auto. intros [|] X fv ops2 E; discriminate.
    - assert (ST : exists s1, hist_of (S k) s1 ops = Some s' /\ match o with
        | OAsk _ => top s1 = top s
        | OTell X fv w => tell_top c X fv w (top s) = (None, top s1) end).
      { destruct o as [n|X fv w].
        - destruct (ask k n s) as [[X|e] s1] eqn:E; [|discriminate]. apply ask_top in E as [E _]. eauto.
        - destruct (ctell k X fv w s) as [[e|] s1] eqn:E; [discriminate|]. apply tell_none in E as (L & l & t & _ & ET & ->). eexists. split; [exact H|]. exact ET. }
      clear H. destruct ST as (s1 & H & ST).
      destruct o as [n|X0 fv0 w].
      + rewrite <- ST in F |- *. destruct (IH _ _ _ H F) as (A & B & P & C). cbn [filter paid]. repeat split; auto.
        intros [|o1 ops1] X fv ops2 E; [discriminate|]. injection E as <- E. destruct (C _ _ _ _ E) as (q & C1 & C2). exists q. cbn [filter paid]. auto.
      + apply tell_top_effect in ST as (LF & NX & X2 & D & FX & Q2 & Z & EV & NE & _ & _ & HH).
        assert (RT : rows (top s1) = rows (top s) ++ X2) by (unfold rows at 1; rewrite D; reflexivity).
        assert (F1 : Forall finrow (rows (top s1))) by (rewrite RT; apply Forall_app; auto).
        destruct (IH _ _ _ H F1) as (A & B & P & C).
        assert (Q3 : map rq X2 = map snd (finite_obs (combine X0 fv0))) by (rewrite <- Q2, map_map; reflexivity).
        assert (LATER : forall n1 ops1 X fv ops2, ops = ops1 ++ OTell X fv false :: ops2 -> n1 = List.length (hist (top s1)) + List.length (filter paid ops1) ->
          exists q, nth_error (hist (top s')) n1 = Some (FNum q) /\ best_of (minimize c) q (map rq (rows (top s)) ++ map snd (finite_obs (told_in ((OTell X0 fv0 w :: ops1) ++ [OTell X fv false]))))).
        { intros n1 ops1 X fv ops2 E ->. destruct (C _ _ _ _ E) as (q & C1 & C2). exists q. split; [exact C1|]. rewrite RT, map_app, Q3 in C2.
          cbn [app]. change (told_in (OTell X0 fv0 w :: ops1 ++ [OTell X fv false])) with (combine X0 fv0 ++ told_in (ops1 ++ [OTell X fv false])).
          rewrite finite_obs_app, map_app, app_assoc. exact C2. }
        destruct w.
        * destruct HH as [H1 H2]. cbn [filter paid]. rewrite H1, H2 in *. repeat split; auto.
          intros [|o1 ops1] X fv ops2 E; [discriminate|]. injection E as <- E. cbn [filter paid]. apply (LATER _ _ _ _ _ E). reflexivity.
        * destruct HH as (r & XO & H1 & H2). cbn [filter paid List.length]. rewrite H2, app_length in *. cbn [List.length] in *. rewrite H1 in B.
          split; [lia|]. split; [lia|].
          assert (HS : exists tl, hist (top s') = hist (top s) ++ rf r :: tl).
          { exists (skipn (List.length (hist (top s)) + 1) (hist (top s'))). rewrite <- (firstn_skipn (List.length (hist (top s)) + 1) (hist (top s'))) at 1. rewrite P, <- app_assoc. reflexivity. }
          split. { destruct HS as (tl & ->). rewrite firstn_app, firstn_all, Nat.sub_diag. cbn. apply app_nil_r. }
          intros [|o1 ops1] X fv ops2 E.
          -- injection E as <- <- <-. cbn [filter List.length app]. rewrite Nat.add_0_r. destruct HS as (tl & HS).
             destruct (xopt_first_best c (top s1) _ D) as (d1 & r' & d2 & Ed & Ex & G1 & G2); [apply Forall_app; auto|exact NE|].
             assert (r' = r) by congruence. subst r'. exists (rq r). split.
             { rewrite HS, nth_error_app2, Nat.sub_diag by lia. cbn. f_equal. apply finrow_rq. rewrite Forall_forall in F1. apply F1. rewrite RT, Ed. apply in_elt. }
             change (told_in [OTell X0 fv0 false]) with (combine X0 fv0 ++ []). rewrite app_nil_r, <- Q3, <- map_app, Ed. split; [apply in_map, in_elt|].
             intros p Hp. apply in_map_iff in Hp as (r' & <- & Hr'). apply in_app_or in Hr' as [Hr'|[<-|Hr']].
             ++ specialize (G1 _ Hr'). unfold better in *. destruct (minimize c); intro K; apply (Qlt_irrefl (rq r)); eapply Qlt_trans; eassumption.
             ++ apply not_better_refl.
             ++ apply G2, Hr'.
          -- injection E as <- E. cbn [filter paid List.length]. apply (LATER _ _ _ _ _ E). lia.
  Qed.

  (** * The optimizers of the sub-spaces *)
  Lemma set_sub_length l : forall i v, List.length (set_sub l i v) = List.length l.
  Proof. induction l as [|a l IH]; intros [|i] v; cbn; auto. Qed.
  Lemma nth_set_sub l : forall i j v, i < List.length l -> nth j (set_sub l i v) init = if j =? i then v else nth j l init.
  Proof. induction l as [|a l IH]; intros [|i] [|j] v H; cbn in *; auto; try lia. apply IH. lia. Qed.

  Lemma sub_tell (s : st dict) (x : dict) f fi s' : tell (sub_cfg c) s (mkCall [x] [f] None false fi) = (None, s') -> Forall finrow (rows s) ->
    Forall finrow (rows s') /\ map qpair (rows s') = map qpair (rows s) ++ finite_obs [(x, f)].
  Proof.
    intros E F. destruct (tell_effect _ _ _ _ _ E) as [(X2 & A & B & (R & X1 & G1 & G2 & ->) & _)|(N & _)]; [|congruence].
    assert (RT : rows s' = rows s ++ post_eval_check X1) by (unfold rows at 1; rewrite A; reflexivity). split; [rewrite RT; apply Forall_app; auto|].
    rewrite RT, map_app, <- finite_obs_post. f_equal. f_equal. cbn in G1. injection G1 as <-. cbn in G2. injection G2 as <-. reflexivity.
  Qed.
  Lemma tell_subs_effect idx : forall k p ds fv l l', List.length ds = List.length idx -> (forall i, In i idx -> i < List.length l) ->
    (forall i d, In (i, d) (combine idx ds) -> told fixed i (complete names fixed order i d) = Some d) ->
    tell_subs fixed c fitk k p idx (map (fun t => complete names fixed order (fst t) (snd t)) (combine idx ds)) fv l = (None, l') ->
    (forall i, Forall finrow (rows (nth i l init))) ->
    List.length l' = List.length l /\ forall i, Forall finrow (rows (nth i l' init)) /\ map qpair (rows (nth i l' init)) = map qpair (rows (nth i l init)) ++ share i idx ds fv.
  Proof.
    induction idx as [|a idx IH]; intros k p [|d ds] fv l l' L B T E F; try discriminate.
    - cbn in E. injection E as <-. split; [reflexivity|]. intros i. split; [apply F|]. cbn. now rewrite app_nil_r.
    - cbn [combine map tell_subs fst snd] in E. rewrite (T a d) in E by now left. destruct fv as [|f fv]; [discriminate|].
      destruct (tell (sub_cfg c) (nth a l init) (mkCall [d] [f] None false (fitk k p))) as [[e|] s1] eqn:ET; [discriminate|].
      destruct (sub_tell _ _ _ _ _ ET (F a)) as [F1 Q1]. assert (Ba : a < List.length l) by (apply B; now left).
      apply IH in E as [LL E].
      + rewrite set_sub_length in LL. split; [exact LL|]. intros i. destruct (E i) as [E1 E2]. split; [exact E1|]. rewrite E2, nth_set_sub by exact Ba.
        unfold share. cbn [combine filter fst]. rewrite Nat.eqb_sym. destruct (Nat.eqb_spec a i) as [->|N]; [|reflexivity].
        rewrite Q1, <- app_assoc. f_equal. unfold share. rewrite <- finite_obs_app. reflexivity.
      + simpl in L. lia.
      + intros i Hi. rewrite set_sub_length. apply B. now right.
      + intros i d' Hi. apply T. now right.
      + intros i. rewrite nth_set_sub by exact Ba. destruct (i =? a); auto.
  Qed.
  (** In any case (whatever is told) the optimizers of the sub-spaces keep finite rows only. *)
  Lemma tell_subs_any idx : forall k p X fv l o l', tell_subs fixed c fitk k p idx X fv l = (o, l') -> (forall i, Forall finrow (rows (nth i l init))) ->
    List.length l' = List.length l /\ forall i, Forall finrow (rows (nth i l' init)).
  Proof.
    assert (SET : forall l a s1, (forall i, Forall finrow (rows (nth i l init))) -> Forall finrow (rows s1) -> forall i, Forall finrow (rows (nth i (set_sub l a s1) init))).
    { intros l a s1 F F1 i. destruct (Nat.lt_ge_cases a (List.length l)) as [La|La]; [rewrite nth_set_sub by exact La; destruct (i =? a); auto|].
      assert (E : set_sub l a s1 = l). { clear F F1. revert a La. induction l as [|b l IH]; intros [|a] La; cbn in *; auto; try lia. rewrite IH by lia. reflexivity. }
      rewrite E. apply F. }
    induction idx as [|a idx IH]; intros k p [|d X] fv l o l' E F; cbn [tell_subs] in E; try (injection E as <- <-; auto; fail).
    destruct (told fixed a d) as [x|]; [|injection E as <- <-; auto]. destruct fv as [|f fv]; [injection E as <- <-; auto|].
    assert (F1 := tell_any_finite (sub_cfg c) (nth a l init) (mkCall [x] [f] None false (fitk k p)) (F a)).
    destruct (tell (sub_cfg c) (nth a l init) (mkCall [x] [f] None false (fitk k p))) as [[e|] s1]; cbn [snd] in F1.
    - injection E as <- <-. rewrite set_sub_length. split; [reflexivity|]. apply SET; auto.
    - apply IH in E; [|apply SET; auto]. rewrite set_sub_length in E. exact E.
  Qed.

  Lemma ask_subs_length idx : forall k p s X, ask_subs propose k p s idx = Ok X -> List.length X = List.length idx.
  Proof.
    induction idx as [|i idx IH]; intros k p s X E; cbn [ask_subs] in E; [injection E as <-; reflexivity|].
    destruct (propose k p (sub s i)); [|discriminate]. destruct (ask_subs propose k (S p) s idx) eqn:E1; [|discriminate]. injection E as <-. cbn. f_equal. eapply IH; eauto.
  Qed.
  Lemma ask_subs_nth idx : forall k p s X j i, ask_subs propose k p s idx = Ok X -> nth_error idx j = Some i ->
    exists d, nth_error X j = Some d /\ propose k (p + j) (sub s i) = Ok d.
  Proof.
    induction idx as [|a idx IH]; intros k p s X j i E N; cbn [ask_subs] in E; [destruct j; discriminate|].
    destruct (propose k p (sub s a)) as [d|] eqn:P; [|discriminate]. destruct (ask_subs propose k (S p) s idx) eqn:E1; [|discriminate]. injection E as <-.
    destruct j as [|j]; cbn in N |- *.
    - injection N as <-. exists d. rewrite Nat.add_0_r. auto.
    - destruct (IH _ _ _ _ _ _ E1 N) as (d' & A & B). exists d'. split; [exact A|]. replace (p + S j) with (S p + j) by lia. exact B.
  Qed.
  Hypothesis HC : forall k m, List.length (choice k m) = m /\ forall i, In i (choice k m) -> i < n_sub.

  Lemma ask_effect k n s X s' : ask k n s = (Ok X, s') -> gen s <= n_sub ->
    gen s' <= n_sub /\ List.length (bo_idx s') = match n with None => n_point | Some n => n end /\ (forall i, In i (bo_idx s') -> i < n_sub) /\
    exists ds, List.length ds = List.length (bo_idx s') /\ (forall j i, nth_error (bo_idx s') j = Some i -> exists d, nth_error ds j = Some d /\ propose k j (sub s i) = Ok d) /\
      X = map (fun t => complete names fixed order (fst t) (snd t)) (combine (bo_idx s') ds).
  Proof.
    unfold cond_ask, choose. set (m := match n with None => n_point | Some n => n end). intros E G.
    set (idx := seq (gen s) (Nat.min m (n_sub - gen s)) ++ choice k (m - Nat.min m (n_sub - gen s))) in E.
    destruct (ask_subs propose k 0 s idx) as [ds|] eqn:A; [|discriminate]. injection E as <- <-. cbn [gen bo_idx].
    split; [lia|]. split; [unfold idx; rewrite app_length, seq_length, (proj1 (HC k _)); lia|].
    split. { intros i Hi. apply in_app_iff in Hi as [Hi|Hi]; [apply in_seq in Hi; lia|exact (proj2 (HC k _) i Hi)]. }
    exists ds. split; [exact (ask_subs_length _ _ _ _ _ A)|]. split; [|reflexivity]. intros j i N. destruct (ask_subs_nth _ _ _ _ _ _ _ A N) as (d & D1 & D2). eauto.
  Qed.

  Definition sound (s : cst) : Prop := List.length (subs s) = n_sub /\ gen s <= n_sub /\ Forall finrow (rows (top s)) /\ forall i, Forall finrow (rows (sub s i)).
  Lemma sound_init : sound (cond_init n_sub).
  Proof.
    unfold sound, cond_init, sub. cbn [subs gen top]. rewrite repeat_length. repeat split; [lia|constructor|]. intros i.
    destruct (Nat.lt_ge_cases i n_sub) as [H|H]; [rewrite nth_repeat|rewrite nth_overflow by (rewrite repeat_length; lia)]; constructor.
  Qed.
  Lemma sound_ask k n s o s' : sound s -> ask k n s = (o, s') -> sound s'.
  Proof.
    intros (A & B & C & D) E. destruct (ask_top _ _ _ _ _ E) as [T U]. unfold sound, sub. rewrite T, U. repeat split; auto.
    unfold cond_ask, choose in E. destruct (ask_subs propose k 0 s _); injection E as <- <-; cbn [gen]; lia.
  Qed.
  Lemma sound_tell k X fv w s s' : sound s -> ctell k X fv w s = (None, s') -> sound s'.
  Proof.
    intros (A & B & C & D) E. apply tell_none in E as (L & l & t & E1 & E2 & ->). apply tell_subs_any in E1 as [L1 F1]; [|exact D].
    apply tell_top_effect in E2 as (_ & _ & X2 & DT & FX & _). unfold sound, sub. cbn [subs gen top]. repeat split; [lia|exact B| |exact F1].
    unfold rows. rewrite DT. apply Forall_app. auto.
  Qed.
  Lemma sound_history ops : forall k s s', sound s -> hist_of k s ops = Some s' -> sound s'.
  Proof.
    induction ops as [|[n|X fv w] ops IH]; intros k s s' H E; cbn [history] in E; [injection E as <-; exact H| |].
    - destruct (ask k n s) as [[X|e] s1] eqn:EA; [|discriminate]. exact (IH _ _ _ (sound_ask _ _ _ _ _ H EA) E).
    - destruct (ctell k X fv w s) as [[e|] s1] eqn:EA; [discriminate|]. exact (IH _ _ _ (sound_tell _ _ _ _ _ _ H EA) E).
  Qed.

  (** * Runs *)
  Variable evaluate : nat -> list dict -> res (list fval).
  Notation run := (cond_run names fixed order n_sub n_point c propose choice fitk evaluate).
  Notation step := (cond_step names fixed order n_sub n_point c propose choice fitk evaluate).
  Hypothesis HE : forall k X fv, evaluate k X = Ok fv -> forall f, In f fv -> is_finite f = true.

  Lemma finite_all (l : list (dict * fval)) : (forall p, In p l -> is_finite (snd p) = true) -> List.length (finite_obs l) = List.length l.
  Proof. induction l as [|[x [q| |b]] l IH]; intros H; cbn; auto; try (specialize (H _ (or_introl eq_refl)); discriminate). f_equal. apply IH. intros p Hp. apply H. now right. Qed.

  Lemma step_evals k s s' : sound s -> step k s = (None, s') -> sound s' /\ evals (top s') = evals (top s) + n_point /\ 0 < n_point /\ stop_max (top s') = stop_max (top s) /\ stop_tgt (top s') = stop_tgt (top s).
  Proof.
    intros H E. unfold cond_step in E. destruct (ask k None s) as [[X|e] s1] eqn:EA; [|discriminate]. destruct (evaluate k X) as [fv|] eqn:EV; [|discriminate].
    destruct (ask_effect _ _ _ _ _ EA (proj1 (proj2 H))) as (_ & LI & _). destruct (ask_top _ _ _ _ _ EA) as [T _].
    split; [exact (sound_tell _ _ _ _ _ _ (sound_ask _ _ _ _ _ H EA) E)|]. apply tell_none in E as (L & l & t & _ & ET & ->). cbn [top].
    apply tell_top_effect in ET as (LF & NX & X2 & _ & _ & Q2 & _ & EVs & _ & SM & STG & _). rewrite T in *.
    assert (LX : List.length X2 = List.length X).
    { rewrite <- (map_length qpair), Q2, finite_all; [rewrite combine_length; lia|]. intros [x f] Hp. apply in_combine_r in Hp. exact (HE _ _ _ EV _ Hp). }
    assert (List.length X = n_point) by lia. split; [lia|]. split; [destruct X; [congruence|cbn in *; lia]|auto].
  Qed.

  Lemma stop_fields (s : st dict) b t : check_stop c s = Ok (b, t) -> data t = data s /\ evals t = evals s /\ (b = false -> stop_max t = None) /\ (forall m, max_fes c = Some m -> b = false -> evals s < m).
  Proof.
    unfold check_stop. cbv zeta.
    assert (G : forall stt, Ok (match match max_fes c with Some m => if m <=? evals s then Some (evals s) else stop_max s | None => stop_max s end, stt with None, None => false | _, _ => true end,
        mkSt (data s) (evals s) (iters s) (hist s) match max_fes c with Some m => if m <=? evals s then Some (evals s) else stop_max s | None => stop_max s end stt (fitted s)) = Ok (b, t) ->
      data t = data s /\ evals t = evals s /\ (b = false -> stop_max t = None) /\ (forall m, max_fes c = Some m -> b = false -> evals s < m)).
    { intros stt [= <- <-]. cbn [data evals stop_max]. split; [reflexivity|]. split; [reflexivity|].
      destruct (max_fes c) as [m|].
      - destruct (Nat.leb_spec m (evals s)); [split; [discriminate|intros ? _; discriminate]|]. destruct (stop_max s); [split; [discriminate|intros ? _; discriminate]|]. split; [auto|]. intros m' [= <-] _. assumption.
      - split; [destruct (stop_max s); [discriminate|auto]|discriminate]. }
    destruct (ftarget c) as [f|]; [|apply G]. destruct (xopt c s) as [[r|]|]; [destruct (compare_ (minimize c) (rf r) f); [exact (G (Some (rf r)))|exact (G (stop_tgt s))]|exact (G (stop_tgt s))|discriminate].
  Qed.

  Lemma run_ends m fuel : max_fes c = Some m -> forall k s, sound s -> m <= evals (top s) + fuel ->
    run fuel k s <> COutOfFuel /\ forall s' r, run fuel k s = CReturned s' r -> evals (top s') <= Nat.max (evals (top s)) (m - 1 + n_point).
  Proof.
    intros HM. induction fuel as [|fuel IH]; intros k s H L; cbn [cond_run].
    - destruct (check_stop c (top s)) as [[[] t]|] eqn:ES; [|destruct (stop_fields _ _ _ ES) as (_ & _ & _ & G); specialize (G m HM eq_refl); lia|split; discriminate].
      destruct (stop_fields _ _ _ ES) as (_ & EE & _). destruct (xopt c t) as [[r|]|]; split; try discriminate. intros s' r' [= <- <-]. cbn. lia.
    - destruct (check_stop c (top s)) as [[[] t]|] eqn:ES; [| |split; discriminate].
      + destruct (stop_fields _ _ _ ES) as (_ & EE & _). destruct (xopt c t) as [[r|]|]; split; try discriminate. intros s' r' [= <- <-]. cbn. lia.
      + destruct (stop_fields _ _ _ ES) as (ED & EE & _ & G). specialize (G m HM eq_refl).
        destruct (step k (CSt t (subs s) (gen s) (bo_idx s))) as [[e|] s2] eqn:E2; [split; discriminate|].
        assert (H1 : sound (CSt t (subs s) (gen s) (bo_idx s))) by (destruct H as (A & B & C & D); unfold sound, sub, rows; cbn [subs gen top]; rewrite ED; auto).
        destruct (step_evals _ _ _ H1 E2) as (H2 & EV & NP & _). cbn [top] in EV. destruct (IH (S k) s2 H2) as [N1 N2]; [lia|]. split; [exact N1|].
        intros s' r R. specialize (N2 _ _ R). lia.
  Qed.
End Top.
