(** Lemmas about Model_Opt.v. *)
From Coq Require Import List Bool Arith ZArith QArith String Lia Lqa.
From Coq Require Import DecimalString DecimalNat.
From Verif Require Import Model_Opt Spec_Opt.
Import ListNotations.
Open Scope nat_scope.

(** * Values *)

Definition qb2 (m : bool) (a b : Q) : Q :=
  if (if m then negb (Qle_bool a b) else negb (Qle_bool b a)) then b else a.

Lemma fbest2_num m a b : fbest2 m (FNum a) (FNum b) = FNum (qb2 m a b).
Proof. unfold fbest2, qb2; destruct m; simpl.
  - destruct (Qle_bool a b); reflexivity.
  - destruct (Qle_bool b a); reflexivity. Qed.

Lemma fold_best_num m l a :
  fold_left (fbest2 m) (map FNum l) (FNum a) = FNum (fold_left (qb2 m) l a).
Proof. revert a; induction l; simpl; intros; [reflexivity|]. rewrite fbest2_num; apply IHl. Qed.

Lemma qle_bool_false a b : Qle_bool a b = false -> (b < a)%Q.
Proof. intro H. apply Qnot_le_lt. intro L. apply Qle_bool_iff in L. congruence. Qed.

Lemma not_better_refl m q : ~ better m q q.
Proof. unfold better; destruct m; intro H; lra. Qed.

Lemma qb2_spec m a b :
  (qb2 m a b = a \/ qb2 m a b = b) /\ ~ better m a (qb2 m a b) /\ ~ better m b (qb2 m a b).
Proof.
  unfold qb2, better; destruct m.
  - destruct (Qle_bool a b) eqn:E; simpl.
    + apply Qle_bool_iff in E. repeat split; auto; lra.
    + apply qle_bool_false in E. repeat split; auto; lra.
  - destruct (Qle_bool b a) eqn:E; simpl.
    + apply Qle_bool_iff in E. repeat split; auto; lra.
    + apply qle_bool_false in E. repeat split; auto; lra.
Qed.

Lemma not_better_trans m a b c : ~ better m a b -> ~ better m b c -> ~ better m a c.
Proof. unfold better; destruct m; intros; lra. Qed.

Lemma fold_best_spec m l a : best_of m (fold_left (qb2 m) l a) (a :: l).
Proof.
  revert a; induction l as [|b l IH]; intro a.
  - split; [left; reflexivity|]. intros p [->|[]]. apply not_better_refl.
  - change (fold_left (qb2 m) (b :: l) a) with (fold_left (qb2 m) l (qb2 m a b)).
    destruct (IH (qb2 m a b)) as [Hin Hb].
    destruct (qb2_spec m a b) as [Hor [Ha Hb']].
    split.
    + destruct Hin as [E|Hin]; [|right; right; exact Hin].
      rewrite <- E. destruct Hor as [->| ->]; [left|right;left]; reflexivity.
    + intros p [->|[->|Hp]].
      * eapply not_better_trans; [exact Ha| apply Hb; left; reflexivity].
      * eapply not_better_trans; [exact Hb'| apply Hb; left; reflexivity].
      * apply Hb; right; exact Hp.
Qed.

Section P.
  Context {xv : Type}.
  Notation call := (call xv).
  Notation st := (st xv).
  Notation row := (row xv).
  Implicit Types (s : st) (k : call) (ks : list call) (r : row) (X R d : list row) (c : cfg) (fv : list fval).

  (** Rows with a finite value. *)
  Definition finrow (r : row) : Prop := exists q, rf r = FNum q.
  Definition rq (r : row) : Q := fnum (rf r).

  Lemma finrow_rq r : finrow r -> rf r = FNum (rq r).
  Proof. intros [q E]; unfold rq; rewrite E; reflexivity. Qed.

  Lemma map_rf_fin d : Forall finrow d -> map rf d = map FNum (map rq d).
  Proof. induction 1; simpl; [reflexivity|]. rewrite (finrow_rq _ H), IHForall; reflexivity. Qed.

  (** The recommendation over a finite non-empty data set. *)
  Lemma xopt_first_best c (s : st) d :
    data s = Some d -> Forall finrow d -> d <> [] ->
    exists d1 r d2, d = d1 ++ r :: d2 /\ xopt c s = Ok (Some r) /\
      (forall r', In r' d1 -> better (minimize c) (rq r) (rq r')) /\
      (forall r', In r' d2 -> ~ better (minimize c) (rq r') (rq r)).
  Proof.
    intros Hd Hf Hne. unfold xopt. rewrite Hd, (map_rf_fin _ Hf).
    destruct d as [|r0 d']; [congruence|]. simpl map at 1. simpl get_best.
    rewrite fold_best_num.
    pose proof (fold_best_spec (minimize c) (map rq d') (rq r0)) as [Hin Hb].
    set (q := fold_left (qb2 (minimize c)) (map rq d') (rq r0)) in *.
    change (rq r0 :: map rq d') with (map rq (r0 :: d')) in *.
    set (d := r0 :: d') in *. clearbody d q. clear Hd r0 d' Hne.
    assert (Hq : forall r', In r' d -> ~ better (minimize c) (rq r') q)
      by (intros r' H'; apply Hb, in_map; exact H').
    clear Hb.
    induction Hf as [|r d Hr Hf IH]; [destruct Hin|].
    simpl find. rewrite (finrow_rq _ Hr). simpl feqb.
    destruct (Qeq_bool (rq r) q) eqn:E.
    - exists [], r, d. repeat split; [intros ? []|].
      intros r' H' B. apply (Hq r' (or_intror H')).
      apply Qeq_bool_iff in E. unfold better in *. destruct (minimize c); lra.
    - assert (Hin' : In q (map rq d)).
      { destruct Hin as [Hin|Hin]; [|exact Hin]. exfalso.
        rewrite Hin in E. assert (Qeq_bool q q = true) by (apply Qeq_bool_iff; reflexivity). congruence. }
      destruct (IH Hin' (fun r' H' => Hq r' (or_intror H'))) as (d1 & r1 & d2 & Ed & Ex & H1 & H2).
      exists (r :: d1), r1, d2. subst d.
      assert (Hrq : rq r1 == q).
      { destruct (find _ _) eqn:F in Ex; [|discriminate].
        injection Ex as ->. apply find_some in F. destruct F as [_ F].
        rewrite Forall_forall in Hf. rewrite (finrow_rq r1) in F by (apply Hf, in_elt).
        simpl in F. apply Qeq_bool_iff in F; exact F. }
      repeat split; [exact Ex| | exact H2].
      intros r' [<-|H']; [|apply H1; exact H'].
      assert (N : ~ better (minimize c) (rq r) q) by (apply Hq; left; reflexivity).
      assert (~ rq r == q) by (intro; apply Qeq_bool_iff in H; congruence).
      unfold better in *. destruct (minimize c).
      + apply Qnot_lt_le in N. destruct (Qlt_le_dec (rq r1) (rq r)); [assumption|].
        exfalso; apply H; lra.
      + apply Qnot_lt_le in N. destruct (Qlt_le_dec (rq r) (rq r1)); [assumption|].
        exfalso; apply H; lra.
  Qed.

  Lemma xopt_ok_finite c (s : st) r d :
    data s = Some d -> xopt c s = Ok (Some r) -> In r d.
  Proof.
    unfold xopt. intros ->. destruct (get_best _ _); [|discriminate].
    destruct (find _ d) eqn:F; [|discriminate]. intros [= <-]. apply find_some in F; tauto.
  Qed.

  (** * tell *)

  Lemma assign_spec X fv X1 :
    assign X fv = Some X1 ->
    List.length X1 = List.length X /\ List.length X <= List.length fv /\
    map rx X1 = map rx X /\ map rl X1 = map rl X /\ map rn X1 = map S (map rn X) /\
    map rf X1 = firstn (List.length X) fv.
  Proof.
    revert fv X1; induction X as [|r X IH]; intros fv X1; simpl.
    - intros [= <-]; simpl; repeat split; lia.
    - destruct fv as [|v fv]; [discriminate|].
      destruct (assign X fv) as [t|] eqn:E; [|discriminate]. intros [= <-].
      destruct (IH _ _ E) as (A&B&C&D&F&G). simpl.
      repeat split; try lia; congruence.
  Qed.

  Lemma to_geno_spec m (X : list xv) ix R :
    to_geno m X ix = Ok R ->
    X <> [] /\ List.length R = List.length X /\ map rx R = X /\
    map rl R = match ix with None => map str_nat (seq 0 (List.length X)) | Some l => l end /\
    (forall r, In r R -> rn r = match m with EList => 1 | EDict => 0 end).
  Proof.
    unfold to_geno. intro H.
    assert (HX : X <> []) by (destruct X; [discriminate|congruence]).
    assert (H' : (let labels := match ix with None => map str_nat (seq 0 (List.length X)) | Some l => l end in
      if List.length labels =? List.length X
      then Ok (map (fun p => mkRow (fst p) FNan (match m with EList => 1 | EDict => 0 end) (snd p))
                   (combine X labels))
      else Err EAssert) = Ok R) by (destruct X; [congruence|exact H]).
    clear H. cbn zeta in H'.
    set (L := match ix with None => _ | Some l => l end) in *.
    destruct (List.length L =? List.length X) eqn:E; [|discriminate].
    apply Nat.eqb_eq in E.
    assert (ER : map (fun p => mkRow (fst p) FNan (match m with EList => 1 | EDict => 0 end) (snd p)) (combine X L) = R)
      by congruence.
    subst R. clear H'. repeat split; [exact HX|..].
    - rewrite map_length, combine_length; lia.
    - rewrite map_map; simpl. clear HX.
      clearbody L. revert L E; induction X as [|y Y IH]; intros [|l L] E; simpl in *; try lia; auto.
      f_equal. apply IH; lia.
    - rewrite map_map; simpl. clear HX.
      clearbody L. revert L E; induction X as [|y Y IH]; intros [|l L] E; simpl in *; try lia; auto.
      f_equal. apply IH; lia.
    - intros r H. apply in_map_iff in H. destruct H as (p&<-&_). reflexivity.
  Qed.

  Definition pair_of (r : row) : xv * fval := (rx r, rf r).

  Lemma pairs_of_split R : map pair_of R = combine (map rx R) (map rf R).
  Proof. induction R; simpl; [reflexivity|]. rewrite IHR. reflexivity. Qed.

  Lemma combine_firstn {A B} (l : list A) (l' : list B) :
    combine l (firstn (List.length l) l') = combine l l'.
  Proof. revert l'; induction l; intros [|b l']; simpl; congruence. Qed.

  Definition qpair (r : row) : xv * Q := (rx r, rq r).

  Lemma finite_obs_post X1 :
    finite_obs (map pair_of X1) = map qpair (post_eval_check X1).
  Proof.
    induction X1 as [|r X IH]; [reflexivity|].
    destruct r as [x f n l]. simpl. destruct f; simpl; rewrite ?IH; reflexivity.
  Qed.

  Lemma post_finrow X1 : Forall finrow (post_eval_check X1).
  Proof.
    unfold post_eval_check. apply Forall_forall. intros r H. apply filter_In in H.
    destruct H as [_ H]. destruct (rf r) eqn:E; try discriminate. exists q; exact E.
  Qed.

  Lemma finite_obs_app (a b : list (xv * fval)) : finite_obs (a ++ b) = finite_obs a ++ finite_obs b.
  Proof. induction a as [|[x [q| |p]] a IH]; simpl; congruence. Qed.

  (** Everything a tell does, in the normal and in the raising case. *)
  Lemma tell_effect c s k e s' :
    tell c s k = (e, s') ->
    (exists X2, data s' = Some (rows s ++ X2) /\ Forall finrow X2 /\
                (exists R X1, to_geno (emode c) (c_X k) (c_idx k) = Ok R /\ assign R (c_f k) = Some X1 /\
                              X2 = post_eval_check X1) /\
                evals s' = evals s + (if c_warm k then 0 else List.length (c_X k)) /\
                match e with
                | None => rows s ++ X2 <> [] /\
                          if c_warm k then iters s' = iters s /\ hist s' = hist s
                          else exists r, xopt c s' = Ok (Some r) /\ iters s' = S (iters s) /\
                                         hist s' = hist s ++ [rf r]
                | Some _ => iters s' = iters s /\ hist s' = hist s
                end)
    \/ (e <> None /\ data s' = data s /\ iters s' = iters s /\ hist s' = hist s /\
        evals s <= evals s' <= evals s + (if c_warm k then 0 else List.length (c_X k)) /\
        fitted s' = fitted s).
  Proof.
    unfold tell.
    destruct (to_geno (emode c) (c_X k) (c_idx k)) as [R|e0] eqn:EG.
    2:{ intros [= <- <-]. right. repeat split; try lia; discriminate. }
    destruct (assign R (c_f k)) as [X1|] eqn:EA.
    2:{ intros [= <- <-]. right. destruct (to_geno_spec _ _ _ _ EG) as (_&HL&_).
        assert (List.length (c_f k) <= List.length (c_X k)).
        { rewrite <- HL. clear -EA. revert EA. generalize (c_f k). induction R; intros [|v fv]; simpl; intros; try lia; try discriminate.
          destruct (assign R fv) eqn:E; [discriminate|]. apply IHR in E. lia. }
        destruct (c_warm k); simpl; repeat split; try lia; discriminate. }
    destruct (to_geno_spec _ _ _ _ EG) as (HX&HL&_).
    destruct (assign_spec _ _ _ EA) as (HL1&_).
    set (s1 := if c_warm k then s else add_evals s (List.length X1)).
    assert (Hs1 : data s1 = data s /\ iters s1 = iters s /\ hist s1 = hist s /\ fitted s1 = fitted s /\
                  evals s1 = evals s + (if c_warm k then 0 else List.length (c_X k))).
    { unfold s1; destruct (c_warm k); simpl; repeat split; lia. }
    destruct Hs1 as (Hd&Hi&Hh&Hf&He). clearbody s1.
    pose proof (post_finrow X1) as Hfin.
    set (X2 := post_eval_check X1) in *.
    destruct (match data s1, X2 with Some [], [] => true | _, _ => false end) eqn:EC.
    { destruct (data s1) as [[|]|] eqn:ED; try discriminate. destruct X2; [|discriminate].
      intros [= <- <-]. right. repeat split; try lia; congruence. }
    assert (HD : match data s1 with Some d0 => d0 ++ X2 | None => X2 end = rows s ++ X2).
    { unfold rows. rewrite <- Hd. destruct (data s1); reflexivity. }
    assert (G : forall z,
      (let d := match data s1 with Some d0 => d0 ++ X2 | None => X2 end in
       let s2 := set_data s1 d in
       let (fi, er) := update_model d (fitted s2) (c_fit k) in
       let s3 := set_fitted s2 fi in
       match er with
       | Some e => (Some e, s3)
       | None => match xopt c s3 with
                 | Err e => (Some e, s3)
                 | Ok None => (Some EAttribute, s3)
                 | Ok (Some r) => (None, if c_warm k then s3 else push_hist s3 (rf r))
                 end
       end) = z -> z = (e, s') ->
      exists X0, data s' = Some (rows s ++ X0) /\ Forall finrow X0 /\
                (exists R X1, Ok R = Ok R /\ to_geno (emode c) (c_X k) (c_idx k) = Ok R /\ assign R (c_f k) = Some X1 /\
                              X0 = post_eval_check X1) /\
                evals s' = evals s + (if c_warm k then 0 else List.length (c_X k)) /\
                match e with
                | None => rows s ++ X0 <> [] /\
                          if c_warm k then iters s' = iters s /\ hist s' = hist s
                          else exists r, xopt c s' = Ok (Some r) /\ iters s' = S (iters s) /\
                                         hist s' = hist s ++ [rf r]
                | Some _ => iters s' = iters s /\ hist s' = hist s
                end).
    { intros z. rewrite HD. cbn zeta. intros <-. intro HZ. exists X2.
      assert (W : exists R X1, Ok R = Ok (R) /\ to_geno (emode c) (c_X k) (c_idx k) = Ok R /\ assign R (c_f k) = Some X1 /\
                              X2 = post_eval_check X1) by (exists R, X1; auto).
      destruct (update_model (rows s ++ X2) (fitted (set_data s1 (rows s ++ X2))) (c_fit k)) as [fi er] eqn:EU.
      destruct er as [e1|].
      - injection HZ as <- <-. simpl. repeat split; auto.
      - set (s3 := set_fitted (set_data s1 (rows s ++ X2)) fi) in *.
        destruct (xopt c s3) as [[r|]|e1] eqn:EX; injection HZ as <- <-; simpl.
        + assert (rows s ++ X2 <> []).
          { intro Z. rewrite Z in EU. unfold update_model in EU.
            destruct (flat []); discriminate. }
          destruct (c_warm k); simpl; repeat split; auto.
          exists r; repeat split; [exact EX|simpl; congruence..].
        + repeat split; auto.
        + repeat split; auto. }
    intro H. left.
    assert (G' := G _ eq_refl).
    assert (H' : (let d := match data s1 with Some d0 => d0 ++ X2 | None => X2 end in
       let s2 := set_data s1 d in
       let (fi, er) := update_model d (fitted s2) (c_fit k) in
       let s3 := set_fitted s2 fi in
       match er with
       | Some e => (Some e, s3)
       | None => match xopt c s3 with
                 | Err e => (Some e, s3)
                 | Ok None => (Some EAttribute, s3)
                 | Ok (Some r) => (None, if c_warm k then s3 else push_hist s3 (rf r))
                 end
       end) = (e, s')).
    { rewrite <- H. destruct (data s1) as [[|a l]|]; [destruct X2; [discriminate EC|]|..]; reflexivity. }
    destruct (G' H') as (X0&A&B&(R'&X1'&_&C1&C2&C3)&D&F).
    exists X0. repeat split; auto. exists R', X1'.
    assert (Ok R = Ok R') by congruence. injection H0 as <-. auto.
  Qed.

  Lemma told1_rows m k R X1 :
    to_geno m (c_X k) (c_idx k) = Ok R -> assign R (c_f k) = Some X1 ->
    map pair_of X1 = told1 k.
  Proof.
    intros HG HA. destruct (to_geno_spec _ _ _ _ HG) as (_&HL&HX&_).
    destruct (assign_spec _ _ _ HA) as (_&_&C&_&_&D).
    rewrite pairs_of_split, C, HX, D, HL, combine_firstn. reflexivity.
  Qed.

  (** Invariant of every history, raising calls included. *)
  Lemma tell_any_finite c s k :
    Forall finrow (rows s) -> Forall finrow (rows (snd (tell c s k))).
  Proof.
    intro H. destruct (tell c s k) as [e s'] eqn:E. simpl.
    destruct (tell_effect _ _ _ _ _ E) as [(X2&A&B&_)|(_&A&_)].
    - unfold rows at 1. rewrite A. apply Forall_app; split; assumption.
    - unfold rows. rewrite A. exact H.
  Qed.

  Lemma exec_any_finite c ks s : Forall finrow (rows s) -> Forall finrow (rows (exec_any c s ks)).
  Proof. revert s; induction ks; simpl; intros; [assumption|]. apply IHks, tell_any_finite, H. Qed.

  Lemma exec_app c s ks1 ks2 :
    exec c s (ks1 ++ ks2) = match exec c s ks1 with Some s1 => exec c s1 ks2 | None => None end.
  Proof. revert s; induction ks1; simpl; intros; [reflexivity|]. destruct (tell c s a) as [[e|] s1]; auto. Qed.

  Lemma exec_finite c s ks s' : exec c s ks = Some s' -> Forall finrow (rows s) -> Forall finrow (rows s').
  Proof.
    revert s; induction ks as [|k ks IH]; simpl; intros s.
    - intros [= <-]; auto.
    - destruct (tell c s k) as [[e|] s1] eqn:E; [discriminate|]. intros H1 H2. eapply IH; eauto.
      pose proof (tell_any_finite c s k H2) as H3. rewrite E in H3; exact H3.
  Qed.

  (** C01 *)
  Lemma accounting_gen c s ks s' :
    exec c s ks = Some s' ->
    evals s' = evals s + points_told ks /\
    map qpair (rows s') = map qpair (rows s) ++ observed ks.
  Proof.
    revert s; induction ks as [|k ks IH]; simpl; intros s.
    - intros [= <-]. unfold observed; simpl. rewrite app_nil_r. split; lia || reflexivity.
    - destruct (tell c s k) as [[e|] s1] eqn:E; [discriminate|]. intro H.
      destruct (IH _ H) as [H1 H2].
      destruct (tell_effect _ _ _ _ _ E) as [(X2&A&B&(R&X1&C1&C2&C3)&D&_)|(N&_)]; [|congruence].
      split; [lia|]. rewrite H2. unfold observed. simpl. rewrite finite_obs_app, app_assoc. f_equal.
      unfold rows at 1. rewrite A, map_app. f_equal. subst X2.
      rewrite <- finite_obs_post, (told1_rows _ _ _ _ C1 C2). reflexivity.
  Qed.

  Lemma exec_data c s ks s' : exec c s ks = Some s' -> data s = None -> ks <> [] -> exists d, data s' = Some d.
  Proof.
    revert s; induction ks as [|k ks IH]; simpl; intros s H Hd Hne; [congruence|].
    destruct (tell c s k) as [[e|] s1] eqn:E; [discriminate|].
    destruct (tell_effect _ _ _ _ _ E) as [(X2&A&_)|(N&_)]; [|congruence].
    clear IH Hne Hd. revert s1 H A E. generalize (rows s ++ X2). intros d0 s1 H A _.
    revert s1 d0 H A. induction ks as [|k' ks IH]; simpl; intros s1 d0 H A.
    - injection H as <-; eauto.
    - destruct (tell c s1 k') as [[e|] s2] eqn:E; [discriminate|].
      destruct (tell_effect _ _ _ _ _ E) as [(X3&A'&_)|(N&_)]; [|congruence]. eauto.
  Qed.

  (** C02 *)
  Lemma tell_hist_best c s k s' :
    Forall finrow (rows s) -> tell c s k = (None, s') -> c_warm k = false ->
    exists q, hist s' = hist s ++ [FNum q] /\ iters s' = S (iters s) /\
              best_of (minimize c) q (map rq (rows s')).
  Proof.
    intros Hf E W.
    destruct (tell_effect _ _ _ _ _ E) as [(X2&A&B&_&_&HN&D)|(N&_)]; [|congruence].
    rewrite W in D. destruct D as (r&Dx&Di&Dh).
    assert (Hfin : Forall finrow (rows s ++ X2)) by (apply Forall_app; auto).
    destruct (xopt_first_best c s' _ A Hfin HN) as (d1&r'&d2&Ed&Ex&H1&H2).
    assert (r' = r) by congruence. subst r'.
    exists (rq r). split; [|split; [exact Di|]].
    - rewrite Dh. f_equal. f_equal. apply finrow_rq. rewrite Forall_forall in Hfin.
      apply Hfin. rewrite Ed. apply in_elt.
    - unfold rows. rewrite A, Ed. split; [apply in_map, in_elt|].
      intros p Hp. apply in_map_iff in Hp. destruct Hp as (r'&<-&Hr').
      apply in_app_or in Hr'. destruct Hr' as [Hr'|[<-|Hr']].
      + specialize (H1 _ Hr'). unfold better in *. destruct (minimize c); lra.
      + apply not_better_refl.
      + apply H2, Hr'.
  Qed.

  Lemma exec_hist c ks : forall s s',
    Forall finrow (rows s) -> exec c s ks = Some s' ->
    exists h, hist s' = hist s ++ h /\ List.length h = List.length (paid_calls ks) /\
              iters s' = iters s + List.length (paid_calls ks).
  Proof.
    induction ks as [|k ks IH]; simpl; intros s s' Hf H.
    - injection H as <-. exists []. rewrite app_nil_r. repeat split; lia.
    - destruct (tell c s k) as [[e|] s1] eqn:E; [discriminate|].
      assert (Hf1 : Forall finrow (rows s1)).
      { pose proof (tell_any_finite c s k Hf) as G. rewrite E in G; exact G. }
      destruct (IH _ _ Hf1 H) as (h&A&B&C). destruct (c_warm k) eqn:W; simpl.
      + destruct (tell_effect _ _ _ _ _ E) as [(X2&_&_&_&_&_&D)|(N&_)]; [|congruence].
        rewrite W in D. destruct D as (Di&Dh). exists h. rewrite A, Dh. repeat split; lia.
      + destruct (tell_hist_best _ _ _ _ Hf E W) as (q&Dh&Di&_).
        exists (FNum q :: h). rewrite A, Dh, <- app_assoc. simpl. repeat split; lia.
  Qed.

  Lemma exec_hist_entry c ks1 k ks2 s' :
    exec c init (ks1 ++ k :: ks2) = Some s' -> c_warm k = false ->
    exists q, nth_error (hist s') (List.length (paid_calls ks1)) = Some (FNum q) /\
              best_of (minimize c) q (map snd (observed (ks1 ++ [k]))).
  Proof.
    intros H W. rewrite exec_app in H.
    destruct (exec c init ks1) as [s1|] eqn:E1; [|discriminate].
    simpl in H. destruct (tell c s1 k) as [[e|] s2] eqn:E2; [discriminate|].
    assert (Hf0 : Forall finrow (rows (@init xv))) by constructor.
    assert (Hf1 := exec_finite _ _ _ _ E1 Hf0).
    destruct (exec_hist _ _ _ _ Hf0 E1) as (h1&A1&B1&_).
    destruct (tell_hist_best _ _ _ _ Hf1 E2 W) as (q&A2&_&Hb).
    assert (Hf2 : Forall finrow (rows s2)).
    { pose proof (tell_any_finite c s1 k Hf1) as G. rewrite E2 in G; exact G. }
    destruct (exec_hist _ _ _ _ Hf2 H) as (h2&A3&_&_).
    exists q. split.
    - rewrite A3, A2, A1. simpl. rewrite <- B1, <- app_assoc.
      rewrite nth_error_app2, Nat.sub_diag by lia. reflexivity.
    - assert (EX : exec c init (ks1 ++ [k]) = Some s2) by (rewrite exec_app, E1; simpl; rewrite E2; reflexivity).
      destruct (accounting_gen _ _ _ _ EX) as [_ G]. simpl in G. rewrite <- G, map_map. exact Hb.
  Qed.

  Lemma paid_app ks1 ks2 : paid_calls (ks1 ++ ks2) = paid_calls (ks1) ++ @paid_calls xv ks2.
  Proof. apply filter_app. Qed.

  (** Splitting off the i-th paid call. *)
  Lemma paid_nth (ks : list call) i :
    i < List.length (paid_calls ks) ->
    exists ks1 k ks2, ks = ks1 ++ k :: ks2 /\ c_warm k = false /\ List.length (paid_calls ks1) = i.
  Proof.
    revert i; induction ks as [|k ks IH]; simpl; intros i Hi; [lia|].
    destruct (c_warm k) eqn:W; simpl in *.
    - destruct (IH i Hi) as (a&b&d&->&E2&E3). exists (k :: a), b, d. simpl. rewrite W; auto.
    - destruct i as [|i].
      + exists [], k, ks; auto.
      + destruct (IH i ltac:(lia)) as (a&b&d&->&E2&E3). exists (k :: a), b, d. simpl. rewrite W; simpl; auto.
  Qed.

  Lemma observed_app (ks1 ks2 : list call) : observed (ks1 ++ ks2) = observed ks1 ++ observed ks2.
  Proof. unfold observed. rewrite flat_map_app, finite_obs_app. reflexivity. Qed.

  Lemma hist_monotone c ks s' i j qi qj :
    exec c init ks = Some s' -> i <= j ->
    nth_error (hist s') i = Some (FNum qi) -> nth_error (hist s') j = Some (FNum qj) ->
    ~ better (minimize c) qi qj.
  Proof.
    intros H Hij Hi Hj.
    assert (Hf0 : Forall finrow (rows (@init xv))) by constructor.
    destruct (exec_hist _ _ _ _ Hf0 H) as (h&A&B&_). simpl in A.
    assert (Lj : j < List.length (paid_calls ks)) by (rewrite <- B, <- A; apply nth_error_Some; congruence).
    destruct (paid_nth _ _ Lj) as (k1&k&k2&Ek&W&Lk).
    subst ks. destruct (exec_hist_entry _ _ _ _ _ H W) as (q&Hq&[_ Hb]).
    rewrite Lk, Hj in Hq. injection Hq as <-.
    destruct (Nat.eq_dec i j) as [->|Hne].
    - assert (qi = qj) by congruence. subst. apply not_better_refl.
    - assert (Li : i < List.length (paid_calls k1)) by lia.
      destruct (paid_nth _ _ Li) as (a1&a&a2&Ea&Wa&La). subst k1.
      rewrite <- app_assoc in H. simpl in H.
      destruct (exec_hist_entry _ _ _ _ _ H Wa) as (q'&Hq'&[Hin _]).
      rewrite La, Hi in Hq'. injection Hq' as <-.
      apply Hb.
      replace ((a1 ++ a :: a2) ++ [k]) with ((a1 ++ [a]) ++ (a2 ++ [k])) by (rewrite <- !app_assoc; reflexivity).
      rewrite observed_app, map_app. apply in_or_app; left; exact Hin.
  Qed.

  (** C03 *)
  Lemma recommend_spec c ks s' :
    exec c init ks = Some s' -> observed ks <> [] ->
    exists l1 x q l2 r, observed ks = l1 ++ (x, q) :: l2 /\
      recommend c s' = Ok r /\ rx r = x /\ rf r = FNum q /\
      (forall p, In p (map snd l1) -> better (minimize c) q p) /\
      (forall p, In p (map snd l2) -> ~ better (minimize c) p q).
  Proof.
    intros H Hne.
    assert (Hf0 : Forall finrow (rows (@init xv))) by constructor.
    assert (Hf := exec_finite _ _ _ _ H Hf0).
    destruct (accounting_gen _ _ _ _ H) as [_ G]. simpl in G.
    unfold rows in G, Hf. destruct (data s') as [d|] eqn:Ed.
    2:{ simpl in G. congruence. }
    assert (Hd : d <> []) by (intro; subst; simpl in G; congruence).
    destruct (xopt_first_best c s' d Ed Hf Hd) as (d1&r&d2&E&Ex&H1&H2).
    exists (map qpair d1), (rx r), (rq r), (map qpair d2), r.
    rewrite <- G, E, map_app. simpl. repeat split; auto.
    - unfold recommend. rewrite Ex. reflexivity.
    - apply finrow_rq. rewrite Forall_forall in Hf. apply Hf. rewrite E. apply in_elt.
    - intros p Hp. rewrite map_map in Hp. apply in_map_iff in Hp. destruct Hp as (r'&<-&Hr'). apply H1, Hr'.
    - intros p Hp. rewrite map_map in Hp. apply in_map_iff in Hp. destruct Hp as (r'&<-&Hr'). apply H2, Hr'.
  Qed.

  (** C06 *)
  Lemma tell_raise_effect c s k e s' :
    tell c s k = (Some e, s') ->
    iters s' = iters s /\ hist s' = hist s /\ stop_max s' = stop_max s /\ stop_tgt s' = stop_tgt s /\
    exists new, rows s' = rows s ++ new.
  Proof.
    intro E.
    assert (stop_max s' = stop_max s /\ stop_tgt s' = stop_tgt s).
    { revert E. unfold tell. destruct (to_geno _ _ _); [|intros [= _ <-]; auto].
      destruct (assign _ _); [|intros [= _ <-]; destruct (c_warm k); auto].
      destruct (data _) as [[|?r0 ?l0]|]; destruct (post_eval_check _) as [|?r1 ?l1];
        try (intros [= _ <-]; destruct (c_warm k); auto; fail);
        destruct (update_model _ _ _) as [fi [e1|]]; try (intros [= _ <-]; destruct (c_warm k); auto; fail);
        destruct (xopt _ _) as [[?|]|]; try discriminate; try (intros [= _ <-]; destruct (c_warm k); auto; fail). }
    destruct (tell_effect _ _ _ _ _ E) as [(X2&A&_&_&_&B&C)|(_&A&B&C&_)].
    - repeat split; try tauto. exists X2. unfold rows at 1. rewrite A. reflexivity.
    - repeat split; try tauto. exists []. unfold rows. rewrite A, app_nil_r. reflexivity.
  Qed.

  (** C07 *)
  Lemma tell_prefix c s k : exists new, rows (snd (tell c s k)) = rows s ++ new.
  Proof.
    destruct (tell c s k) as [e s'] eqn:E. simpl.
    destruct (tell_effect _ _ _ _ _ E) as [(X2&A&_)|(_&A&_)].
    - exists X2. unfold rows at 1. rewrite A. reflexivity.
    - exists []. unfold rows. rewrite A, app_nil_r. reflexivity.
  Qed.

  Lemma exec_any_prefix c ks s : exists new, rows (exec_any c s ks) = rows s ++ new.
  Proof.
    revert s; induction ks as [|k ks IH]; simpl; intro s.
    - exists []. rewrite app_nil_r; reflexivity.
    - destruct (tell_prefix c s k) as [n1 E1]. destruct (IH (snd (tell c s k))) as [n2 E2].
      exists (n1 ++ n2). rewrite E2, E1, app_assoc. reflexivity.
  Qed.

  Lemma warm_ok c w types_ok fit s (X : list xv) y :
    w = Some (X, y) -> set_warm c init w types_ok fit = (None, s) ->
    evals s = 0 /\ iters s = 0 /\ hist s = [] /\
    map qpair (rows s) = finite_obs (combine X y) /\ data s <> None.
  Proof.
    intros ->. unfold set_warm. simpl.
    destruct (List.length X =? List.length y) eqn:EL; simpl; [|discriminate].
    destruct (to_geno (emode c) X None) eqn:EG; [|discriminate].
    destruct types_ok; simpl; [|discriminate].
    destruct (emode c) eqn:EM; [|discriminate].
    intro E. destruct (tell_effect _ _ _ _ _ E) as [(X2&A&_&(R&X1&C1&C2&C3)&D&_&F)|(N&_)]; [|congruence].
    simpl in *. destruct F as [Fi Fh]. repeat split; auto.
    - unfold rows. rewrite A. simpl. subst X2. rewrite <- finite_obs_post.
      rewrite (told1_rows (emode c) (mkCall X y None true fit) R X1 C1 C2). reflexivity.
    - rewrite A; discriminate.
  Qed.

  (** C08 *)
  Lemma assign_rn X fv X1 v : assign X fv = Some X1 -> (forall r, In r X -> rn r = v) ->
    forall r, In r X1 -> rn r = S v.
  Proof.
    intros HA HX r Hr. destruct (assign_spec _ _ _ HA) as (_&_&_&_&F&_).
    assert (In (rn r) (map rn X1)) by (apply in_map; exact Hr).
    rewrite F, map_map in H. apply in_map_iff in H. destruct H as (r'&E&H').
    rewrite (HX _ H') in E. congruence.
  Qed.

  Lemma n_eval_const c ks s :
    (forall r, In r (rows s) -> rn r = match emode c with EList => 2 | EDict => 1 end) ->
    forall r, In r (rows (exec_any c s ks)) -> rn r = match emode c with EList => 2 | EDict => 1 end.
  Proof.
    revert s; induction ks as [|k ks IH]; simpl; intros s Hs r Hr; [auto|].
    eapply IH; [|exact Hr]. clear r Hr. intros r Hr.
    destruct (tell c s k) as [e s'] eqn:E. simpl in Hr.
    destruct (tell_effect _ _ _ _ _ E) as [(X2&A&_&(R&X1&C1&C2&C3)&_)|(_&A&_)].
    - unfold rows in Hr at 1. rewrite A in Hr. apply in_app_or in Hr. destruct Hr as [Hr|Hr]; [auto|].
      subst X2. apply filter_In in Hr. destruct Hr as [Hr _].
      destruct (to_geno_spec _ _ _ _ C1) as (_&_&_&_&Hn).
      rewrite (assign_rn _ _ _ _ C2 Hn _ Hr). destruct (emode c); reflexivity.
    - unfold rows in Hr. rewrite A in Hr. auto.
  Qed.

  (** C09 *)
  Fixpoint labels_given (ks : list call) : list string :=
    match ks with
    | [] => []
    | k :: t => (match c_idx k with Some l => l | None => map str_nat (seq 0 (List.length (c_X k))) end)
                ++ labels_given t
    end.

  Lemma map_filter_sub {A B} (f : A -> B) p (l : list A) : NoDup (map f l) -> NoDup (map f (filter p l)).
  Proof.
    induction l as [|a l IH]; simpl; intro H; [constructor|]. inversion H; subst.
    destruct (p a); simpl; [constructor|]; auto.
    intro Hi. apply H2. apply in_map_iff in Hi. destruct Hi as (b&E&Hb). apply filter_In in Hb.
    rewrite <- E. apply in_map; tauto.
  Qed.

  Lemma labels_nodup c ks : forall s,
    NoDup (map rl (rows s) ++ labels_given ks) -> NoDup (map rl (rows (exec_any c s ks))).
  Proof.
    induction ks as [|k ks IH]; simpl; intros s H.
    - rewrite app_nil_r in H; exact H.
    - apply IH. clear IH.
      destruct (tell c s k) as [e s'] eqn:E. simpl.
      destruct (tell_effect _ _ _ _ _ E) as [(X2&A&_&(R&X1&C1&C2&C3)&_)|(_&A&_)].
      + unfold rows at 1. rewrite A, map_app.
        destruct (to_geno_spec _ _ _ _ C1) as (_&_&_&Hl&_).
        destruct (assign_spec _ _ _ C2) as (_&_&_&Hl'&_).
        set (L := match c_idx k with Some l => l | None => _ end) in *.
        assert (HL : map rl X1 = L).
        { rewrite Hl', Hl. unfold L. destruct (c_idx k); reflexivity. }
        rewrite <- HL in H. subst X2. clearbody L.
        rewrite app_assoc in H. revert H. rewrite <- map_app.
        generalize (labels_given ks). clear L HL Hl. intros L H.
        assert (forall (l' l : list row) p, NoDup ((map (@rl xv) l' ++ map rl l) ++ L) ->
                  NoDup ((map rl l' ++ map rl (filter p l)) ++ L)).
        { clear. intros l' l p. rewrite <- !app_assoc.
          induction l' as [|a l' IH]; simpl.
          - induction l as [|a l IH]; simpl; auto. intro H; inversion H; subst.
            destruct (p a); simpl; auto. constructor; auto.
            intro Hi. apply H2. apply in_app_or in Hi. apply in_or_app. destruct Hi as [Hi|Hi]; auto.
            left. apply in_map_iff in Hi. destruct Hi as (b&E&Hb). apply filter_In in Hb.
            rewrite <- E; apply in_map; tauto.
          - intro H; inversion H; subst. constructor; auto.
            intro Hi. apply H2. rewrite !in_app_iff in *. destruct Hi as [Hi|[Hi|Hi]]; auto.
            right; left. apply in_map_iff in Hi. destruct Hi as (b&E&Hb). apply filter_In in Hb.
            rewrite <- E; apply in_map; tauto. }
        apply H0. rewrite <- map_app. exact H.
      + unfold rows at 1. rewrite A. fold (rows s).
        revert H. generalize (labels_given ks) (match c_idx k with Some l => l | None => map str_nat (seq 0 (List.length (c_X k))) end) (map rl (rows s)).
        intros L M D H. clear -H. induction D as [|a D IH]; simpl in *.
        * clear -H. induction M; simpl in *; auto. inversion H; subst; auto.
        * inversion H; subst. constructor; auto. intro Hi. apply H2.
          rewrite !in_app_iff in *. tauto.
  Qed.

  (** C05 *)
  (** Stop flags survive every tell. *)
  Lemma tell_stop c s k : stop_max (snd (tell c s k)) = stop_max s /\ stop_tgt (snd (tell c s k)) = stop_tgt s.
  Proof.
    unfold tell. destruct (to_geno _ _ _); [|auto].
    destruct (assign _ _); [|destruct (c_warm k); auto].
    destruct (data _) as [[|?r0 ?l0]|]; destruct (post_eval_check _) as [|?r1 ?l1]; try (destruct (c_warm k); auto; fail);
      destruct (update_model _ _ _) as [fi [e1|]]; try (destruct (c_warm k); auto; fail);
      destruct (xopt _ _) as [[?|]|]; destruct (c_warm k); auto.
  Qed.

  Lemma exec_any_stop c ks s : stop_max (exec_any c s ks) = stop_max s /\ stop_tgt (exec_any c s ks) = stop_tgt s.
  Proof.
    revert s; induction ks as [|k ks IH]; simpl; intro s; [auto|].
    destruct (IH (snd (tell c s k))) as [A B]. destruct (tell_stop c s k) as [C D]. split; congruence.
  Qed.

  Lemma check_stop_flags c s b s' :
    check_stop c s = Ok (b, s') ->
    (b = true <-> (stop_max s' <> None \/ stop_tgt s' <> None)) /\
    (stop_max s <> None -> stop_max s' <> None) /\ (stop_tgt s <> None -> stop_tgt s' <> None).
  Proof.
    unfold check_stop.
    set (sm := match max_fes c with Some m => _ | None => _ end).
    assert (HM : stop_max s <> None -> sm <> None).
    { unfold sm. destruct (max_fes c); auto. destruct (_ <=? _); auto. discriminate. }
    assert (G : forall stt b s', (stop_tgt s <> None -> stt <> None) ->
       Ok (match sm, stt with None, None => false | _, _ => true end,
           mkSt (data s) (evals s) (iters s) (hist s) sm stt (fitted s)) = Ok (b, s') ->
       (b = true <-> (stop_max s' <> None \/ stop_tgt s' <> None)) /\
       (stop_max s <> None -> stop_max s' <> None) /\ (stop_tgt s <> None -> stop_tgt s' <> None)).
    { intros stt b0 s0 Hs [= <- <-]. simpl. split; [|auto].
      destruct sm, stt; split; intro X; auto; try discriminate; try (left; discriminate); try (right; discriminate).
      destruct X; congruence. }
    destruct (ftarget c); [|apply (G (stop_tgt s)); auto].
    destruct (xopt c s) as [[r|]|]; [destruct (compare_ _ _ _)|..]; try discriminate.
    - apply (G (Some (rf r))); discriminate.
    - apply (G (stop_tgt s)); auto.
    - apply (G (stop_tgt s)); auto.
  Qed.

  Lemma stop_sticky c s b s' ks s2 b2 s3 :
    check_stop c s = Ok (b, s') -> b = true -> s2 = exec_any c s' ks ->
    check_stop c s2 = Ok (b2, s3) -> b2 = true.
  Proof.
    intros H -> -> H2.
    destruct (check_stop_flags _ _ _ _ H) as [A _].
    destruct (exec_any_stop c ks s') as [E1 E2].
    destruct (check_stop_flags _ _ _ _ H2) as [B [B1 B2]].
    apply B. destruct (proj1 A eq_refl); [left; apply B1|right; apply B2]; congruence.
  Qed.

  Lemma qlt_true a b : fltb (FNum a) (FNum b) = true <-> (a < b)%Q.
  Proof.
    simpl. split; intro H.
    - apply negb_true_iff in H. apply qle_bool_false in H; exact H.
    - apply negb_true_iff. destruct (Qle_bool b a) eqn:E; auto. apply Qle_bool_iff in E. lra.
  Qed.

  Lemma target_iff_min c ks s t b s' :
    minimize c = true -> ftarget c = Some (FNum t) ->
    exec c init ks = Some s -> observed ks <> [] ->
    (forall m, max_fes c = Some m -> evals s < m) ->
    check_stop c s = Ok (b, s') ->
    (b = true <-> exists q, best_of true q (map snd (observed ks)) /\ (q < t)%Q).
  Proof.
    intros Hm Ht He Hne Hb Hc.
    destruct (recommend_spec _ _ _ He Hne) as (l1&x&q&l2&r&Eo&Er&_&Ef&H1&H2).
    assert (EX : xopt c s = Ok (Some r)).
    { unfold recommend in Er. destruct (xopt c s) as [[r'|]|]; try discriminate; congruence. }
    assert (ES : stop_max s = None /\ stop_tgt s = None).
    { assert (G : forall ks s0 s1, exec c s0 ks = Some s1 -> stop_max s1 = stop_max s0 /\ stop_tgt s1 = stop_tgt s0).
      { clear. induction ks as [|k ks IH]; simpl; intros s0 s1.
        - intros [= <-]; auto.
        - destruct (tell c s0 k) as [[e|] s2] eqn:E; [discriminate|]. intro H.
          destruct (tell_stop c s0 k) as [A B]. rewrite E in *. simpl in *.
          destruct (IH _ _ H); split; congruence. }
      apply (G _ _ _ He). }
    destruct ES as [S1 S2].
    assert (SM : match max_fes c with Some m => if m <=? evals s then Some (evals s) else stop_max s | None => stop_max s end = None).
    { destruct (max_fes c) as [m|] eqn:E; [|exact S1]. specialize (Hb m eq_refl).
      destruct (m <=? evals s) eqn:L; [apply Nat.leb_le in L; lia|exact S1]. }
    unfold check_stop in Hc. rewrite SM, Ht, EX, S2, Hm, Ef in Hc. unfold compare_ in Hc.
    rewrite Hm in *.
    assert (HB : best_of true q (map snd (observed ks))).
    { rewrite Eo, map_app. simpl. split; [apply in_elt|].
      intros p Hp. apply in_app_or in Hp. destruct Hp as [Hp|[<-|Hp]].
      - specialize (H1 _ Hp). simpl in *. lra.
      - apply not_better_refl.
      - apply H2, Hp. }
    destruct (fltb (FNum q) (FNum t)) eqn:EQ.
    - injection Hc as <- _. apply qlt_true in EQ. split; eauto.
    - injection Hc as <- _. split; [discriminate|]. intros (p&[Hp1 Hp2]&Hlt).
      destruct HB as [HB1 HB2].
      pose proof (HB2 _ Hp1) as A. simpl in A.
      assert (q < t)%Q by lra. apply qlt_true in H. congruence.
  Qed.

  (** C04 *)
  Section Run.
    Variable propose : nat -> st -> res (list xv).
    Variable evaluate : nat -> list xv -> res (list fval).
    Variable fitk : nat -> bool * option exn.
    Notation run := (run propose evaluate fitk).
    Notation step := (step propose evaluate fitk).

    Lemma step_evals c (k : nat) s s' :
      step c k s = (None, s') ->
      exists X : list xv, propose k s = Ok X /\ X <> [] /\ evals s' = evals s + List.length X.
    Proof.
      unfold Model_Opt.step. destruct (propose k s) as [X|] eqn:EP; [|discriminate].
      destruct (evaluate k X) as [fv|]; [|discriminate]. intro E.
      destruct (tell_effect _ _ _ _ _ E) as [(X2&_&_&(R&X1&C1&_)&D&_)|(N&_)]; [|congruence].
      exists X. repeat split; auto.
      destruct (to_geno_spec _ _ _ _ C1) as [H _]. exact H.
    Qed.

    Lemma check_stop_evals c s b s' : check_stop c s = Ok (b, s') -> evals s' = evals s /\ data s' = data s /\ hist s' = hist s /\ iters s' = iters s /\ fitted s' = fitted s.
    Proof.
      unfold check_stop. destruct (ftarget c).
      - destruct (xopt c s) as [[r|]|]; [destruct (compare_ _ _ _)|..]; try discriminate; intros [= _ <-]; auto.
      - intros [= _ <-]; auto.
    Qed.

    Lemma check_stop_max c s m b s' :
      max_fes c = Some m -> check_stop c s = Ok (b, s') -> m <= evals s -> b = true.
    Proof.
      intros Hm H Hle. destruct (check_stop_flags _ _ _ _ H) as [A _]. apply A. left.
      revert H. unfold check_stop. rewrite Hm. apply Nat.leb_le in Hle. rewrite Hle.
      destruct (ftarget c).
      - destruct (xopt c s) as [[r|]|]; [destruct (compare_ _ _ _)|..]; try discriminate; intros [= _ <-]; discriminate.
      - intros [= _ <-]; discriminate.
    Qed.

    Lemma run_terminates c m : max_fes c = Some m ->
      forall fuel (k : nat) s, m <= evals s + fuel -> run c fuel k s <> OutOfFuel.
    Proof.
      intro Hm. induction fuel as [|fuel IH]; intros k s Hle; simpl.
      - destruct (check_stop c s) as [[[|] s']|] eqn:E; [| |discriminate].
        + destruct (xopt c s') as [[r|]|]; discriminate.
        + pose proof (check_stop_max _ _ _ _ _ Hm E). exfalso. assert (false = true) by (apply H; lia). discriminate.
      - destruct (check_stop c s) as [[[|] s']|] eqn:E; [| |discriminate].
        + destruct (xopt c s') as [[r|]|]; discriminate.
        + destruct (step c k s') as [[e|] s2] eqn:ES; [discriminate|].
          apply IH. destruct (step_evals _ _ _ _ ES) as (X&_&HX&EX).
          destruct (check_stop_evals _ _ _ _ E) as [EE _].
          destruct X; [congruence|]. simpl in EX. lia.
    Qed.

    Lemma run_fuel_mono c : forall fuel (k : nat) s fuel', fuel <= fuel' ->
      run c fuel k s <> OutOfFuel -> run c fuel' k s = run c fuel k s.
    Proof.
      induction fuel as [|fuel IH]; intros k s [|fuel'] Hle H; simpl in *; try reflexivity.
      - destruct (check_stop c s) as [[[|] s']|]; try reflexivity. congruence.
      - lia.
      - destruct (check_stop c s) as [[[|] s']|]; try reflexivity.
        destruct (step c k s') as [[e|] s2]; [reflexivity|]. apply IH; [lia|exact H].
    Qed.

    Lemma run_budget c m : max_fes c = Some m ->
      forall fuel (k : nat) s s' r, evals s < m -> run c fuel k s = Returned s' r -> m <= evals s' ->
      exists (k1 : nat) s1 (X : list xv), propose k1 s1 = Ok X /\ evals s1 < m /\ evals s' = evals s1 + List.length X.
    Proof.
      intro Hm. induction fuel as [|fuel IH]; intros k s s' r Hlt H Hge; simpl in H.
      - destruct (check_stop c s) as [[[|] s1]|] eqn:E; try discriminate.
        destruct (xopt c s1) as [[r1|]|]; try discriminate. injection H as <- <-.
        destruct (check_stop_evals _ _ _ _ E) as [EE _]. lia.
      - destruct (check_stop c s) as [[[|] s1]|] eqn:E; try discriminate.
        + destruct (xopt c s1) as [[r1|]|]; try discriminate. injection H as <- <-.
          destruct (check_stop_evals _ _ _ _ E) as [EE _]. lia.
        + destruct (step c k s1) as [[e|] s2] eqn:ES; [discriminate|].
          destruct (check_stop_evals _ _ _ _ E) as [EE _].
          destruct (step_evals _ _ _ _ ES) as (X&HP&HX&EX).
          destruct (Nat.le_gt_cases m (evals s2)) as [Hc|Hc].
          * exists k, s1, X. repeat split; auto; [lia|].
            destruct fuel; simpl in H;
              destruct (check_stop c s2) as [[[|] s3]|] eqn:E3; try discriminate;
              try (destruct (xopt c s3) as [[r1|]|]; try discriminate; injection H as <- <-;
                   destruct (check_stop_evals _ _ _ _ E3) as [E3' _]; lia).
            pose proof (check_stop_max _ _ _ _ _ Hm E3 Hc). discriminate.
          * eapply IH; eauto.
    Qed.

    (** What run returns: the recommendation of the final state, and the stop flag is set. *)
    Lemma run_returns c : forall fuel (k : nat) s s' r, run c fuel k s = Returned s' r ->
      recommend c s' = Ok r /\ (stop_max s' <> None \/ stop_tgt s' <> None).
    Proof.
      induction fuel as [|fuel IH]; intros k s s' r H; simpl in H.
      - destruct (check_stop c s) as [[[|] s1]|] eqn:E; try discriminate.
        destruct (xopt c s1) as [[r1|]|] eqn:EX; try discriminate. injection H as <- <-.
        split; [unfold recommend; rewrite EX; reflexivity|]. apply (check_stop_flags _ _ _ _ E). reflexivity.
      - destruct (check_stop c s) as [[[|] s1]|] eqn:E; try discriminate.
        + destruct (xopt c s1) as [[r1|]|] eqn:EX; try discriminate. injection H as <- <-.
          split; [unfold recommend; rewrite EX; reflexivity|]. apply (check_stop_flags _ _ _ _ E). reflexivity.
        + destruct (step c k s1) as [[e|] s2]; [discriminate|]. eauto.
    Qed.
  End Run.
End P.

Lemma str_nat_inj a b : str_nat a = str_nat b -> a = b.
Proof.
  unfold str_nat. intro H. apply (f_equal NilEmpty.uint_of_string) in H.
  rewrite !NilEmpty.usu in H. injection H as H. apply Unsigned.to_uint_inj in H. exact H.
Qed.
