(** Lemmas for Properties_PcaLoop. *)
From Coq Require Import Bool Arith Lia Reals Lra List.
From Verif Require Import Model_PCA Properties_PCA Model_PcaLoop Spec_PcaLoop.
Import ListNotations.
Open Scope R_scope.

(** ** Convex combinations stay in the box *)
Definition sbox (s : R) (v : list R) (b : list (R * R)) : Prop := Forall2 (fun x b => s * fst b <= x <= s * snd b) v b.
Lemma sbox_add s t a : forall c b, sbox s a b -> sbox t c b -> sbox (s + t) (vadd a c) b.
Proof.
  induction a as [|x a IH]; intros c b A C; inversion A; subst; inversion C; subst; [constructor|].
  change (vadd (x :: a) (x0 :: l)) with (x + x0 :: vadd a l). constructor; [cbn; lra|]. now apply IH.
Qed.
Lemma sbox_scale k s v b : 0 <= k -> sbox s v b -> sbox (k * s) (map (Rmult k) v) b.
Proof. intros K F. induction F as [|x c v b H F IH]; [constructor|]. constructor; [|exact IH]. cbn. rewrite !Rmult_assoc. split; apply Rmult_le_compat_l; lra. Qed.
Lemma sbox_zero b : sbox 0 (repeat 0 (length b)) b.
Proof. induction b as [|c b IH]; [constructor|]. constructor; [lra|exact IH]. Qed.
Lemma sbox_one v b : sbox 1 v b <-> in_box v b.
Proof. unfold sbox, in_box. split; intro F; induction F; constructor; auto; lra. Qed.
Lemma sbox_sum b X : (forall x, In x X -> in_box x b) -> sbox (INR (length X)) (fold_right vadd (repeat 0 (length b)) X) b.
Proof.
  induction X as [|x X IH]; intro H; [apply sbox_zero|]. cbn [length fold_right]. rewrite S_INR, Rplus_comm. apply sbox_add; [apply sbox_one, H; now left|]. apply IH. intros; apply H; now right.
Qed.
Lemma vmean_in_box b X : X <> [] -> (forall x, In x X -> in_box x b) -> in_box (vmean (length b) X) b.
Proof.
  intros NE H. apply sbox_one. unfold vmean. assert (P : 0 < INR (length X)) by (apply lt_0_INR; destruct X; [congruence|cbn; lia]).
  replace 1 with (/ INR (length X) * INR (length X)) by (field; lra). apply sbox_scale; [left; now apply Rinv_0_lt_compat|]. now apply sbox_sum.
Qed.
(** The rows scaled by the weights, relative to the center. *)
Definition shifted (b : list (R * R)) (c : list R) : list (R * R) := map (fun q => (fst (fst q) - snd q, snd (fst q) - snd q)) (combine b c).
Lemma shifted_length b c : length c = length b -> length (shifted b c) = length b.
Proof. intro. unfold shifted. rewrite map_length, combine_length. lia. Qed.
Lemma in_shifted x : forall b c, in_box x b -> length c = length b -> sbox 1 (vsub x c) (shifted b c).
Proof.
  induction x as [|v x IH]; intros b c B L; inversion B; subst; destruct c as [|u c]; try discriminate; [constructor|]. cbn in L.
  change (vsub (v :: x) (u :: c)) with (v - u :: vsub x c). change (shifted (y :: l') (u :: c)) with ((fst y - u, snd y - u) :: shifted l' c). constructor; [cbn; lra|]. apply IH; auto.
Qed.
Lemma sbox_scaled b c w X : length c = length b -> length w = length X -> (forall v, In v w -> 0 <= v) -> (forall x, In x X -> in_box x b) ->
  sbox (fold_right Rplus 0 w) (fold_right vadd (repeat 0 (length b)) (scaled w X c)) (shifted b c).
Proof.
  intro L. revert X. induction w as [|v w IH]; intros [|x X] E W H; try discriminate.
  - cbn. rewrite <- (shifted_length b c L). apply sbox_zero.
  - cbn [fold_right]. change (scaled (v :: w) (x :: X) c) with (map (Rmult v) (vsub x c) :: scaled w X c). cbn [fold_right].
    apply sbox_add; [|apply IH; [cbn in E; lia|intros; apply W; now right|intros; apply H; now right]].
    replace v with (v * 1) at 1 by ring. apply sbox_scale; [apply W; now left|]. apply in_shifted; [apply H; now left|exact L].
Qed.
Lemma scaled_length w X c : length w = length X -> length (scaled w X c) = length X.
Proof. intro. unfold scaled. rewrite map_length, combine_length. lia. Qed.
Lemma center_mean_in_box b c m k : 0 <= k <= 1 -> in_box c b -> sbox k m (shifted b c) -> in_box (vadd m c) b.
Proof.
  intros K C. revert m. induction C as [|u q c b H C IH]; intros m M; [inversion M; subst; constructor|].
  change (shifted (q :: b) (u :: c)) with ((fst q - u, snd q - u) :: shifted b c) in M. inversion M; subst.
  change (vadd (x :: l) (u :: c)) with (x + u :: vadd l c). constructor; [|now apply IH]. cbn in H3. nra.
Qed.
Lemma combination_zero d n rows : (forall c, In c rows -> length c = d) -> combination d (repeat 0 n) rows = repeat 0 d.
Proof.
  revert n. induction rows as [|c rows IH]; intros [|n] H; try reflexivity. cbn [repeat].
  change (combination d (0 :: repeat 0 n) (c :: rows)) with (vadd (map (Rmult 0) c) (combination d (repeat 0 n) rows)).
  rewrite IH by (intros; apply H; now right). specialize (H c (or_introl eq_refl)). rewrite <- H. clear. induction c as [|x c IH]; [reflexivity|].
  cbn. unfold vadd in *. cbn. rewrite IH. f_equal. ring.
Qed.
Lemma vadd_zero m : vadd (repeat 0 (length m)) m = m.
Proof. induction m as [|x m IH]; [reflexivity|]. cbn. unfold vadd in *. cbn. rewrite IH. f_equal. ring. Qed.

Section Loop.
  Variables (bounds : list (R * R)) (minimize : bool) (doe_size n_default : nat) (sk_fit : list (list R) -> option (list (list R))) (gp_fits : pst -> bool).
  Variables (inner : pst -> option (list R)) (sample : pst -> nat -> list (list R)).
  Hypothesis PK : pca_ok (length bounds) sk_fit.

  Lemma weights_some y w : weights minimize y = Some w -> length w = length y /\ (forall v, In v w -> 0 <= v) /\ fold_right Rplus 0 w = 1 /\ (2 <= length y)%nat.
  Proof.
    intro E. destruct y as [|a [|b y]].
    - exfalso. unfold weights in E. assert (Z : raw_weights minimize [] = []) by (unfold raw_weights; destruct minimize; reflexivity). rewrite Z in E. cbn in E. destruct (Req_EM_T 0 0); [discriminate|lra].
    - rewrite C77_single in E. discriminate.
    - destruct (C77_rank_weights minimize (a :: b :: y)) as (w' & E' & L & P & S & _); [cbn; lia|]. assert (w' = w) as -> by congruence. repeat split; auto. cbn; lia.
  Qed.
  (** The origin of the reduced space is a point of the box. *)
  Lemma origin_in_box X y p : linear_fit bounds minimize sk_fit X y = Some p -> length X = length y -> (forall x, In x X -> in_box x bounds) ->
    length (mean_ p) = length bounds /\ length (center p) = length bounds /\ (forall c, In c (components_ p) -> length c = length bounds /\ norm2 c = 1) /\ orthonormal (components_ p) /\
    let z := repeat 0 (length (components_ p)) in in_box (inverse_transform p z) bounds /\ in_box z (compute_bounds p bounds).
  Proof.
    intros E L B. unfold linear_fit in E. destruct (weights minimize y) as [w|] eqn:W; [|discriminate]. destruct (weights_some y w W) as (Lw & Wp & Ws & L2).
    set (c := vmean (length bounds) X) in *. destruct (sk_fit (scaled w X c)) as [comps|] eqn:SK; [|discriminate]. injection E as <-. cbn [mean_ components_ center].
    destruct (PK _ _ SK) as (PC & PO).
    assert (NE : X <> []) by (intros ->; cbn in L; lia). assert (C : in_box c bounds) by (now apply vmean_in_box).
    assert (LC : length c = length bounds) by (clear - C; induction C; cbn; congruence).
    set (m := vmean (length bounds) (scaled w X c)).
    assert (PN : 1 <= INR (length X)) by (change 1 with (INR 1); apply le_INR; lia).
    assert (M : sbox (/ INR (length X)) m (shifted bounds c)).
    { unfold m, vmean. rewrite scaled_length by congruence. rewrite <- (Rmult_1_r (/ INR (length X))) at 1. rewrite <- Ws. apply sbox_scale; [left; apply Rinv_0_lt_compat; lra|]. apply sbox_scaled; auto; congruence. }
    assert (LM : length m = length bounds) by (rewrite <- (shifted_length bounds c LC); clear - M; induction M; cbn; congruence).
    assert (I : in_box (vadd m c) bounds).
    { apply (center_mean_in_box bounds c m (/ INR (length X))); auto. split; [left; apply Rinv_0_lt_compat; lra|]. rewrite <- Rinv_1. apply Rinv_le_contravar; lra. }
    split; [exact LM|]. split; [exact LC|]. split; [exact PC|]. split; [exact PO|]. cbv zeta.
    assert (J : inverse_transform (Pca m comps c) (repeat 0 (length comps)) = vadd m c).
    { unfold inverse_transform. cbn [mean_ components_ center]. rewrite combination_zero by (intros q Q; rewrite LM; now apply PC). now rewrite vadd_zero. }
    split; [now rewrite J|].
    assert (T : transform (Pca m comps c) (vadd m c) = repeat 0 (length comps)).
    { rewrite <- J. apply C112_round_trip; cbn [mean_ components_ center]; auto; [congruence|intros q Q; rewrite LM; now apply PC|apply repeat_length]. }
    rewrite <- T. apply C71_bounds_enclose; auto.
  Qed.

  (** A maximizer of the penalized acquisition function is mapped into the box. *)
  Lemma maximizer_in_box X y p acq z : linear_fit bounds minimize sk_fit X y = Some p -> length X = length y -> (forall x, In x X -> in_box x bounds) ->
    (forall x, 0 <= acq x) -> maximizes (penalized p bounds acq) (compute_bounds p bounds) z -> in_box (inverse_transform p z) bounds.
  Proof.
    intros E L B A [_ M]. destruct (origin_in_box X y p E L B) as (LM & LC & PC & _ & I & J). destruct (C113_outside_never_wins p bounds acq LM LC) as (IN & OUT & _); [intros c H; now apply PC|].
    assert (D : in_box (inverse_transform p z) bounds \/ ~ in_box (inverse_transform p z) bounds) by apply Classical_Prop.classic. destruct D as [D|D]; [exact D|].
    exfalso. specialize (M _ J). rewrite (IN _ I) in M. specialize (OUT z D). pose proof (A (repeat 0 (length (components_ p)))). lra.
  Qed.

  (** ** The invariant of a run *)
  Definition good (s : pst) : Prop :=
    (forall a, In a (p_data s) -> in_box (fst a) bounds) /\
    ((p_model s = false /\ p_pca s = None /\ p_space s = None) \/
     (p_model s = true /\ exists p, p_pca s = Some p /\ p_space s = Some (compute_bounds p bounds) /\ linear_fit bounds minimize sk_fit (map fst (p_data s)) (map snd (p_data s)) = Some p)).
  Lemma finite_rows_in X y a : In a (finite_rows X y) -> In (fst a) X.
  Proof. unfold finite_rows. rewrite in_flat_map. intros ([x v] & I & J). apply in_combine_l in I. cbn in J. destruct v; [|destruct J]. destruct J as [<-|[]]. exact I. Qed.
  Lemma tell_data s X y : p_data (fst (tell bounds minimize sk_fit gp_fits s X y)) = p_data s ++ finite_rows X y.
  Proof. unfold tell. destruct (linear_fit _ _ _ _ _); [|reflexivity]. cbv zeta. destruct (gp_fits _); reflexivity. Qed.
  Lemma tell_in_box s X y : (forall a, In a (p_data s) -> in_box (fst a) bounds) -> (forall x, In x X -> in_box x bounds) ->
    forall a, In a (p_data (fst (tell bounds minimize sk_fit gp_fits s X y))) -> in_box (fst a) bounds.
  Proof. intros D B a. rewrite tell_data, in_app_iff. intros [H|H]; [now apply D|]. apply B. eapply finite_rows_in; eauto. Qed.
  Lemma tell_good s X y s' : good s -> (forall x, In x X -> in_box x bounds) -> tell bounds minimize sk_fit gp_fits s X y = (s', true) -> good s'.
  Proof.
    intros [D _] B T. pose proof (tell_in_box s X y D B) as D'. rewrite T in D'. cbn [fst] in D'. split; [exact D'|]. right. unfold tell in T.
    destruct (linear_fit bounds minimize sk_fit _ _) as [p|] eqn:E; [|discriminate]. cbv zeta in T. destruct (gp_fits _); [|discriminate].
    injection T as <-. cbn. split; [reflexivity|]. exists p. auto.
  Qed.
  Lemma ask_good acq s n X : good s -> (forall x, 0 <= acq s x) -> exact_inner bounds acq inner s -> samples_ok bounds sample ->
    (p_model s = true -> match n with Some n => n | None => n_default end = 1%nat) ->
    ask doe_size n_default inner sample s n = Points X -> forall x, In x X -> in_box x bounds.
  Proof.
    intros [D G] A EI SO N1 E x I. unfold ask in E. destruct G as [(M & P & S)|(M & p & P & S & LF)].
    - rewrite M in E. destruct (sample s _) as [|a l] eqn:SA; [discriminate|]. injection E as <-.
      assert (B : back s = (fun x => x)) by (unfold back; now rewrite P). rewrite B, map_id in I. rewrite <- SA in I. apply SO in I. now rewrite S in I.
    - rewrite M in E. rewrite (N1 M) in E. cbn [Nat.ltb Nat.leb] in E. destruct (EI p _ M P S) as (z & IZ & MX). rewrite IZ in E. cbn in E. injection E as <-.
      destruct I as [<-|[]]. unfold back. rewrite P. apply (maximizer_in_box (map fst (p_data s)) (map snd (p_data s)) p (acq s)); auto.
      + now rewrite !map_length.
      + intros q Hq. apply in_map_iff in Hq as (a & <- & Ha). now apply D.
  Qed.
  Lemma good_start : good p_start.
  Proof. split; [intros a []|]. left. auto. Qed.

  Lemma run_in_box acq f k : forall s, reached bounds minimize doe_size n_default sk_fit gp_fits inner sample f s -> good s -> (forall s x, 0 <= acq s x) ->
    (forall s, reached bounds minimize doe_size n_default sk_fit gp_fits inner sample f s -> exact_inner bounds acq inner s) -> samples_ok bounds sample -> n_default = 1%nat ->
    forall x, In x (fst (run bounds minimize doe_size n_default sk_fit gp_fits inner sample f k s)) -> in_box x bounds.
  Proof.
    induction k as [|k IH]; intros s RE G A EI SO N x I; [destruct I|]. cbn [run] in I. destruct (ask _ _ _ _ s None) as [X| |] eqn:E; cbn in I; try (now destruct I).
    assert (B : forall x, In x X -> in_box x bounds) by (apply (ask_good acq s None X G (A s) (EI s RE) SO (fun _ => N) E)). destruct (tell _ _ _ _ s X _) as [s' ok] eqn:T. destruct ok.
    - pose proof (tell_good s X _ s' G B T) as G'. destruct (run _ _ _ _ _ _ _ _ f k s') as [Y t] eqn:R. cbn in I. apply in_app_iff in I as [I|I]; [now apply B|].
      apply (IH s' (reached_step _ _ _ _ _ _ _ _ _ _ _ _ RE E T) G' A EI SO N). rewrite R. exact I.
    - now apply B.
  Qed.

  (** ** Accounting *)
  Lemma tell_counts s X y : let t := fst (tell bounds minimize sk_fit gp_fits s X y) in
    p_iter t = S (p_iter s) /\ p_evals t = (p_evals s + length X)%nat /\ p_hist t = p_hist s.
  Proof. cbv zeta. unfold tell. destruct (linear_fit _ _ _ _ _); [|repeat split]. cbv zeta. destruct (gp_fits _); repeat split. Qed.
  Lemma kept_finite X : forall y l, kept X y l <-> length X = length y /\ l = finite_rows X y.
  Proof.
    induction X as [|x X IH]; intros [|[v|] y] l; split; intro H.
    - inversion H. auto.
    - destruct H as [_ ->]. constructor.
    - inversion H.
    - destruct H; discriminate.
    - inversion H.
    - destruct H; discriminate.
    - inversion H.
    - destruct H; discriminate.
    - inversion H; subst. match goal with K : kept X y _ |- _ => apply IH in K as [L ->] end. split; [cbn; lia|reflexivity].
    - destruct H as [L ->]. cbn in L. change (finite_rows (x :: X) (Some v :: y)) with ((x, v) :: finite_rows X y). constructor. apply IH. split; [lia|reflexivity].
    - inversion H; subst. match goal with K : kept X y _ |- _ => apply IH in K as [L ->] end. split; [cbn; lia|reflexivity].
    - destruct H as [L ->]. cbn in L. change (finite_rows (x :: X) (None :: y)) with (finite_rows X y). constructor. apply IH. split; [lia|reflexivity].
  Qed.
  Lemma finite_rows_app X1 : forall y1 X2 y2, length X1 = length y1 -> finite_rows (X1 ++ X2) (y1 ++ y2) = finite_rows X1 y1 ++ finite_rows X2 y2.
  Proof.
    induction X1 as [|x X1 IH]; intros [|v y1] X2 y2 L; try discriminate; [reflexivity|]. cbn in L. unfold finite_rows in *. cbn. rewrite IH by lia. now rewrite app_assoc.
  Qed.
  Definition told (l : list (list (list R) * list (option R))) : list (list R) * list (option R) := (concat (map fst l), concat (map snd l)).
  Lemma tells_snoc l a : tells bounds minimize sk_fit gp_fits (l ++ [a]) = fst (tell bounds minimize sk_fit gp_fits (tells bounds minimize sk_fit gp_fits l) (fst a) (snd a)).
  Proof. unfold tells. now rewrite fold_left_app. Qed.
  Lemma tells_counts l : (forall a, In a l -> length (fst a) = length (snd a)) ->
    let s := tells bounds minimize sk_fit gp_fits l in
    p_iter s = length l /\ p_evals s = length (fst (told l)) /\ p_hist s = [] /\ length (fst (told l)) = length (snd (told l)) /\ p_data s = finite_rows (fst (told l)) (snd (told l)).
  Proof.
    induction l as [|a l IH] using rev_ind; intro H; [cbn; auto|]. cbv zeta in *. destruct IH as (I1 & I2 & I3 & I4 & I5); [intros; apply H, in_app_iff; now left|].
    rewrite tells_snoc. destruct (tell_counts (tells bounds minimize sk_fit gp_fits l) (fst a) (snd a)) as (T1 & T2 & T3). rewrite T1, T2, T3, tell_data, I1, I2, I3, I5.
    assert (La : length (fst a) = length (snd a)) by (apply H, in_app_iff; right; now left).
    unfold told in *. cbn [fst snd] in *. rewrite !map_app, !concat_app. cbn. rewrite !app_nil_r, !app_length. cbn. rewrite finite_rows_app by exact I4. repeat split; lia.
  Qed.
  Lemma best_value_spec y f : best_value minimize y = Some f -> In f y /\ forall v, In v y -> ~ better minimize v f.
  Proof.
    destruct y as [|a l]; [discriminate|]. cbn [best_value]. intro E. injection E as <-. revert a. induction l as [|b l IH]; intro a; cbn [fold_left].
    - split; [now left|]. intros v [<-|[]]. unfold better. destruct minimize; lra.
    - destruct (IH ((if minimize then Rmin else Rmax) a b)) as [I J]. split.
      + destruct I as [I|I]; [|right; now right]. rewrite <- I. destruct minimize; [unfold Rmin|unfold Rmax]; destruct (Rle_dec a b); [now left|right; now left|right; now left|now left].
      + intros v V. assert (K : forall w, ~ better minimize w (fold_left (if minimize then Rmin else Rmax) l ((if minimize then Rmin else Rmax) a b)) \/ True) by auto. clear K.
        specialize (J ((if minimize then Rmin else Rmax) a b) (or_introl eq_refl)) as J0. set (g := fold_left _ l _) in *.
        destruct V as [<-|[<-|V]].
        * unfold better in *. destruct minimize; [pose proof (Rmin_l a b)|pose proof (Rmax_l a b)]; lra.
        * unfold better in *. destruct minimize; [pose proof (Rmin_r a b)|pose proof (Rmax_r a b)]; lra.
        * apply J. now right.
  Qed.
  Lemma xopt_spec s a : xopt minimize s = Some a ->
    exists l1 l2, p_data s = l1 ++ a :: l2 /\ (forall b, In b l1 -> better minimize (snd a) (snd b)) /\ forall b, In b l2 -> ~ better minimize (snd b) (snd a).
  Proof.
    unfold xopt. destruct (best_value minimize (map snd (p_data s))) as [f|] eqn:E; [|discriminate]. destruct (best_value_spec _ _ E) as [_ B].
    assert (B' : forall b, In b (p_data s) -> ~ better minimize (snd b) f) by (intros b I; apply B; now apply in_map). clear E B. revert B'. induction (p_data s) as [|c d IH]; intros B F; [discriminate|]. cbn in F.
    destruct (req (snd c) f) eqn:Q.
    - injection F as <-. apply req_iff in Q. exists [], d. split; [reflexivity|]. split; [intros b []|]. intros b I. rewrite Q. apply B. now right.
    - destruct IH as (l1 & l2 & -> & L1 & L2); [intros; apply B; now right|exact F|]. exists (c :: l1), l2. split; [reflexivity|]. split; [|exact L2].
      intros b [<-|I]; [|now apply L1]. assert (FA : snd a = f) by (apply find_some in F as [_ F]; now apply req_iff in F).
      assert (NE : snd c <> f) by (intro Z; apply req_iff in Z; congruence). specialize (B c (or_introl eq_refl)). rewrite FA. unfold better in *. destruct minimize; lra.
  Qed.
  Lemma xopt_some s : p_data s <> [] -> exists a, xopt minimize s = Some a.
  Proof.
    intro NE. unfold xopt. destruct (best_value minimize (map snd (p_data s))) as [f|] eqn:E; [|destruct (p_data s); [congruence|discriminate]].
    destruct (best_value_spec _ _ E) as [I _]. apply in_map_iff in I as (a & F & I). destruct (find (fun a => req (snd a) f) (p_data s)) as [b|] eqn:FI; [now exists b|].
    exfalso. pose proof (find_none _ _ FI a I) as Z. cbn in Z. apply req_iff in F. congruence.
  Qed.
  (** When tell returns. *)
  Lemma tell_returns s X y : snd (tell bounds minimize sk_fit gp_fits s X y) = true -> (2 <= length (p_data s ++ finite_rows X y))%nat.
  Proof.
    unfold tell. destruct (linear_fit bounds minimize sk_fit _ _) as [p|] eqn:E; [|discriminate]. intros _. unfold linear_fit in E.
    destruct (weights minimize _) as [w|] eqn:W; [|discriminate]. apply weights_some in W as (_ & _ & _ & W). now rewrite map_length in W.
  Qed.
End Loop.

(** ** Shapes, without any assumption on the proposals *)
Lemma vsum_length d X : (forall x, In x X -> length x = d) -> length (fold_right vadd (repeat 0 d) X) = d.
Proof. induction X as [|x X IH]; intro H; [apply repeat_length|]. cbn. assert (L : length x = d) by (apply H; now left). assert (L2 := IH (fun y I => H y (or_intror I))). rewrite vadd_length; congruence. Qed.
Lemma vmean_length d X : (forall x, In x X -> length x = d) -> length (vmean d X) = d.
Proof. intro H. unfold vmean. rewrite map_length. now apply vsum_length. Qed.
Lemma in_scaled w X c d v : length c = d -> (forall x, In x X -> length x = d) -> In v (scaled w X c) -> length v = d.
Proof. intros L H I. unfold scaled in I. apply in_map_iff in I as ([k x] & <- & I). apply in_combine_r in I. cbn [fst snd]. rewrite map_length. specialize (H x I). rewrite vsub_length; congruence. Qed.
Lemma linear_fit_shape bounds minimize sk_fit X y p : pca_ok (length bounds) sk_fit -> (forall x, In x X -> length x = length bounds) -> linear_fit bounds minimize sk_fit X y = Some p ->
  length (mean_ p) = length bounds /\ length (center p) = length bounds /\ (forall c, In c (components_ p) -> length c = length bounds).
Proof.
  intros PK H E. unfold linear_fit in E. destruct (weights minimize y) as [w|]; [|discriminate]. destruct (sk_fit _) as [comps|] eqn:SK; [|discriminate]. injection E as <-. cbn.
  assert (LC : length (vmean (length bounds) X) = length bounds) by (now apply vmean_length).
  split; [apply vmean_length; intros v I; eapply in_scaled; eauto|]. split; [exact LC|]. intros c I. now apply (proj1 (PK _ _ SK)).
Qed.
Lemma inverse_length p d x : length (mean_ p) = d -> length (center p) = d -> (forall c, In c (components_ p) -> length c = d) -> length (inverse_transform p x) = d.
Proof. intros A B C. unfold inverse_transform. rewrite vadd_length; rewrite vadd_length; rewrite combination_length; auto; try congruence; intros c H; rewrite (C c H); auto. Qed.
Definition shaped (bounds : list (R * R)) minimize sk_fit (s : pst) : Prop :=
  (forall a, In a (p_data s) -> length (fst a) = length bounds) /\
  ((p_model s = false /\ p_pca s = None /\ p_space s = None) \/
   (p_model s = true /\ exists p, p_pca s = Some p /\ p_space s = Some (compute_bounds p bounds) /\ linear_fit bounds minimize sk_fit (map fst (p_data s)) (map snd (p_data s)) = Some p)).
Lemma shaped_pca bounds minimize sk_fit s p : pca_ok (length bounds) sk_fit -> shaped bounds minimize sk_fit s -> p_pca s = Some p ->
  length (mean_ p) = length bounds /\ length (center p) = length bounds /\ (forall c, In c (components_ p) -> length c = length bounds).
Proof.
  intros PK [D [(_ & P & _)|(_ & p' & P & _ & F)]] E; [congruence|]. assert (p' = p) as -> by congruence. eapply linear_fit_shape; eauto.
  intros x I. apply in_map_iff in I as (a & <- & I). now apply D.
Qed.
Lemma reached_shaped bounds minimize doe_size n_default sk_fit gp_fits inner sample f s : pca_ok (length bounds) sk_fit ->
  (forall s n x, In x (sample s n) -> p_space s = None -> length x = length bounds) ->
  reached bounds minimize doe_size n_default sk_fit gp_fits inner sample f s -> shaped bounds minimize sk_fit s.
Proof.
  intros PK SL RE. induction RE as [|s X s' RE IH A T]; [split; [intros a []|left; auto]|].
  assert (XL : forall x, In x X -> length x = length bounds).
  { intros x I. unfold ask in A.
    assert (K : forall Y, Points (map (back s) Y) = Points X -> p_model s = true \/ Y = sample s doe_size -> length x = length bounds).
    { intros Y E O. injection E as <-. apply in_map_iff in I as (z & <- & I). unfold back. destruct (p_pca s) as [p|] eqn:P.
      - destruct (shaped_pca bounds minimize sk_fit s p PK IH P) as (A1 & A2 & A3). now apply inverse_length.
      - destruct IH as [_ [(M & _ & S)|(M & p & P' & _)]]; [|congruence]. destruct O as [O| ->]; [congruence|]. eapply SL; eauto. }
    destruct (p_model s) eqn:M.
    - destruct (1 <? n_default)%nat; [discriminate|]. set (Y := if (_ <? _)%nat then _ else _) in A. destruct Y as [|y Y'] eqn:EY; [discriminate|]. eapply K; eauto.
    - destruct (sample s doe_size) as [|y Y] eqn:EY; [discriminate|]. eapply K; eauto. }
  split.
  - intros a I. pose proof (tell_data bounds minimize sk_fit gp_fits s X (map f X)) as TD. rewrite T in TD. cbn in TD. rewrite TD in I. apply in_app_iff in I as [I|I]; [now apply IH|]. apply XL. eapply finite_rows_in; eauto.
  - right. unfold tell in T. destruct (linear_fit bounds minimize sk_fit _ _) as [p|] eqn:E; [|discriminate]. cbv zeta in T. destruct (gp_fits _); [|discriminate]. injection T as <-. cbn. split; [reflexivity|]. exists p. auto.
Qed.
