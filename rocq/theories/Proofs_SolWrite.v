(** Writes through views, construction and concatenation of solution sets (Model_Sol.v). *)
From Coq Require Import Bool Arith ZArith QArith String List Lia.
From Verif Require Import Lib_List Model_Var Model_Opt Model_Sol Spec_Sol Proofs_Sol Proofs_SolOps.
Import ListNotations.
Open Scope nat_scope.

Local Arguments pick : simpl never.
Local Arguments read : simpl never.

(** h2 differs from h at most in the elements ps of buffer r. *)
Definition frame {A} (h h2 : list (list A)) (r : nat) (ps : list nat) : Prop :=
  List.length h2 = List.length h /\ (forall k, List.length (buf h2 k) = List.length (buf h k)) /\
  (forall k q, k <> r \/ ~ In q ps -> nth_error (buf h2 k) q = nth_error (buf h k) q).

Lemma frame_refl {A} (h : list (list A)) r ps : frame h h r ps.
Proof. repeat split; auto. Qed.

Lemma frame_trans {A} (h h2 h3 : list (list A)) r ps : frame h h2 r ps -> frame h2 h3 r ps -> frame h h3 r ps.
Proof.
  intros [A1 [A2 A3]] [B1 [B2 B3]]. repeat split; [congruence|intro; rewrite B2; auto|intros; rewrite B3; auto].
Qed.

Lemma frame_set {A} (h : list (list A)) r ps l : r < List.length h -> frame h (set_buf h r (puts (buf h r) ps l)) r ps.
Proof.
  intro L. repeat split.
  - apply put_length.
  - intro k. destruct (Nat.eq_dec r k) as [<-|N]. rewrite buf_set_same, puts_length; auto. rewrite buf_set_other; auto.
  - intros k q [N|N]. rewrite buf_set_other; auto.
    destruct (Nat.eq_dec r k) as [<-|M]. rewrite buf_set_same, puts_other; auto. rewrite buf_set_other; auto.
Qed.

Lemma frame_wf {A} (h h2 : list (list A)) r ps k a : frame h h2 r ps -> wf_arr h k a -> wf_arr h2 k a.
Proof.
  intros [F1 [F2 F3]] [L [R [N C]]]. repeat split; auto. congruence. rewrite F2. auto.
Qed.

Lemma frame_read {A} (h h2 : list (list A)) r ps k qs :
  frame h h2 r ps -> k <> r \/ (forall q, In q qs -> ~ In q ps) -> read (buf h2 k) qs = read (buf h k) qs.
Proof.
  intros [F1 [F2 F3]] D. apply read_ext. intros q Q. apply F3. destruct D; auto.
Qed.

(** What a write to s can change. *)
Definition written (s : sol) (h h2 : heap) : Prop :=
  frame (hx h) (hx h2) (xr s) (positions (xa s)) /\ frame (hf h) (hf h2) (fr s) (positions (fa s)) /\
  frame (hn h) (hn h2) (nr s) (na s) /\ frame (map snd (hi h)) (map snd (hi h2)) (ir s) (ia s) /\
  map fst (hi h2) = map fst (hi h).

Ltac wr := unfold written; repeat match goal with |- _ /\ _ => split end; try apply frame_refl; simpl; auto.

Lemma map_fst_put (h : list (nat * list string)) r k b :
  (r < List.length h -> k = fst (lbuf h r)) -> map fst (put h r (k, b)) = map fst h.
Proof.
  revert r; induction h as [|x h IH]; intros [|r] E; simpl; auto.
  - f_equal. rewrite E by (simpl; lia). reflexivity.
  - f_equal. apply IH. intro. apply E. simpl; lia.
Qed.

Lemma write_written h s w h2 : wf h s -> do_write h s w = SOk h2 -> written s h h2.
Proof.
  intros [[X _] [[F _] [[N _] [[I _] _]]]] E.
  assert (EV : forall w, set_n_eval h s w = SOk h2 -> written s h h2).
  { intros v V. unfold set_n_eval in V. destruct (bcast1 (List.length (na s)) v); simpl in V; try discriminate.
    injection V as <-. wr; apply frame_set; auto. }
  destruct w as [w|w|w|w|z]; simpl in E.
  - unfold set_x in E.
    match type of E with sbind ?x _ = _ => destruct x; simpl in E; try discriminate end.
    injection E as <-. wr; apply frame_set; auto.
  - unfold set_fitness in E.
    match type of E with sbind ?x _ = _ => destruct x; simpl in E; try discriminate end.
    injection E as <-. wr; apply frame_set; auto.
  - apply (EV w E).
  - unfold set_index in E. destruct (bcast1 (List.length (ia s)) w) as [l|]; simpl in E; try discriminate.
    destruct (lbuf (hi h) (ir s)) as [k b] eqn:LB. injection E as <-.
    split; [apply frame_refl|]. split; [apply frame_refl|]. split; [apply frame_refl|]. simpl. split.
    + rewrite map_snd_put.
      replace b with (buf (map snd (hi h)) (ir s)). 2:{ rewrite <- lbuf_snd, LB. reflexivity. }
      apply (frame_set (map snd (hi h)) (ir s) (ia s) (map (truncate k) l)). auto.
    + apply map_fst_put. intros _. rewrite LB. reflexivity.
  - exact (EV _ E).
Qed.

Lemma written_wf s h h2 t : written s h h2 -> wf h t -> wf h2 t.
Proof.
  intros [X [F [N [I _]]]] [WX [WF [WN [WI W]]]]. unfold wf.
  repeat match goal with |- _ /\ _ => split end; try tauto; eapply frame_wf; eauto.
Qed.

Lemma written_refl s h : written s h h.
Proof. wr. Qed.

Lemma written_trans s h h2 h3 : written s h h2 -> written s h2 h3 -> written s h h3.
Proof.
  intros [X [F [N [I W]]]] [X' [F' [N' [I' W']]]].
  unfold written. repeat match goal with |- _ /\ _ => split end; try (eapply frame_trans; eauto). congruence.
Qed.

Lemma writes_written ws : forall h s h2, wf h s -> do_writes h s ws = SOk h2 -> written s h h2.
Proof.
  induction ws as [|w ws IH]; simpl; intros h s h2 W E.
  - injection E as <-. apply written_refl.
  - destruct (do_write h s w) as [h1|] eqn:K; simpl in E; try discriminate.
    pose proof (write_written _ _ _ _ W K). eapply written_trans; eauto. eapply IH; eauto. eapply written_wf; eauto.
Qed.

(** Nothing of t changes when it shares no buffer with s. *)
Definition apart (s t : sol) : Prop := xr s <> xr t /\ fr s <> fr t /\ nr s <> nr t /\ ir s <> ir t.
Definition same_rows (h h2 : heap) (t : sol) : Prop :=
  values h2 t = values h t /\ fits h2 t = fits h t /\ evals h2 t = evals h t /\ labels h2 t = labels h t.

Lemma written_apart s h h2 t : written s h h2 -> apart s t -> same_rows h h2 t.
Proof.
  intros [X [F [N [I _]]]] [AX [AF [AN AI]]].
  unfold same_rows, values, row_list, fits, evals, n_list, labels, i_list. rewrite !lbuf_snd. repeat split.
  - destruct (xa t).
    + f_equal. eapply frame_read; eauto.
    + apply map_ext. intro. eapply frame_read; eauto.
  - destruct (xa t), (fa t); try (f_equal; eapply frame_read; eauto); apply map_ext; intro; eapply frame_read; eauto.
  - eapply frame_read; eauto.
  - eapply frame_read; eauto.
Qed.

Lemma nth_error_map2 {A B} (f g : A -> B) l i :
  (forall x, nth_error l i = Some x -> f x = g x) -> nth_error (map f l) i = nth_error (map g l) i.
Proof. intro H. rewrite !nth_error_map. destruct (nth_error l i); simpl; auto. rewrite H; auto. Qed.

Lemma frame_row {A} (h h2 : list (list A)) r rs ps rs' i :
  frame h h2 r (List.concat rs') -> NoDup (List.concat rs) -> selects rs ps rs' -> ~ In i ps ->
  nth_error (map (read (buf h2 r)) rs) i = nth_error (map (read (buf h r)) rs) i.
Proof.
  intros F N S1 NI. apply nth_error_map2. intros x X. eapply frame_read; eauto. right.
  intros q Q J. apply in_concat in J. destruct J as [y [Y J]].
  destruct (selects_in _ _ _ _ S1 Y) as [p [P1 P2]].
  eapply (NoDup_concat_disjoint rs i p); eauto. intros ->. auto.
Qed.

Lemma frame_elem {A} (h h2 : list (list A)) r l ps l' i :
  Forall (fun p => p < List.length (buf h r)) l ->
  frame h h2 r l' -> NoDup l -> selects l ps l' -> ~ In i ps ->
  nth_error (read (buf h2 r) l) i = nth_error (read (buf h r) l) i.
Proof.
  intros R F N S1 NI.
  pose proof (read_selects _ _ R) as K1.
  assert (R2 : Forall (fun p => p < List.length (buf h2 r)) l).
  { destruct F as [_ [F2 _]]. rewrite F2. auto. }
  pose proof (read_selects _ _ R2) as K2.
  destruct (nth_error l i) as [q|] eqn:Q.
  - rewrite (selects_nth _ _ _ _ _ K1 Q), (selects_nth _ _ _ _ _ K2 Q).
    destruct F as [_ [_ F]]. apply F. right. intro J.
    destruct (selects_in _ _ _ _ S1 J) as [p [P1 P2]].
    assert (i = p); [|subst; auto]. apply (proj1 (NoDup_nth_error l) N); [|congruence]. apply nth_error_Some. congruence.
  - apply nth_error_None in Q.
    rewrite (proj2 (nth_error_None _ _)), (proj2 (nth_error_None _ _)); auto; rewrite read_length; auto.
Qed.

(** Rows of the parent outside of the view keep their values and attributes. *)
Lemma written_view_other h h2 s r ps rs c i :
  wf h s -> xa s = A2 rs c -> sel_positions (List.length rs) r = SOk ps -> is_fancy r = false ->
  written (view_of s r rs c ps) h h2 -> ~ In i ps ->
  nth_error (values h2 s) i = nth_error (values h s) i /\ nth_error (fits h2 s) i = nth_error (fits h s) i /\
  nth_error (evals h2 s) i = nth_error (evals h s) i /\ nth_error (labels h2 s) i = nth_error (labels h s) i.
Proof.
  intros W E P NF [X [F [N [I _]]]] NI. pose proof (fit_len _ _ _ _ W E) as FL.
  pose proof (sel_positions_range _ _ _ P) as R.
  destruct W as [WX [WF [WN [WI [SH [NO [LN [LI [LV LG]]]]]]]]].
  rewrite E in WX. unfold sN in LN, LI. rewrite E in LN, LI.
  destruct WX as [_ [_ [NX _]]]. destruct WF as [_ [RF [NDF _]]].
  destruct WN as [_ [RN [NDN _]]]. destruct WI as [_ [RI [NDI _]]]. simpl in *.
  repeat split.
  - unfold values, row_list. rewrite E. eapply frame_row; eauto.
    + destruct (is_int r); exact X.
    + apply pick_selects; auto.
  - rewrite (fits_2d h s _ _ E), (fits_2d h2 s _ _ E).
    destruct (fa s) as [l|fs k]; simpl in *.
    + apply nth_error_map2. intros q Q. eapply frame_read; eauto. right. intros q' [<-|[]] J.
      assert (J' : In q (pick l ps)) by (destruct (is_int r); exact J).
      destruct (selects_in _ _ _ _ (pick_selects l ps ltac:(rewrite FL; auto)) J') as [p [P1 P2]].
      assert (i = p); [|subst; auto]. apply (proj1 (NoDup_nth_error l) NDF); [|congruence]. apply nth_error_Some. congruence.
    + eapply frame_row; eauto.
      * destruct (is_int r); exact F.
      * apply pick_selects. rewrite FL; auto.
  - unfold evals, n_list. eapply frame_elem; eauto. apply pick_selects. rewrite LN; auto.
  - unfold labels, i_list. rewrite !lbuf_snd. eapply frame_elem; eauto. apply pick_selects. rewrite LI; auto.
Qed.

(** ** The value of a write *)
Lemma set_n_eval_value h s w h2 : wf h s -> set_n_eval h s w = SOk h2 ->
  exists l, bcast1 (List.length (na s)) w = SOk l /\ evals h2 s = l.
Proof.
  intros [_ [_ [[LN [RN [NDN _]]] _]]] E. unfold set_n_eval in E.
  destruct (bcast1 (List.length (na s)) w) as [l|] eqn:B; simpl in E; try discriminate. injection E as <-.
  exists l. split; auto. unfold evals, n_list; simpl. rewrite buf_set_same by auto. apply read_puts_same; auto.
  unfold bcast1, bvec in B. destruct w as [a|v|[|v [|v2 m]]]; try discriminate.
  - injection B as <-. apply repeat_length.
  - destruct (Nat.eqb_spec (List.length v) (List.length (na s))). injection B as <-; auto.
    destruct v as [|a [|b v]]; try discriminate. injection B as <-. apply repeat_length.
  - destruct (Nat.eqb_spec (List.length v) (List.length (na s))). injection B as <-; auto.
    destruct v as [|a [|b v]]; try discriminate. injection B as <-. apply repeat_length.
Qed.

Lemma bvec_length {A} n (l r : list A) : bvec n l = SOk r -> List.length r = n.
Proof.
  unfold bvec. destruct (Nat.eqb_spec (List.length l) n). intro E; injection E as <-; auto.
  destruct l as [|a [|b v]]; try discriminate. intro E; injection E as <-. apply repeat_length.
Qed.

Lemma bcast1_length {A} n (w : wval A) r : bcast1 n w = SOk r -> List.length r = n.
Proof.
  destruct w as [a|v|[|v [|v2 m]]]; simpl; try discriminate; try apply bvec_length.
  intro E; injection E as <-. apply repeat_length.
Qed.

Lemma bcast2_shape {A} n c (w : wval A) r : bcast2 n c w = SOk r ->
  List.length r = n /\ Forall (fun x => List.length x = c) r.
Proof.
  destruct w as [a|v|m]; simpl.
  - intro E; injection E as <-. split. apply repeat_length. apply Forall_forall. intros x I. apply repeat_spec in I.
    subst. apply repeat_length.
  - destruct (bvec c v) as [u|] eqn:B; simpl; try discriminate. intro E; injection E as <-. split. apply repeat_length.
    apply Forall_forall. intros x I. apply repeat_spec in I. subst. eapply bvec_length; eauto.
  - destruct (bvec n m) as [u|] eqn:B; simpl; try discriminate. intro E. apply smapM_spec in E.
    apply bvec_length in B. split.
    + rewrite <- B. clear - E. induction E; simpl; auto.
    + clear - E. induction E; constructor; auto. eapply bvec_length; eauto.
Qed.

Lemma puts_rows {A} (b : list A) rs c l :
  NoDup (List.concat rs) -> Forall (fun p => p < List.length b) (List.concat rs) ->
  Forall (fun x => List.length x = c) rs -> List.length l = List.length rs -> Forall (fun x => List.length x = c) l ->
  map (read (puts b (List.concat rs) (List.concat l))) rs = l.
Proof.
  intros N R C E L.
  pose proof (read_puts_same b (List.concat rs) (List.concat l) N R) as K.
  rewrite !(concat_length _ c), E in K by auto. specialize (K eq_refl). rewrite read_concat in K.
  assert (C2 : Forall (fun x => List.length x = c) (map (read (puts b (List.concat rs) (List.concat l))) rs)).
  { apply read_rows; auto. rewrite puts_length. auto. }
  assert (E2 : List.length (map (read (puts b (List.concat rs) (List.concat l))) rs) = List.length l).
  { rewrite map_length. auto. }
  revert K C2 E2. generalize (map (read (puts b (List.concat rs) (List.concat l))) rs) as m.
  intros m K C2 E2. clear - K C2 L E2. revert m K C2 L E2. induction l as [|y l IH]; intros [|x m] K CX CY EL; simpl in *; try discriminate; auto.
  inversion CX; inversion CY; subst.
  assert (x = y /\ List.concat m = List.concat l) as [-> K2].
  { clear - K H5. revert y K H5. induction x as [|a x IHx]; intros [|b y] K E; simpl in *; try discriminate; auto.
    injection K as -> K. destruct (IHx y K) as [-> ->]; auto. }
  f_equal. apply IH; auto.
Qed.

(** The fitness rows after assigning w to the fitness attribute. *)
Lemma set_fitness_value h s w h2 : wf h s -> set_fitness h s w = SOk h2 ->
  match fa s with
  | A1 ps => exists l, bcast1 (List.length ps) w = SOk l /\
                       fits h2 s = match xa s with A1 _ => [l] | A2 _ _ => map (fun f => [f]) l end
  | A2 rs c => exists l, bcast2 (List.length rs) c w = SOk l /\ fits h2 s = l
  end.
Proof.
  intros [_ [[LF [RF [NDF CF]]] _]] E. unfold set_fitness in E. unfold fits. destruct (fa s) as [ps|rs c].
  - destruct (bcast1 (List.length ps) w) as [l|] eqn:B; simpl in E; try discriminate. injection E as <-.
    exists l. split; auto. simpl. rewrite buf_set_same by auto. simpl in RF, NDF.
    assert (EQ : read (puts (buf (hf h) (fr s)) ps l) ps = l).
    { apply read_puts_same; auto. eapply bcast1_length; eauto. }
    destruct (xa s). f_equal. exact EQ.
    rewrite singles by (rewrite puts_length; auto). rewrite EQ. reflexivity.
  - destruct (bcast2 (List.length rs) c w) as [l|] eqn:B; simpl in E; try discriminate. injection E as <-.
    exists l. split; auto. simpl. rewrite buf_set_same by auto. simpl in RF, NDF.
    destruct (bcast2_shape _ _ _ _ B) as [B1 B2].
    destruct (xa s); apply (puts_rows _ rs c l); auto.
Qed.
