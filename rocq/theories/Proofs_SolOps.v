(** Indexing, writing, constructing and concatenating solution sets (Model_Sol.v). *)
From Coq Require Import Bool Arith ZArith QArith String List Lia.
From Verif Require Import Lib_List Model_Var Model_Opt Model_Sol Spec_Sol Proofs_Sol.
Import ListNotations.
Open Scope nat_scope.

Local Arguments pick : simpl never.
Local Arguments read : simpl never.

Definition not_last (r : sel) : Prop := match r with SInt i => i <> (-1)%Z | _ => True end.

Lemma attr_positions n r ps : sel_positions n r = SOk ps -> not_last r -> sel_positions n (attr_sel r) = SOk ps.
Proof.
  destruct r as [i|a b c|l|l]; simpl; auto.
  intros E N. destruct (int_position n i) eqn:K; simpl in E; try discriminate. injection E as <-.
  pose proof (int_position_ok _ _ _ K) as [_ [V _]].
  rewrite int_position_valid in K by auto. injection K as <-. apply slice_one; auto.
Qed.

Lemma pick_all_cols (rs : list (list nat)) c ps : Forall (fun x => List.length x = c) rs -> Forall (fun p => p < List.length rs) ps ->
  map (fun row => pick row (seq 0 c)) (pick rs ps) = pick rs ps.
Proof.
  intros F R. rewrite <- (map_id (pick rs ps)) at 2. apply map_ext_in. intros x I. apply pick_seq.
  pose proof (Forall_selects _ _ _ _ F (pick_selects rs ps R)) as G. rewrite Forall_forall in G. symmetry. auto.
Qed.

(** The solution returned by basic indexing of rows: the same buffers at the selected positions. *)
Definition view_of (s : sol) (r : sel) (rs : list (list nat)) (c : nat) (ps : list nat) : sol :=
  mkSol (xr s) (if is_int r then A1 (List.concat (pick rs ps)) else A2 (pick rs ps) c)
        (fr s) (if is_int r then ravel (pick_arr (fa s) ps) else pick_arr (fa s) ps)
        (nr s) (pick (na s) ps) (ir s) (pick (ia s) ps) (vn s) (fnm s) (nobj s).

Lemma fit_len h s rs c : wf h s -> xa s = A2 rs c -> attr_len (fa s) = List.length rs.
Proof.
  intros W E. destruct W as [_ [_ [_ [_ [WF _]]]]]. unfold wf_fit in WF. rewrite E in WF.
  unfold attr_len. destruct (fa s); intuition.
Qed.

Lemma getitem_view h s r ps rs c :
  wf h s -> xa s = A2 rs c -> sel_positions (List.length rs) r = SOk ps -> not_last r -> is_fancy r = false ->
  getitem h s (Rows r) = SOk (Sub (view_of s r rs c ps), h).
Proof.
  intros W E P NL NF. pose proof (fit_len _ _ _ _ W E) as FL.
  destruct W as [[_ [_ [_ WX]]] [_ [_ [_ [_ [_ [LN [LI [LV LG]]]]]]]]].
  rewrite E in WX. unfold sN in LN, LI. unfold sdim in LV. rewrite E in LN, LI, LV.
  unfold getitem. rewrite E. unfold all_cols at 1 2 3 4. simpl is_fancy. rewrite andb_false_r, P. cbn [sbind].
  simpl sel_positions at 1. rewrite slice_all. cbn [sbind]. rewrite NF. cbn [orb].
  assert (X : is_int r && is_int all_cols = false) by (destruct r; reflexivity).
  unfold all_cols in X. rewrite X.
  rewrite pick_all_cols; auto. 2: eapply sel_positions_range; eauto.
  rewrite seq_length. cbn [take_arr take1 take_lab].
  rewrite FL, LN, LI, (attr_positions _ _ _ P NL). cbn [sbind].
  unfold all_cols. simpl sel_positions. rewrite slice_all. cbn [sbind].
  rewrite (pick_seq (vn s)); auto. destruct h; reflexivity.
Qed.

(** ** Well-formedness of the selected solution *)
Lemma NoDup_concat_disjoint {A} (rs : list (list A)) p q x y a :
  NoDup (List.concat rs) -> nth_error rs p = Some x -> nth_error rs q = Some y -> p <> q -> In a x -> In a y -> False.
Proof.
  revert p q. induction rs as [|r rs IH]; intros p q N P Q D I J.
  - destruct p; discriminate.
  - simpl in N.
    assert (N1 : NoDup (List.concat rs)) by (eapply NoDup_app_r; eauto).
    assert (N2 : forall b, In b r -> In b (List.concat rs) -> False).
    { intros b B1 B2. eapply NoDup_app_dis; eauto. }
    destruct p as [|p], q as [|q]; simpl in *; try congruence.
    + injection P as ->. apply (N2 a I). apply in_concat. exists y. split; auto. eapply nth_error_In; eauto.
    + injection Q as ->. apply (N2 a J). apply in_concat. exists x. split; auto. eapply nth_error_In; eauto.
    + eapply IH with (p := p) (q := q); eauto.
Qed.

Lemma NoDup_concat_row {A} (rs : list (list A)) p x : NoDup (List.concat rs) -> nth_error rs p = Some x -> NoDup x.
Proof.
  revert p. induction rs as [|r rs IH]; intros [|p] N P; simpl in *; try discriminate.
  - injection P as ->. eapply NoDup_app_l; eauto.
  - eapply IH; [eapply NoDup_app_r|]; eauto.
Qed.

Lemma selects_in {A} (l : list A) ps a x : selects l ps a -> In x a -> exists p, In p ps /\ nth_error l p = Some x.
Proof.
  induction 1 as [|p y ps a E H IH]; intro I. { destruct I. }
  destruct I as [->|I]. { exists p. split; simpl; auto. } destruct (IH I) as [q [Q1 Q2]]. exists q. simpl; auto.
Qed.

Lemma selects_NoDup_concat {A} (rs : list (list A)) ps rs' :
  NoDup (List.concat rs) -> NoDup ps -> selects rs ps rs' -> NoDup (List.concat rs').
Proof.
  intros N D H. induction H as [|p x ps rs' E H IH]; simpl. constructor.
  inversion D; subst. apply NoDup_app_intro; auto.
  - eapply NoDup_concat_row; eauto.
  - intros a I J. apply in_concat in J. destruct J as [y [Y J]].
    destruct (selects_in _ _ _ _ H Y) as [q [Q1 Q2]].
    eapply (NoDup_concat_disjoint rs p q); eauto. intros ->. auto.
Qed.

Lemma selects_NoDup {A} (l : list A) ps l' : NoDup l -> NoDup ps -> selects l ps l' -> NoDup l'.
Proof.
  intros N D H. induction H as [|p x ps a E H IH]; constructor; inversion D; subst; auto.
  intro I. destruct (selects_in _ _ _ _ H I) as [q [Q1 Q2]].
  assert (p = q); [|subst; auto]. apply (proj1 (NoDup_nth_error l) N); [|congruence]. apply nth_error_Some. congruence.
Qed.

Lemma selects_in_src {A} (l : list A) ps a x : selects l ps a -> In x a -> In x l.
Proof. intros H I. destruct (selects_in _ _ _ _ H I) as [p [_ P]]. eapply nth_error_In; eauto. Qed.

Lemma concat_incl_selects {A} (rs : list (list A)) ps rs' a :
  selects rs ps rs' -> In a (List.concat rs') -> In a (List.concat rs).
Proof.
  intros H I. apply in_concat in I. destruct I as [x [X I]]. apply in_concat. exists x. split; auto.
  eapply selects_in_src; eauto.
Qed.

Lemma wf_pick_arr {A} (h : list (list A)) r a ps :
  wf_arr h r a -> NoDup ps -> Forall (fun p => p < attr_len a) ps -> wf_arr h r (pick_arr a ps).
Proof.
  intros [L [R [N C]]] D F. destruct a as [l|rs c]; simpl in *.
  - pose proof (pick_selects l ps F) as K. repeat split; auto.
    + eapply Forall_selects; eauto.
    + exact (selects_NoDup l ps _ N D K).
  - pose proof (pick_selects rs ps F) as K. repeat split; auto.
    + apply Forall_forall. intros a I. rewrite Forall_forall in R. apply R. eapply concat_incl_selects; eauto.
    + exact (selects_NoDup_concat rs ps _ N D K).
    + eapply Forall_selects; eauto.
Qed.

Lemma wf_ravel {A} (h : list (list A)) r a : wf_arr h r a -> wf_arr h r (ravel a).
Proof. intros [L [R [N C]]]. unfold ravel. repeat split; auto. Qed.

Lemma pick_length {A} (l : list A) ps : Forall (fun p => p < List.length l) ps -> List.length (pick l ps) = List.length ps.
Proof. apply read_length. Qed.

Lemma int_one n r ps : sel_positions n r = SOk ps -> is_int r = true -> exists p, ps = [p].
Proof.
  destruct r; simpl; try discriminate. intros E _. destruct (int_position n i); simpl in E; try discriminate.
  injection E as <-. eauto.
Qed.

Lemma view_NoDup n r ps : sel_positions n r = SOk ps -> is_fancy r = false -> NoDup ps.
Proof.
  destruct r; simpl; try discriminate.
  - destruct (int_position n i); simpl; try discriminate. intros E _. injection E as <-. constructor; auto. constructor.
  - intros E _. apply slice_positions_spec, slice_spec_props in E. apply E.
Qed.

Lemma pick_one {A} (l : list A) p : p < List.length l -> exists x, pick l [p] = [x] /\ nth_error l p = Some x.
Proof.
  intro L. apply lt_nth_error in L. destruct L as [x X]. exists x. split; auto. unfold pick, read. simpl. rewrite X. auto.
Qed.

Lemma view_wf h s r ps rs c :
  wf h s -> xa s = A2 rs c -> sel_positions (List.length rs) r = SOk ps -> is_fancy r = false ->
  wf h (view_of s r rs c ps).
Proof.
  intros W E P NF. pose proof (fit_len _ _ _ _ W E) as FL.
  pose proof (sel_positions_range _ _ _ P) as R. pose proof (view_NoDup _ _ _ P NF) as D.
  destruct W as [WX [WF [WN [WI [SH [NO [LN [LI [LV LG]]]]]]]]].
  rewrite E in WX. unfold sN in LN, LI. unfold sdim in LV. rewrite E in LN, LI, LV.
  assert (WX' : wf_arr (hx h) (xr s) (A2 (pick rs ps) c)) by (apply (wf_pick_arr _ _ (A2 rs c)); auto).
  unfold wf, view_of; simpl. repeat match goal with |- _ /\ _ => split end; auto.
  - destruct (is_int r); auto. apply (wf_ravel _ _ _ WX').
  - destruct (is_int r). apply wf_ravel. all: apply wf_pick_arr; auto; rewrite FL; auto.
  - apply (wf_pick_arr _ _ (A1 (na s))); auto. simpl. rewrite LN. auto.
  - apply (wf_pick_arr _ _ (A1 (ia s))); auto. simpl. rewrite LI. auto.
  - unfold wf_fit in *; simpl. rewrite E in SH. destruct (is_int r) eqn:IR.
    + destruct (int_one _ _ _ P IR) as [p ->]. simpl. destruct (fa s) as [l|fs k]; simpl in *.
      * rewrite pick_length; [simpl; lia|]. rewrite FL. auto.
      * rewrite (concat_length _ k). rewrite pick_length. simpl; lia. rewrite FL; auto.
        destruct WF as [_ [_ [_ WF]]]. eapply Forall_selects; [exact WF|]. apply pick_selects. rewrite FL. auto.
    + destruct (fa s) as [l|fs k]; simpl in *.
      * split; [lia|]. rewrite !pick_length; auto. rewrite FL; auto.
      * repeat split; try lia. rewrite !pick_length; auto. rewrite FL; auto.
  - unfold sN; simpl. rewrite pick_length by (rewrite LN; auto). destruct (is_int r) eqn:IR.
    + destruct (int_one _ _ _ P IR) as [p ->]. reflexivity.
    + rewrite pick_length; auto.
  - unfold sN; simpl. rewrite pick_length by (rewrite LI; auto). destruct (is_int r) eqn:IR.
    + destruct (int_one _ _ _ P IR) as [p ->]. reflexivity.
    + rewrite pick_length; auto.
  - unfold sdim; simpl. destruct (is_int r) eqn:IR; auto.
    destruct (int_one _ _ _ P IR) as [p ->]. rewrite (concat_length _ c).
    + rewrite pick_length by auto. simpl. lia.
    + destruct WX' as [_ [_ [_ WX']]]. auto.
Qed.

(** Fitness rows of a 2-d solution set, for either layout. *)
Definition frow (b : list (option Q)) (a : arr) : list (list (option Q)) :=
  match a with A1 l => map (fun p => read b [p]) l | A2 rs _ => map (read b) rs end.

Lemma fits_2d h s rs c : xa s = A2 rs c -> fits h s = frow (buf (hf h) (fr s)) (fa s).
Proof. unfold fits. intros ->. destruct (fa s); reflexivity. Qed.

Lemma frow_selects b a ps : Forall (fun p => p < attr_len a) ps -> selects (frow b a) ps (frow b (pick_arr a ps)).
Proof. intro F. destruct a; simpl; apply selects_map, pick_selects; auto. Qed.

Lemma view_rows h s r ps rs c :
  wf h s -> xa s = A2 rs c -> sel_positions (List.length rs) r = SOk ps ->
  rows_of h s ps h (view_of s r rs c ps).
Proof.
  intros W E P. pose proof (fit_len _ _ _ _ W E) as FL.
  pose proof (sel_positions_range _ _ _ P) as R.
  destruct W as [WX [WF [WN [WI [SH [NO [LN [LI [LV LG]]]]]]]]].
  unfold sN in LN, LI. rewrite E in LN, LI.
  repeat split.
  - unfold values, row_list. rewrite E. simpl. destruct (is_int r) eqn:IR.
    + destruct (int_one _ _ _ P IR) as [p ->]. inversion R; subst.
      destruct (pick_one rs p) as [x [-> X]]; auto. simpl. rewrite app_nil_r.
      constructor; [|constructor]. rewrite nth_error_map, X. reflexivity.
    + apply selects_map, pick_selects; auto.
  - rewrite (fits_2d h s rs c E). destruct (is_int r) eqn:IR.
    + destruct (int_one _ _ _ P IR) as [p ->]. inversion R; subst.
      unfold fits, view_of; simpl. rewrite IR. simpl.
      destruct (fa s) as [l|fs k]; simpl in *.
      * destruct (pick_one l p) as [x [-> X]]; [rewrite FL; auto|].
        constructor; [|constructor]. rewrite nth_error_map, X. reflexivity.
      * destruct (pick_one fs p) as [x [-> X]]; [rewrite FL; auto|]. simpl. rewrite app_nil_r.
        constructor; [|constructor]. rewrite nth_error_map, X. reflexivity.
    + rewrite (fits_2d h _ (pick rs ps) c). 2: unfold view_of; simpl; rewrite IR; reflexivity.
      unfold view_of; simpl. rewrite IR. apply frow_selects. rewrite FL. auto.
  - unfold evals, n_list. simpl. apply selects_read. apply WN. apply pick_selects. rewrite LN; auto.
  - unfold labels, i_list. simpl. rewrite lbuf_snd. apply selects_read. apply WI. apply pick_selects. rewrite LI; auto.
Qed.

(** ** Advanced indexing: fresh buffers holding the selected rows *)
Lemma range_seq n : Forall (fun p => p < n) (seq 0 n).
Proof. apply Forall_forall. intros x I. apply in_seq in I. lia. Qed.

Lemma wf_take_arr {A} (h : list (list A)) r a :
  wf_arr h r a ->
  forall r' a' h', take_arr h r a true = (r', a', h') -> wf_arr h' r' a' /\ h' = h ++ [read (buf h r) (positions a)] /\
  r' = List.length h /\ attr_len a' = attr_len a /\
  match a, a' with A1 _, A1 _ => True | A2 _ c, A2 _ c' => c' = c | _, _ => False end.
Proof.
  intros [L [R [N C]]] r' a' h' E. destruct a as [l|rs c]; simpl in *; injection E as <- <- <-.
  - repeat split; auto; simpl.
    + rewrite app_length; simpl; lia.
    + rewrite buf_app_new, read_length by auto. apply range_seq.
    + apply seq_NoDup.
    + rewrite seq_length; auto.
  - repeat split; auto; simpl.
    + rewrite app_length; simpl; lia.
    + rewrite buf_app_new, grid_concat, read_length by auto. rewrite (concat_length rs c) by auto. apply range_seq.
    + rewrite grid_concat. apply seq_NoDup.
    + apply grid_rows.
    + apply grid_length.
Qed.

Lemma take_arr_rows {A} (h : list (list A)) r rs c r' a' h' :
  Forall (fun p => p < List.length (buf h r)) (List.concat rs) -> Forall (fun x => List.length x = c) rs ->
  take_arr h r (A2 rs c) true = (r', a', h') ->
  exists rs', a' = A2 rs' c /\ map (read (buf h' r')) rs' = map (read (buf h r)) rs.
Proof.
  intros R C E. simpl in E. injection E as <- <- <-. eexists. split; eauto.
  rewrite buf_app_new, read_concat.
  rewrite <- (map_length (read (buf h r)) rs). apply grid_read.
  apply Forall_map, Forall_forall. intros x I. rewrite read_length.
  - rewrite Forall_forall in C. auto.
  - apply Forall_forall. intros p P. rewrite Forall_forall in R. apply R. apply in_concat. eauto.
Qed.

(** The selected positions may repeat (a list such as [0, 0]): only ranges and shapes matter. *)
Definition ok_arr {A} (h : list (list A)) (r : nat) (a : arr) : Prop :=
  r < List.length h /\ Forall (fun p => p < List.length (buf h r)) (positions a) /\
  match a with A1 _ => True | A2 rs c => Forall (fun x => List.length x = c) rs end.

Lemma wf_ok {A} (h : list (list A)) r a : wf_arr h r a -> ok_arr h r a.
Proof. unfold wf_arr, ok_arr. intuition. Qed.

Lemma ok_pick_arr {A} (h : list (list A)) r a ps :
  ok_arr h r a -> Forall (fun p => p < attr_len a) ps -> ok_arr h r (pick_arr a ps).
Proof.
  intros [L [R C]] F. destruct a as [l|rs c]; simpl in *.
  - pose proof (pick_selects l ps F) as K. repeat split; auto. eapply Forall_selects; eauto.
  - pose proof (pick_selects rs ps F) as K. repeat split; auto.
    + apply Forall_forall. intros a I. rewrite Forall_forall in R. apply R. eapply concat_incl_selects; eauto.
    + eapply Forall_selects; eauto.
Qed.

Lemma wf_fresh1 {A} (h : list (list A)) b n : List.length b = n -> wf_arr (h ++ [b]) (List.length h) (A1 (seq 0 n)).
Proof.
  intros <-. repeat split; simpl.
  - rewrite app_length; simpl; lia.
  - rewrite buf_app_new. apply range_seq.
  - apply seq_NoDup.
Qed.

Lemma wf_fresh2 {A} (h : list (list A)) b n c : List.length b = n * c -> wf_arr (h ++ [b]) (List.length h) (A2 (grid n c) c).
Proof.
  intros E. repeat split; simpl.
  - rewrite app_length; simpl; lia.
  - rewrite buf_app_new, grid_concat, E. apply range_seq.
  - rewrite grid_concat. apply seq_NoDup.
  - apply grid_rows.
Qed.

(** The solution returned by advanced indexing of rows. *)
Definition copy_arr (r : nat) (a : arr) : arr :=
  match a with A1 ps => A1 (seq 0 (List.length ps)) | A2 rs c => A2 (grid (List.length rs) c) c end.
Definition copy_of (h : heap) (s : sol) (rs : list (list nat)) (c : nat) (ps : list nat) : sol :=
  mkSol (List.length (hx h)) (A2 (grid (List.length (pick rs ps)) c) c)
        (List.length (hf h)) (copy_arr 0 (pick_arr (fa s) ps))
        (List.length (hn h)) (seq 0 (List.length (pick (na s) ps)))
        (List.length (hi h)) (seq 0 (List.length (pick (ia s) ps))) (vn s) (fnm s) (nobj s).
Definition copy_heap (h : heap) (s : sol) (rs : list (list nat)) (ps : list nat) : heap :=
  mkHeap (hx h ++ [read (buf (hx h) (xr s)) (List.concat (pick rs ps))])
         (hf h ++ [read (buf (hf h) (fr s)) (positions (pick_arr (fa s) ps))])
         (hn h ++ [read (buf (hn h) (nr s)) (pick (na s) ps)])
         (hi h ++ [(fst (lbuf (hi h) (ir s)), read (snd (lbuf (hi h) (ir s))) (pick (ia s) ps))]).

Lemma getitem_copy h s r ps rs c :
  wf h s -> xa s = A2 rs c -> sel_positions (List.length rs) r = SOk ps -> is_fancy r = true ->
  getitem h s (Rows r) = SOk (Sub (copy_of h s rs c ps), copy_heap h s rs ps).
Proof.
  intros W E P NF. pose proof (fit_len _ _ _ _ W E) as FL.
  assert (NL : not_last r) by (destruct r; simpl; auto; discriminate).
  assert (NI : is_int r = false) by (destruct r; simpl; auto; discriminate).
  destruct W as [[_ [_ [_ WX]]] [_ [_ [_ [_ [_ [LN [LI [LV LG]]]]]]]]].
  rewrite E in WX. unfold sN in LN, LI. unfold sdim in LV. rewrite E in LN, LI, LV.
  unfold getitem. rewrite E. unfold all_cols at 1 2 3 4. simpl is_fancy. rewrite andb_false_r, P. cbn [sbind].
  simpl sel_positions at 1. rewrite slice_all. cbn [sbind]. rewrite NF, NI. cbn [orb andb].
  rewrite pick_all_cols; auto. 2: eapply sel_positions_range; eauto.
  rewrite seq_length. cbn [take_arr take1 take_lab].
  rewrite FL, LN, LI, (attr_positions _ _ _ P NL). cbn [sbind].
  unfold copy_of, copy_heap. destruct (pick_arr (fa s) ps); cbn [positions copy_arr];
  unfold all_cols; simpl sel_positions; rewrite slice_all; cbn [sbind]; rewrite (pick_seq (vn s)); auto.
Qed.

Lemma map_snd_app (h : list (nat * list string)) k b : map snd (h ++ [(k, b)]) = map snd h ++ [b].
Proof. rewrite map_app. reflexivity. Qed.

Lemma copy_wf h s r ps rs c :
  wf h s -> xa s = A2 rs c -> sel_positions (List.length rs) r = SOk ps ->
  wf (copy_heap h s rs ps) (copy_of h s rs c ps).
Proof.
  intros W E P. pose proof (fit_len _ _ _ _ W E) as FL.
  pose proof (sel_positions_range _ _ _ P) as R.
  destruct W as [WX [WF [WN [WI [SH [NO [LN [LI [LV LG]]]]]]]]].
  rewrite E in WX. unfold sN in LN, LI. unfold sdim in LV. rewrite E in LN, LI, LV.
  apply wf_ok in WX, WF, WN, WI.
  apply ok_pick_arr with (ps := ps) in WX; [|auto].
  apply ok_pick_arr with (ps := ps) in WF; [|rewrite FL; auto].
  apply ok_pick_arr with (ps := ps) in WN; [|simpl; rewrite LN; auto].
  apply ok_pick_arr with (ps := ps) in WI; [|simpl; rewrite LI; auto].
  unfold wf, copy_of, copy_heap; simpl. rewrite map_snd_app. repeat match goal with |- _ /\ _ => split end; auto.
  - apply wf_fresh2. rewrite read_length by apply WX. apply concat_length. apply WX.
  - destruct (pick_arr (fa s) ps) as [l|fs k]; simpl in *.
    + apply wf_fresh1. apply read_length, WF.
    + apply wf_fresh2. rewrite read_length by apply WF. apply concat_length. apply WF.
  - apply wf_fresh1. apply read_length, WN.
  - replace (List.length (hi h)) with (List.length (map snd (hi h))) by apply map_length.
    apply wf_fresh1. rewrite lbuf_snd. apply read_length, WI.
  - unfold wf_fit in *; simpl. rewrite E in SH. rewrite grid_length.
    destruct (fa s) as [l|fs k]; simpl in *.
    + rewrite seq_length. split; [lia|]. rewrite !pick_length; auto. rewrite FL; auto.
    + rewrite grid_length. repeat split; try lia. rewrite !pick_length; auto. rewrite FL; auto.
  - unfold sN; simpl. rewrite seq_length, grid_length, !pick_length; auto. rewrite LN; auto.
  - unfold sN; simpl. rewrite seq_length, grid_length, !pick_length; auto. rewrite LI; auto.
Qed.

Lemma fresh_read {A} (h : list (list A)) b : read (buf (h ++ [b]) (List.length h)) (seq 0 (List.length b)) = b.
Proof. rewrite buf_app_new. apply read_eq, selects_seq. Qed.

Lemma fresh_rows {A} (h : list (list A)) rows n c : Forall (fun r => List.length r = c) rows -> n = List.length rows ->
  map (read (buf (h ++ [List.concat rows]) (List.length h))) (grid n c) = rows.
Proof. intros F ->. rewrite buf_app_new. apply grid_read; auto. Qed.

Lemma read_rows {A} (b : list A) rs c :
  Forall (fun p => p < List.length b) (List.concat rs) -> Forall (fun x => List.length x = c) rs ->
  Forall (fun r => List.length r = c) (map (read b) rs).
Proof.
  intros R C. apply Forall_map, Forall_forall. intros x I. rewrite read_length.
  - rewrite Forall_forall in C. auto.
  - apply Forall_forall. intros p P. rewrite Forall_forall in R. apply R. apply in_concat. eauto.
Qed.

Lemma singles {A} (b : list A) ps : Forall (fun p => p < List.length b) ps ->
  map (fun p => read b [p]) ps = map (fun a => [a]) (read b ps).
Proof.
  induction 1 as [|p ps L F IH]; simpl; auto. rewrite IH. unfold read; simpl.
  destruct (nth_error b p) eqn:E; auto. apply nth_error_None in E. lia.
Qed.

Lemma map_singletons {A} (l : list A) : map (fun p => read l [p]) (seq 0 (List.length l)) = map (fun a => [a]) l.
Proof. rewrite singles by apply range_seq. rewrite (read_eq _ _ _ (selects_seq l)). reflexivity. Qed.

Lemma copy_rows h s r ps rs c :
  wf h s -> xa s = A2 rs c -> sel_positions (List.length rs) r = SOk ps ->
  rows_of h s ps (copy_heap h s rs ps) (copy_of h s rs c ps).
Proof.
  intros W E P. pose proof (fit_len _ _ _ _ W E) as FL.
  pose proof (sel_positions_range _ _ _ P) as R.
  pose proof W as W0.
  destruct W as [WX [WF [WN [WI [SH [NO [LN [LI [LV LG]]]]]]]]].
  rewrite E in WX. unfold sN in LN, LI. unfold sdim in LV. rewrite E in LN, LI, LV.
  apply wf_ok in WX, WF, WN, WI.
  apply ok_pick_arr with (ps := ps) in WX; [|auto]. destruct WX as [_ [WX1 WX2]]. simpl in WX1, WX2.
  pose proof (ok_pick_arr _ _ _ ps WF) as WF'.
  apply ok_pick_arr with (ps := ps) in WN; [|simpl; rewrite LN; auto].
  apply ok_pick_arr with (ps := ps) in WI; [|simpl; rewrite LI; auto].
  destruct (proj1 (conj (view_rows h s (SList (map Z.of_nat ps)) ps rs c W0 E) I)) as [V1 [V2 [V3 V4]]].
  { simpl. apply smapM_ok. clear - R. induction R as [|p ps L F IH]; simpl; constructor; auto.
    rewrite int_position_valid by lia. unfold resolve. destruct (Z.ltb_spec (Z.of_nat p) 0); [lia|]. rewrite Nat2Z.id. auto. }
  repeat split.
  - replace (values (copy_heap h s rs ps) (copy_of h s rs c ps)) with (values h (view_of s (SList (map Z.of_nat ps)) rs c ps)); auto.
    unfold values, row_list; simpl. rewrite read_concat. symmetry. apply fresh_rows.
    + apply read_rows; auto.
    + rewrite map_length; auto.
  - replace (fits (copy_heap h s rs ps) (copy_of h s rs c ps)) with (fits h (view_of s (SList (map Z.of_nat ps)) rs c ps)); auto.
    unfold fits; simpl. rewrite FL in WF'. specialize (WF' R). destruct WF' as [_ [F1 F2]].
    destruct (pick_arr (fa s) ps) as [l|fs k]; simpl in *.
    + rewrite buf_app_new. rewrite singles by auto.
      rewrite <- (read_length _ _ F1). symmetry. apply map_singletons.
    + rewrite read_concat. symmetry. apply fresh_rows.
      * apply read_rows; auto.
      * rewrite map_length; auto.
  - replace (evals (copy_heap h s rs ps) (copy_of h s rs c ps)) with (evals h (view_of s (SList (map Z.of_nat ps)) rs c ps)); auto.
    unfold evals, n_list; simpl. destruct WN as [_ [N1 _]]. simpl in N1. rewrite <- (read_length _ _ N1). symmetry. apply fresh_read.
  - replace (labels (copy_heap h s rs ps) (copy_of h s rs c ps)) with (labels h (view_of s (SList (map Z.of_nat ps)) rs c ps)); auto.
    unfold labels, i_list; simpl. rewrite !lbuf_snd, map_snd_app.
    destruct WI as [_ [N1 _]]. simpl in N1. rewrite <- (read_length _ _ N1).
    replace (List.length (hi h)) with (List.length (map snd (hi h))) by apply map_length.
    symmetry. apply fresh_read.
Qed.
