(** C52-C56, C87-C89: solution sets (solution.py).  Statements only; the proofs are in
    Proofs_Sol*.v, the vocabulary (rows, selections, slices) in Spec_Sol.v. *)
From Coq Require Import Bool Arith ZArith QArith String List Lia Sorted.
From Verif Require Import Lib_List Model_Var Model_Opt Model_Sol Spec_Sol Proofs_Ask Proofs_Var Proofs_Sol Proofs_SolOps Proofs_SolWrite
  Proofs_SolNew Proofs_SolDict.
Import ListNotations.
Open Scope nat_scope.
Open Scope string_scope.

(** A set of three rows with two columns, and a set with two objectives. *)
Definition empty_heap := mkHeap [] [] [] [].
Definition get_new (r : sres (sol * heap)) : sol * heap :=
  match r with SOk p => p | SErr _ => (mkSol 0 (A1 []) 0 (A1 []) 0 [] 0 [] [] [] 0, empty_heap) end.
Definition demo := get_new (new empty_heap (XRows [[VI 1; VS "a"]; [VI 2; VS "b"]; [VI 3; VS "c"]])
  (FSeq [FS (Some 1%Q); FS (Some 2%Q); FS (Some 3%Q)]) (NSeq [1; 2; 3]%Z) INone (Some ["k"; "l"]) None 1).
Definition demo2 := get_new (new empty_heap (XRows [[VI 1; VS "a"]; [VI 2; VS "b"]])
  (FSeq [FL [Some 1%Q; Some 2%Q]; FL [Some 3%Q; Some 4%Q]]) (NScalar 0) INone (Some ["k"; "l"]) None 2).

Ltac demo_wf := vm_compute; repeat match goal with
  | |- _ /\ _ => split | |- Forall _ _ => constructor | |- NoDup _ => constructor | |- _ <= _ => lia
  | |- ~ _ => let H := fresh in intro H; simpl in H; repeat (destruct H as [H|H]; [discriminate H|]); exact H
  | |- True => exact I | |- _ = _ => reflexivity end.
Example demo_wf : wf (snd demo) (fst demo).
Proof. demo_wf. Qed.
Example demo2_wf : wf (snd demo2) (fst demo2).
Proof. demo_wf. Qed.

(** ** C52 *)

(** A slice carries the values and attributes of exactly the rows Python's slicing selects. *)
Theorem C52_slice : forall h s a b c, wf h s -> is_2d s -> c <> Some 0%Z ->
  exists s' ps, getitem h s (Rows (SSlice a b c)) = SOk (Sub s', h) /\ slice_spec (sN s) a b c ps /\
    rows_of h s ps h s' /\ vn s' = vn s /\ is_2d s' /\ wf h s'.
Proof.
  intros h s a b c W D C. unfold is_2d in D. destruct (xa s) as [|rs k] eqn:E; [tauto|].
  assert (P : exists ps, sel_positions (List.length rs) (SSlice a b c) = SOk ps).
  { simpl. unfold slice_positions. destruct c as [z|]; [|simpl; eauto].
    destruct (Z.eqb_spec z 0); [congruence|]. destruct (0 <? z)%Z; eauto. }
  destruct P as [ps P]. exists (view_of s (SSlice a b c) rs k ps), ps.
  split; [apply getitem_view; simpl; auto|].
  split; [unfold sN; rewrite E; apply slice_positions_spec; exact P|].
  split; [apply view_rows; auto|]. split; [reflexivity|]. split; [exact I|].
  apply view_wf; auto.
Qed.
Print Assumptions C52_slice.

Example C52_slice_ex : slice_spec 3 (Some (-2)%Z) None None [1; 2] /\ slice_spec 3 None None (Some (-1)%Z) [2; 1; 0] /\
  slice_spec 5 (Some 1%Z) (Some 100%Z) (Some 2%Z) [1; 3] /\ slice_spec 5 (Some (-1)%Z) (Some 0%Z) (Some (-2)%Z) [4; 2].
Proof.
  split; [left; split; [lia|vm_compute; reflexivity]|]. split; [right; split; [lia|vm_compute; reflexivity]|].
  split; [left; split; [lia|vm_compute; reflexivity]|right; split; [lia|vm_compute; reflexivity]].
Qed.

(** Every valid row index except -1 selects that row with its attributes. *)
Theorem C52_row_partial : forall h s i, wf h s -> is_2d s ->
  (- Z.of_nat (sN s) <= i < Z.of_nat (sN s))%Z -> i <> (-1)%Z ->
  exists s', getitem h s (Rows (SInt i)) = SOk (Sub s', h) /\
    rows_of h s [Z.to_nat (if (i <? 0)%Z then (i + Z.of_nat (sN s))%Z else i)] h s' /\ vn s' = vn s /\
    ~ is_2d s' /\ wf h s'.
Proof.
  intros h s i W D V N. unfold is_2d in D. destruct (xa s) as [|rs k] eqn:E; [tauto|].
  unfold sN in *. rewrite E in *.
  assert (P : sel_positions (List.length rs) (SInt i) = SOk [Z.to_nat (resolve (Z.of_nat (List.length rs)) i)]).
  { simpl. rewrite int_position_valid; auto. }
  exists (view_of s (SInt i) rs k [Z.to_nat (resolve (Z.of_nat (List.length rs)) i)]).
  split; [apply getitem_view; simpl; auto|]. split; [apply view_rows; auto|]. split; [reflexivity|].
  split; [intros []|]. apply view_wf; auto.
Qed.
Print Assumptions C52_row_partial.

(** An index outside of -N..N-1 raises IndexError. *)
Theorem C52_out_of_range : forall h s i, is_2d s -> ~ (- Z.of_nat (sN s) <= i < Z.of_nat (sN s))%Z ->
  getitem h s (Rows (SInt i)) = SErr SIndex.
Proof.
  intros h s i D V. unfold is_2d, sN in *. destruct (xa s) as [|rs k] eqn:E; [tauto|].
  unfold getitem. rewrite E. simpl. rewrite int_position_invalid; auto.
Qed.
Print Assumptions C52_out_of_range.

(** Lists of valid indices (in any order, with repetitions) and boolean masks select a copy of
    the rows with their attributes. *)
Theorem C52_list : forall h s l ps, wf h s -> is_2d s ->
  Forall2 (fun i p => (- Z.of_nat (sN s) <= i < Z.of_nat (sN s))%Z /\
                      Z.of_nat p = (if (i <? 0)%Z then (i + Z.of_nat (sN s))%Z else i)) l ps ->
  exists s' h', getitem h s (Rows (SList l)) = SOk (Sub s', h') /\ rows_of h s ps h' s' /\ vn s' = vn s /\
    wf h' s' /\ apart s' s /\ same_rows h h' s.
Proof.
  intros h s l ps W D F. unfold is_2d in D. destruct (xa s) as [|rs k] eqn:E; [tauto|].
  unfold sN in *. rewrite E in *.
  assert (P : sel_positions (List.length rs) (SList l) = SOk ps).
  { simpl. apply smapM_ok. clear - F. induction F as [|i p l ps [V Q] F IH]; constructor; auto.
    rewrite int_position_valid by auto. unfold resolve. f_equal. lia. }
  exists (copy_of h s rs k ps), (copy_heap h s rs ps).
  split; [apply getitem_copy; auto|]. split; [eapply copy_rows; eauto|]. split; [reflexivity|].
  split; [eapply copy_wf; eauto|]. split.
  - apply fresh_apart with h; auto. repeat split.
  - apply same_rows_extends; auto. repeat split; eexists; reflexivity.
Qed.
Print Assumptions C52_list.

Theorem C52_mask : forall h s l, wf h s -> is_2d s -> List.length l = sN s ->
  exists s' h' ps, getitem h s (Rows (SMask l)) = SOk (Sub s', h') /\ rows_of h s ps h' s' /\ vn s' = vn s /\
    StronglySorted lt ps /\ (forall i, In i ps <-> nth_error l i = Some true).
Proof.
  intros h s l W D L. unfold is_2d in D. destruct (xa s) as [|rs k] eqn:E; [tauto|].
  unfold sN in L. rewrite E in L.
  assert (P : sel_positions (List.length rs) (SMask l) = SOk (mask_positions l)).
  { simpl. rewrite L, Nat.eqb_refl. auto. }
  exists (copy_of h s rs k (mask_positions l)), (copy_heap h s rs (mask_positions l)), (mask_positions l).
  split; [apply getitem_copy; auto|]. split; [eapply copy_rows; eauto|]. split; [reflexivity|].
  assert (M : mask_positions l = filter (fun i => nth i l false) (seq 0 (List.length l))).
  { unfold mask_positions. clear. change l with (@nil bool ++ l)%list at 3. 
    change 0 with (List.length (@nil bool)). generalize (@nil bool) as pre. induction l as [|b l IH]; intro pre; simpl; auto.
    rewrite app_nth2, Nat.sub_diag by lia. simpl.
    specialize (IH (pre ++ [b])%list). rewrite <- app_assoc in IH. simpl in IH.
    rewrite app_length in IH. simpl in IH. rewrite Nat.add_1_r in IH.
    destruct b; simpl; rewrite IH; reflexivity. }
  rewrite M. split; [apply filter_sorted, seq_sorted|]. intro i. rewrite filter_In, in_seq. split.
  - intros [I B]. rewrite <- B. apply nth_error_nth'. lia.
  - intro H. split. { split; [lia|]. simpl. apply nth_error_Some. congruence. } apply nth_error_nth. auto.
Qed.
Print Assumptions C52_mask.

(** s[-1] is a valid index but the result has no fitness, no n_eval and no label. *)
Theorem C52_row_refuted : exists h s s', wf h s /\ is_2d s /\ (- Z.of_nat (sN s) <= -1)%Z /\
  getitem h s (Rows (SInt (-1))) = SOk (Sub s', h) /\
  selects (values h s) [2] (values h s') /\ fits h s' = [[]] /\ evals h s' = [] /\ labels h s' = [] /\
  List.nth 2 (fits h s) [] = [Some 3%Q].
Proof.
  exists (snd demo), (fst demo). eexists. split; [exact demo_wf|]. split; [exact I|]. split; [vm_compute; discriminate|].
  split; [vm_compute; reflexivity|]. split; [vm_compute; repeat constructor|]. repeat split.
Qed.
Print Assumptions C52_row_refuted.

(** ** C54 *)

(** Let s' be a slice or a row (not -1) of s, covering the rows ps of s.  After any sequence of
    successful writes to s', row k of s' is still row ps[k] of s in every column, and the rows of
    s outside of ps are unchanged in every column. *)
Theorem C54_write_through_partial : forall h s r s' h1 ws h2, wf h s -> is_2d s -> is_fancy r = false -> not_last r ->
  getitem h s (Rows r) = SOk (Sub s', h1) -> do_writes h1 s' ws = SOk h2 ->
  exists ps, sel_positions (sN s) r = SOk ps /\ rows_of h s ps h s' /\ rows_of h2 s ps h2 s' /\
    (forall i, ~ In i ps ->
       nth_error (values h2 s) i = nth_error (values h s) i /\ nth_error (fits h2 s) i = nth_error (fits h s) i /\
       nth_error (evals h2 s) i = nth_error (evals h s) i /\ nth_error (labels h2 s) i = nth_error (labels h s) i) /\
    wf h2 s.
Proof.
  intros h s r s' h1 ws h2 W D NF NL G WS. unfold is_2d in D. destruct (xa s) as [|rs k] eqn:E; [tauto|].
  assert (P : exists ps, sel_positions (List.length rs) r = SOk ps).
  { unfold getitem in G. rewrite E, NF in G. cbn [andb] in G.
    destruct (sel_positions (List.length rs) r) as [ps|e]; [eauto|]. cbn [sbind] in G. discriminate. }
  destruct P as [ps P]. rewrite (getitem_view _ _ _ _ _ _ W E P NL NF) in G. injection G as <- <-.
  exists ps. unfold sN. rewrite E. split; auto.
  pose proof (view_wf _ _ _ _ _ _ W E P NF) as WV.
  pose proof (writes_written _ _ _ _ WV WS) as WR.
  pose proof (written_wf _ _ _ _ WR W) as W2.
  split; [apply view_rows; auto|]. split; [apply view_rows; auto|]. split; auto.
  intros i NI. eapply written_view_other; eauto.
Qed.
Print Assumptions C54_write_through_partial.

(** What is written: a number is assigned to every selected row, a list of as many numbers as
    selected rows row by row, and n_eval += z adds z to each. *)
Theorem C54_written_values : forall h s h2, wf h s ->
  (forall v, set_fitness h s (WScalar v) = SOk h2 -> fits h2 s = map (map (fun _ => v)) (fits h s)) /\
  (forall l, is_2d s -> nobj s = 1 -> List.length l = sN s -> set_fitness h s (WVec l) = SOk h2 ->
     fits h2 s = map (fun f => [f]) l) /\
  (forall l, is_2d s -> 1 < nobj s -> List.length l = sN s -> Forall (fun r => List.length r = nobj s) l ->
     set_fitness h s (WMat l) = SOk h2 -> fits h2 s = l) /\
  (forall l, ~ is_2d s -> List.length l = nobj s -> set_fitness h s (WVec l) = SOk h2 -> fits h2 s = [l]) /\
  (forall z, set_n_eval h s (WScalar z) = SOk h2 -> evals h2 s = map (fun _ => z) (evals h s)) /\
  (forall l, List.length l = sN s -> set_n_eval h s (WVec l) = SOk h2 -> evals h2 s = l) /\
  (forall z, add_n_eval h s z = SOk h2 -> evals h2 s = map (fun n => (n + z)%Z) (evals h s)).
Proof.
  intros h s h2 W.
  pose proof (fun w E => set_fitness_value h s w h2 W E) as SF.
  pose proof (fun w E => set_n_eval_value h s w h2 W E) as SN.
  assert (REP : forall A B (b : B) (l : list A), map (fun _ => b) l = repeat b (List.length l)).
  { induction l; simpl; f_equal; auto. }
  pose proof (evals_length _ _ W) as EL. pose proof W as W0.
  destruct W as [_ [[LF [RF [NF CF]]] [_ [_ [SH [NO [LN _]]]]]]]. unfold wf_fit in SH.
  repeat match goal with |- _ /\ _ => split end.
  - intros v E. specialize (SF _ E). unfold fits in *. destruct (fa s) as [ps|rs c], (xa s) as [qs|rs' c']; destruct SF as [l [B ->]].
    + simpl in *. injection B as <-. f_equal. rewrite REP, read_length; auto.
    + simpl in *. injection B as <-. rewrite map_map. simpl in RF. clear - RF.
      induction RF as [|p ps L R IH]; simpl; auto. f_equal; auto. apply lt_nth_error in L. destruct L as [x X].
      unfold read; simpl. rewrite X. reflexivity.
    + cbn [bcast2] in B. injection B as <-. rewrite map_map. simpl in RF. clear - CF RF REP.
      induction rs as [|x rs IH]; simpl; auto. inversion CF; subst. simpl in RF. apply Forall_app in RF. destruct RF.
      f_equal; auto. rewrite REP, read_length; auto.
    + cbn [bcast2] in B. injection B as <-. rewrite map_map. simpl in RF. clear - CF RF REP.
      induction rs as [|x rs IH]; simpl; auto. inversion CF; subst. simpl in RF. apply Forall_app in RF. destruct RF.
      f_equal; auto. rewrite REP, read_length; auto.
  - intros l D O L E. specialize (SF _ E). unfold is_2d, sN in *. destruct (xa s) as [qs|rs' c']; [tauto|].
    destruct (fa s) as [ps|rs c]; [|lia]. destruct SF as [l' [B ->]]. unfold bcast1, bvec in B.
    destruct SH as [_ SH]. rewrite SH, L, Nat.eqb_refl in B. injection B as <-. auto.
  - intros l D O L FL E. specialize (SF _ E). unfold is_2d, sN in *. destruct (xa s) as [qs|rs' c']; [tauto|].
    destruct (fa s) as [ps|rs c]; [lia|]. destruct SF as [l' [B ->]]. unfold bcast2 in B. unfold bvec at 1 in B.
    destruct SH as [_ [SH ->]]. rewrite SH, L, Nat.eqb_refl in B. cbn [sbind] in B. apply smapM_spec in B.
    clear - B FL. induction B as [|x y l l' Q B IH]; auto. inversion FL; subst. unfold bvec in Q. rewrite H1, Nat.eqb_refl in Q.
    injection Q as <-. f_equal. auto.
  - intros l D L E. specialize (SF _ E). unfold is_2d, sN in *. destruct (xa s) as [qs|rs' c']; [|tauto].
    destruct (fa s) as [ps|rs c].
    + destruct SF as [l' [B ->]]. unfold bcast1, bvec in B. rewrite SH, L, Nat.eqb_refl in B. injection B as <-. auto.
    + destruct SF as [l' [B ->]]. destruct SH as [_ [SH ->]]. unfold bcast2, bvec in B. rewrite L, Nat.eqb_refl, SH in B.
      cbn [sbind] in B. injection B as <-. auto.
  - intros z E. destruct (SN _ E) as [l [B ->]]. cbn [bcast1] in B. injection B as <-. rewrite REP, EL, LN. auto.
  - intros l L E. destruct (SN _ E) as [l' [B ->]]. unfold bcast1, bvec in B. rewrite LN, L, Nat.eqb_refl in B. injection B as <-. auto.
  - intros z E. unfold add_n_eval in E. destruct (SN _ E) as [l' [B ->]]. unfold bcast1, bvec in B.
    rewrite map_length in B. fold (n_list h s) in B. unfold evals in EL. rewrite EL, LN, Nat.eqb_refl in B. injection B as <-. auto.
Qed.
Print Assumptions C54_written_values.

(** tell (base.py:340-341) on the middle row of the example. *)
Example C54_ex : exists s' h1 h2, getitem (snd demo) (fst demo) (Rows (SInt 1)) = SOk (Sub s', h1) /\
  do_writes h1 s' [WFit (WScalar (Some 9%Q)); WAddEval 1] = SOk h2 /\
  fits h2 (fst demo) = [[Some 1%Q]; [Some 9%Q]; [Some 3%Q]] /\ evals h2 (fst demo) = [1; 3; 3]%Z.
Proof. do 3 eexists. split; [vm_compute; reflexivity|]. split; [vm_compute; reflexivity|]. split; reflexivity. Qed.

(** A write through s[-1] succeeds and is lost. *)
Theorem C54_write_through_refuted : exists h s s' h2, wf h s /\ is_2d s /\ 1 <= sN s /\
  getitem h s (Rows (SInt (-1))) = SOk (Sub s', h) /\
  set_fitness h s' (WScalar (Some 9%Q)) = SOk h2 /\ fits h2 s = fits h s /\
  List.nth 2 (fits h s) [] = [Some 3%Q].
Proof.
  exists (snd demo), (fst demo). do 2 eexists. split; [exact demo_wf|]. split; [exact I|]. split; [vm_compute; lia|].
  split; [vm_compute; reflexivity|]. split; [vm_compute; reflexivity|]. split; reflexivity.
Qed.
Print Assumptions C54_write_through_refuted.

(** ** C53 *)

(** a + b is the rows of a then those of b in every column, it shares no memory with a and b, so
    no sequence of writes to it changes them; [flattened] is a single row taken from a set with
    several objectives. *)
Theorem C53_concatenation_partial : forall h a b, wf h a -> wf h b -> ~ flattened a -> ~ flattened b ->
  sdim a = sdim b -> nobj a = nobj b -> (forall x, In x (fnm a) <-> In x (fnm b)) ->
  (forall x, In x (vn a) <-> In x (vn b)) -> 1 <= sdim a -> 1 <= sN a + sN b ->
  exists s h', sadd h a b = SOk (s, h') /\ wf h' s /\ is_2d s /\
    values h' s = (values h a ++ values h b)%list /\ fits h' s = (fits h a ++ fits h b)%list /\
    evals h' s = (evals h a ++ evals h b)%list /\ labels h' s = (labels h a ++ labels h b)%list /\ vn s = vn a /\
    forall ws h2, do_writes h' s ws = SOk h2 -> same_rows h h2 a /\ same_rows h h2 b.
Proof.
  intros h a b WA WB FA FB D O SF SV D1 N1. apply same_set_spec in SF, SV.
  destruct (sadd_ok h a b) as [s [h' E]]; auto. exists s, h'. split; auto.
  destruct (fit_list_good _ _ WA FA) as [GA [LA FA']]. destruct (fit_list_good _ _ WB FB) as [GB [LB FB']].
  unfold sadd in E. rewrite D, Nat.eqb_refl, O, Nat.eqb_refl, SF, SV in E. cbn [sassert sbind] in E.
  pose proof (new_spec _ _ _ _ _ _ _ _ _ _ E) as [f' [CF [V [F [EV [LB' [FR [EX [_ [_ [VN [_ [D2 WF]]]]]]]]]]]]].
  cbn [xrows nlist ilist] in *.
  destruct (values_shape _ _ WA) as [VA CA]. destruct (values_shape _ _ WB) as [VB CB].
  assert (G : good_items (nobj b) (fit_list h a ++ fit_list h b)) by (apply good_app; auto; rewrite <- O; auto).
  assert (LL : List.length (fit_list h a ++ fit_list h b) = List.length (row_list h a ++ row_list h b)).
  { rewrite !app_length. unfold values in *. lia. }
  rewrite <- LL in CF. rewrite check_fitness_good in CF; auto.
  2:{ intro Q. rewrite Q in LL. simpl in LL. rewrite app_length in LL. unfold values in *. lia. }
  injection CF as <-.
  assert (W : wf h' s).
  { apply WF; auto.
    - apply WB.
    - intro Q. destruct G as [[_ G]|[G _]]; [exact G|lia].
    - pose proof (evals_length _ _ WA). pose proof (evals_length _ _ WB). unfold evals, values in *. rewrite !app_length. lia. }
  split; auto. split; [apply D2; eauto|]. split; auto. split.
  { rewrite F, map_app, FA', FB'. auto. }
  split; auto. split; auto. split; [apply VN; auto|].
  intros ws h2 WS. pose proof (writes_written _ _ _ _ W WS) as WR.
  assert (T : forall t, wf h t -> same_rows h h2 t).
  { intros t WT. destruct (written_apart _ _ _ t WR (fresh_apart _ _ _ FR WT)) as [T1 [T2 [T3 T4]]].
    destruct (same_rows_extends _ _ _ EX WT) as [U1 [U2 [U3 U4]]].
    unfold same_rows. rewrite T1, T2, T3, T4. auto. }
  split; apply T; auto.
Qed.
Print Assumptions C53_concatenation_partial.

Example C53_ex : exists s h', sadd (snd demo) (fst demo) (fst demo) = SOk (s, h') /\
  evals h' s = [1; 2; 3; 1; 2; 3]%Z /\ ~ flattened (fst demo) /\ 1 <= sdim (fst demo).
Proof. do 2 eexists. split; [vm_compute; reflexivity|]. split; [reflexivity|]. vm_compute. split; [tauto|lia]. Qed.

(** Different numbers of columns or objectives, or different sets of names: AssertionError. *)
Theorem C53_incompatible_raises : forall h a b,
  sdim a <> sdim b \/ nobj a <> nobj b \/ ~ (forall x, In x (vn a) <-> In x (vn b)) \/
  ~ (forall x, In x (fnm a) <-> In x (fnm b)) -> sadd h a b = SErr SAssert.
Proof.
  intros h a b H. unfold sadd. destruct (Nat.eqb_spec (sdim a) (sdim b)); [|reflexivity].
  destruct (Nat.eqb_spec (nobj a) (nobj b)); [|reflexivity].
  destruct (same_set (fnm a) (fnm b)) eqn:F; [|reflexivity]. destruct (same_set (vn a) (vn b)) eqn:V; [|reflexivity].
  pose proof (proj1 (same_set_spec _ _) F). pose proof (proj1 (same_set_spec _ _) V). tauto.
Qed.
Print Assumptions C53_incompatible_raises.

(** Two rows of the same two-objective set cannot be concatenated: their fitness is flat. *)
Theorem C53_objectives_refuted : exists h s a b, wf h s /\
  getitem h s (Rows (SInt 0)) = SOk (Sub a, h) /\ getitem h s (Rows (SInt 1)) = SOk (Sub b, h) /\
  wf h a /\ wf h b /\ sdim a = sdim b /\ nobj a = nobj b /\ vn a = vn b /\ fnm a = fnm b /\
  sadd h a b = SErr SAssert.
Proof.
  exists (snd demo2), (fst demo2). do 2 eexists. split; [exact demo2_wf|].
  split; [vm_compute; reflexivity|]. split; [vm_compute; reflexivity|]. split; [demo_wf|]. split; [demo_wf|].
  repeat split.
Qed.
Print Assumptions C53_objectives_refuted.

(** The same names in another order are accepted and the values of b land under the wrong names. *)
Theorem C53_names_refuted : exists h a b s h', wf h a /\ wf h b /\
  sadd h a b = SOk (s, h') /\ vn a = ["k"; "l"] /\ vn b = ["l"; "k"] /\
  values h b = [[VI 7; VI 8]] /\ vn s = ["k"; "l"] /\ List.nth 1 (values h' s) [] = [VI 7; VI 8].
Proof.
  pose (p1 := get_new (new empty_heap (XRows [[VI 1; VI 2]]) (FScalar None) (NScalar 0) INone (Some ["k"; "l"]) None 1)).
  pose (p2 := get_new (new (snd p1) (XRows [[VI 7; VI 8]]) (FScalar None) (NScalar 0) INone (Some ["l"; "k"]) None 1)).
  exists (snd p2), (fst p1), (fst p2). do 2 eexists. split; [demo_wf|]. split; [demo_wf|].
  split; [vm_compute; reflexivity|]. repeat split.
Qed.
Print Assumptions C53_names_refuted.

(** ** C55 *)

(** Converting to dictionaries and back gives the same rows and names; a set needs a row, and the
    first component of a single solution must not be a tuple. *)
Theorem C55_round_trip_partial : forall h s, wf h s -> NoDup (vn s) -> 1 <= sdim s -> 1 <= sN s ->
  (is_2d s \/ exists v t, values h s = [v :: t] /\ is_tuple v = false) ->
  exists d s' h', to_dict h s = SOk d /\ from_dict h d = SOk (s', h') /\
    values h' s' = values h s /\ vn s' = vn s.
Proof.
  intros h s W ND D1 N1 OK. destruct (values_shape _ _ W) as [VL VC].
  pose proof W as [_ [_ [_ [_ [_ [_ [_ [LI [LV _]]]]]]]]].
  assert (RD : forall r, In r (values h s) -> row_dict s r = combine (vn s) r /\ List.length (vn s) = List.length r).
  { intros r I. rewrite Forall_forall in VC. split; [apply row_dict_plain; auto|]; rewrite (VC r I); auto. }
  assert (TD : to_dict h s = match xa s with
     | A1 _ => match map (row_dict s) (values h s) with d :: _ => SOk (DOne d) | [] => SErr SIndex end
     | A2 _ _ => SOk (DMany (map (row_dict s) (values h s))) end).
  { unfold to_dict. fold (values h s). rewrite LI, VL. rewrite Nat.ltb_irrefl, firstn_all2 by (rewrite VL; lia). reflexivity. }
  assert (MS : map (map snd) (map (row_dict s) (values h s)) = values h s).
  { rewrite map_map. rewrite <- (map_id (values h s)) at 2. apply map_ext_in. intros r I. destruct (RD r I) as [-> L]. apply map_snd_combine; auto. }
  destruct (values h s) as [|r0 rest] eqn:VS; [simpl in VL; lia|].
  destruct (RD r0 (or_introl eq_refl)) as [R0 L0].
  destruct (xa s) as [ps|rs c] eqn:EX.
  - destruct OK as [OK|[v [t [OK TT]]]]; [unfold is_2d in OK; rewrite EX in OK; tauto|].
    injection OK as -> ->. simpl in TD.
    exists (DOne (row_dict s (v :: t))). rewrite TD.
    assert (E : exists s' h', from_dict h (DOne (row_dict s (v :: t))) = SOk (s', h')).
    { unfold from_dict. rewrite R0, map_snd_combine, map_fst_combine by auto.
      unfold new. cbn [x_array]. rewrite TT. cbn [sbind]. cbv zeta. rewrite seq_length.
      change (check_fitness 1 1 (FScalar None)) with (SOk [FS None]). cbn [sbind].
      rewrite L0, Nat.eqb_refl. simpl. rewrite Nat.eqb_refl. simpl. eauto. }
    destruct E as [s' [h' E]]. exists s', h'. split; auto. split; auto.
    unfold from_dict in E. apply new_spec in E. destruct E as [f' [_ [V [_ [_ [_ [_ [_ [_ [_ [VN _]]]]]]]]]]].
    rewrite V. cbn [xrows]. rewrite (VN _ eq_refl), R0, map_snd_combine, map_fst_combine by auto. auto.
  - exists (DMany (map (row_dict s) (r0 :: rest))). rewrite TD.
    assert (E : exists s' h', from_dict h (DMany (map (row_dict s) (r0 :: rest))) = SOk (s', h')).
    { unfold from_dict. cbn [map]. change (map snd (row_dict s r0) :: map (map snd) (map (row_dict s) rest)) with (map (map snd) (map (row_dict s) (r0 :: rest))).
      rewrite MS. rewrite R0, map_fst_combine by auto.
      unfold new.
      assert (X : x_array (XRows (r0 :: rest)) = SOk (A2 (grid (List.length (r0 :: rest)) (sdim s)) (sdim s), List.concat (r0 :: rest))).
      { destruct r0 as [|a r]. { pose proof (Forall_inv VC) as Q. simpl in Q. lia. }
        simpl. pose proof (Forall_inv VC) as Q. simpl in Q. rewrite (proj2 (forallb_forall _ rest)).
        - rewrite Q. reflexivity.
        - intros x I. apply Forall_inv_tail in VC. rewrite Forall_forall in VC. apply Nat.eqb_eq. rewrite (VC x I). auto. }
      rewrite X. cbn [sbind]. cbv zeta. rewrite grid_length. unfold check_fitness. cbn [Nat.ltb Nat.leb Nat.eqb sbind].
      rewrite repeat_length, Nat.eqb_refl. cbn [sassert sbind]. rewrite map_length, seq_length, Nat.eqb_refl. cbn [sassert sbind].
      rewrite LV, Nat.eqb_refl. cbn [sassert sbind List.length Nat.eqb].
      destruct (fl_array_good 1 (repeat (FS None) (List.length (r0 :: rest)))) as [a [b Q]].
      - left. split; auto. apply Forall_forall. intros x I. apply repeat_spec in I. subst. reflexivity.
      - discriminate.
      - cbn [List.length] in Q. rewrite Q. cbn [sbind]. eauto. }
    destruct E as [s' [h' E]]. exists s', h'. split; auto. split; auto.
    unfold from_dict in E. cbn [map] in E. apply new_spec in E. destruct E as [f' [_ [V [_ [_ [_ [_ [_ [_ [_ [VN _]]]]]]]]]]].
    rewrite V. cbn [xrows]. split; [exact MS|]. rewrite (VN _ eq_refl), R0, map_fst_combine by auto. auto.
Qed.
Print Assumptions C55_round_trip_partial.

Example C55_ex : exists d s' h', to_dict (snd demo) (fst demo) = SOk (DMany d) /\ from_dict (snd demo) (DMany d) = SOk (s', h') /\
  values h' s' = [[VI 1; VS "a"]; [VI 2; VS "b"]; [VI 3; VS "c"]] /\ NoDup (vn (fst demo)).
Proof.
  do 3 eexists. split; [vm_compute; reflexivity|]. split; [vm_compute; reflexivity|]. split; [reflexivity|].
  vm_compute. repeat constructor; simpl; intuition discriminate.
Qed.

(** Dictionaries with the same keys in the same order: each value lands under its name. *)
Definition lookup {A} (d : list (string * A)) (k : string) : option A :=
  option_map snd (find (fun p => String.eqb (fst p) k) d).

Theorem C55_key_order_partial : forall h ds ks s h', ds <> [] -> NoDup ks -> Forall (fun d => map fst d = ks) ds ->
  from_dict h (DMany ds) = SOk (s, h') ->
  vn s = ks /\ forall i d j k, nth_error ds i = Some d -> nth_error (vn s) j = Some k ->
    exists row, nth_error (values h' s) i = Some row /\ nth_error row j = lookup d k.
Proof.
  intros h ds ks s h' NE ND F E. destruct ds as [|d0 ds]; [congruence|]. unfold from_dict in E.
  pose proof (Forall_inv F) as K0. rewrite K0 in E. apply new_spec in E.
  destruct E as [f' [_ [V [_ [_ [_ [_ [_ [_ [_ [VN _]]]]]]]]]]]. specialize (VN _ eq_refl).
  split; auto. intros i d j k I J. rewrite V. cbn [xrows].
  exists (map snd d). split. { rewrite nth_error_map, I. reflexivity. }
  assert (KD : map fst d = ks). { rewrite Forall_forall in F. apply F. eapply nth_error_In; eauto. }
  rewrite VN in J. rewrite nth_error_map. unfold lookup.
  rewrite <- KD in J, ND. clear - J ND. revert j J. induction d as [|[k' v'] d IH]; intros [|j] J; simpl in *; try discriminate.
  - injection J as <-. rewrite String.eqb_refl. reflexivity.
  - inversion ND; subst. destruct (String.eqb_spec k' k) as [->|].
    + exfalso. apply H1. eapply nth_error_In; eauto.
    + apply IH; auto.
Qed.
Print Assumptions C55_key_order_partial.

(** The second dictionary lists its keys in another order: values land under the wrong names. *)
Theorem C55_key_order_refuted : exists h ds s h' i d row, from_dict h (DMany ds) = SOk (s, h') /\
  Forall (fun d => forall k, In k (map fst d) <-> k = "k" \/ k = "l") ds /\
  nth_error ds i = Some d /\ nth_error (values h' s) i = Some row /\ vn s = ["k"; "l"] /\
  lookup d "k" = Some (VI 3) /\ nth_error row 0 = Some (VI 4).
Proof.
  exists empty_heap, [[("k", VI 1); ("l", VI 2)]; [("l", VI 4); ("k", VI 3)]]. do 2 eexists.
  exists 1. do 2 eexists. split; [vm_compute; reflexivity|]. split.
  { constructor; [intro k; simpl; intuition congruence|]. constructor; [intro k; simpl; intuition congruence|constructor]. }
  repeat split.
Qed.
Print Assumptions C55_key_order_refuted.

(** A single solution whose first component is a tuple cannot be rebuilt from its dictionary. *)
Theorem C55_round_trip_refuted : exists h s s1 d, wf h s /\ getitem h s (Rows (SInt 0)) = SOk (Sub s1, h) /\ wf h s1 /\
  to_dict h s1 = SOk d /\ from_dict h d = SErr SIndex.
Proof.
  pose (p := get_new (new empty_heap (XRows [[VT [VS "a"; VS "b"]; VI 2]]) (FScalar None) (NScalar 0) INone (Some ["k"; "l"]) None 1)).
  exists (snd p), (fst p). do 2 eexists. split; [demo_wf|]. split; [vm_compute; reflexivity|]. split; [demo_wf|].
  split; [vm_compute; reflexivity|]. vm_compute. reflexivity.
Qed.
Print Assumptions C55_round_trip_refuted.

(** ** C56 *)

(** Python's equality of rows. *)
Definition same_row (a b : list val) : Prop := Forall2 (fun x y => val_eqb x y = true) a b.

(** When numpy's comparison agrees with Python's (no strings, or str() separates the components
    that occur), unique returns the rows that differ from all earlier ones, in order, with their
    attributes, as a copy. *)
Theorem C56_unique_partial : forall str_of h s, wf h s -> is_2d s ->
  Forall (Forall (fun v => is_tuple v = false)) (values h s) ->
  ((forall r v t, In r (values h s) -> In v r -> v <> VS t) \/
   forall r r' v v', In r (values h s) -> In r' (values h s) -> In v r -> In v' r' ->
     String.eqb (str_of v) (str_of v') = val_eqb v v') ->
  exists s' h' ps, unique str_of h s = SOk (Sub s', h') /\ rows_of h s ps h' s' /\ vn s' = vn s /\ wf h' s' /\
    StronglySorted lt ps /\
    (forall i r, nth_error (values h s) i = Some r ->
       (In i ps <-> forall j t, j < i -> nth_error (values h s) j = Some t -> ~ same_row r t)).
Proof.
  intros str_of h s W D NT AG. unfold unique. pose proof D as D'. unfold is_2d in D.
  destruct (xa s) as [|rs k] eqn:E; [tauto|]. fold (values h s).
  set (rows := values h s) in *.
  destruct (existsb (existsb is_tuple) rows) eqn:T.
  { exfalso. apply existsb_exists in T. destruct T as [r [R T]]. apply existsb_exists in T. destruct T as [v [V T]].
    rewrite Forall_forall in NT. specialize (NT r R). rewrite Forall_forall in NT. rewrite (NT v V) in T. discriminate. }
  (* the comparison used on the rows that occur *)
  assert (EQ : forall r t, In r rows -> In t rows -> (row_eqb (np_eqb str_of rows) r t = row_eqb val_eqb r t)).
  { intros r t R T'. assert (G : forall a b, incl a r -> incl b t -> row_eqb (np_eqb str_of rows) a b = row_eqb val_eqb a b).
    { induction a as [|x a IH]; intros [|y b] Ia Ib; simpl; auto. f_equal.
      - unfold np_eqb. destruct (has_str rows) eqn:HS; auto. destruct AG as [AG|AG].
        { exfalso. unfold has_str in HS. apply existsb_exists in HS as (r0 & R0 & HS). apply existsb_exists in HS as (v0 & V0 & HS). destruct v0; try discriminate. now apply (AG r0 _ _ R0 V0 eq_refl). }
        apply (AG r t); auto. apply Ia; left; auto. apply Ib; left; auto.
      - apply IH; intros z Z; [apply Ia|apply Ib]; right; auto. }
    apply G; apply incl_refl. }
  assert (FR : forall eqb1 eqb2 : list val -> list val -> bool, (forall r t, In r rows -> In t rows -> eqb1 r t = eqb2 r t) ->
     forall l seen n, incl l rows -> incl seen rows -> first_rows eqb1 seen l n = first_rows eqb2 seen l n).
  { intros e1 e2 H. induction l as [|r l IH]; intros seen n IL IS; simpl; auto.
    assert (X : existsb (e1 r) seen = existsb (e2 r) seen).
    { assert (R : In r rows) by (apply IL; left; auto). clear - H IS R. induction seen as [|x seen IH]; simpl; auto.
      rewrite H; auto. f_equal. apply IH. intros z Z. apply IS; right; auto. apply IS; left; auto. }
    rewrite X. destruct (existsb (e2 r) seen).
    - apply IH; auto. intros z Z; apply IL; right; auto.
    - f_equal. apply IH. intros z Z; apply IL; right; auto. intros z [<-|Z]; [apply IL; left|apply IS]; auto. }
  rewrite (FR _ (row_eqb val_eqb) EQ) by (try apply incl_refl; intros z []).
  pose proof (first_rows_spec (row_eqb val_eqb) rows [] 0) as SP.
  assert (SY : forall x y, row_eqb val_eqb x y = true -> row_eqb val_eqb y x = true).
  { intros x y H. apply row_eqb_Forall2 in H. apply row_eqb_Forall2.
    induction H as [|a b x y AB H IH]; constructor; auto. rewrite val_eqb_sym. auto. }
  assert (TR : forall x y z, row_eqb val_eqb x y = true -> row_eqb val_eqb y z = true -> row_eqb val_eqb x z = true).
  { intros x y z H1 H2. apply row_eqb_Forall2 in H1, H2. apply row_eqb_Forall2. clear - H1 H2. revert z H2.
    induction H1 as [|a b x y AB H1 IH]; intros z H2; inversion H2; subst; constructor; auto. eapply val_eqb_trans; eauto. }
  assert (RF : forall x, In x rows -> row_eqb val_eqb x x = true).
  { intros x _. apply row_eqb_Forall2. induction x; constructor; auto. apply val_eqb_refl. }
  specialize (SP SY TR RF). cbv zeta in SP. set (ps := first_rows (row_eqb val_eqb) [] rows 0) in *.
  destruct SP as [S1 [S2 S3]].
  assert (LR : List.length rows = List.length rs).
  { pose proof (values_shape _ _ W) as [V _]. unfold sN in V. rewrite E in V. exact V. }
  assert (P : sel_positions (List.length rs) (SList (map Z.of_nat ps)) = SOk ps).
  { apply of_nat_positions. eapply Forall_impl; [|exact S2]. simpl. rewrite LR. lia. }
  exists (copy_of h s rs k ps), (copy_heap h s rs ps), ps.
  split; [apply getitem_copy; auto|]. split; [eapply copy_rows; eauto|]. split; [reflexivity|].
  split; [eapply copy_wf; eauto|]. split; auto.
  intros i r I. specialize (S3 i r I). rewrite Nat.add_0_l in S3. rewrite S3. split.
  - intros [_ H] j t L J SR. apply row_eqb_Forall2 in SR. rewrite (H j t L J) in SR. discriminate.
  - intro H. split. { intros z []. } intros j t L J. destruct (row_eqb val_eqb r t) eqn:Q; auto. exfalso.
    apply (H j t L J). apply row_eqb_Forall2. auto.
Qed.
Print Assumptions C56_unique_partial.

(** A number and its string form in the same column are merged as soon as the set holds a string. *)
Theorem C56_unique_refuted : forall str_of, (forall t, str_of (VS t) = t) -> str_of (VI 1) = "1" ->
  exists h s s' h', wf h s /\ unique str_of h s = SOk (Sub s', h') /\
    values h s = [[VI 1]; [VS "1"]] /\ values h' s' = [[VI 1]] /\ ~ same_row [VI 1] [VS "1"].
Proof.
  intros str_of S1 S2.
  pose (p := get_new (new empty_heap (XRows [[VI 1]; [VS "1"]]) (FScalar None) (NScalar 0) INone None None 1)).
  exists (snd p), (fst p). unfold unique. replace (xa (fst p)) with (A2 [[0]; [1]] 1) by reflexivity.
  replace (row_list (snd p) (fst p)) with [[VI 1]; [VS "1"]] by reflexivity.
  replace (first_rows (row_eqb (np_eqb str_of [[VI 1]; [VS "1"]])) [] [[VI 1]; [VS "1"]] 0) with [0].
  2:{ simpl. unfold np_eqb. simpl. rewrite S1, S2. reflexivity. }
  do 2 eexists. split; [demo_wf|]. split; [vm_compute; reflexivity|]. split; [reflexivity|]. split; [reflexivity|].
  intro H. inversion H; subst. discriminate.
Qed.
Print Assumptions C56_unique_refuted.

Example C56_ex : exists s' h',
  let p := get_new (new empty_heap (XRows [[VI 1; VI 2]; [VI 3; VI 4]; [VI 1; VI 2]]) (FScalar None) (NScalar 0) INone None None 1) in
  unique (fun _ => "") (snd p) (fst p) = SOk (Sub s', h') /\ values h' s' = [[VI 1; VI 2]; [VI 3; VI 4]] /\ labels h' s' = ["0"; "1"].
Proof. do 2 eexists. cbv zeta. split; [vm_compute; reflexivity|]. split; reflexivity. Qed.

(** ** C87: assigned labels *)

(** Labels no longer than the longest label the set was created with are stored in full. *)
Theorem C87_labels_partial : forall h s l h2, wf h s -> List.length l = sN s ->
  Forall (fun x => String.length x <= fst (lbuf (hi h) (ir s))) l ->
  set_index h s (WVec l) = SOk h2 -> labels h2 s = l.
Proof.
  intros h s l h2 W L F E. unfold set_index, bcast1, bvec in E.
  pose proof W as [_ [_ [_ [[LI [RI [NI _]]] [_ [_ [_ [LL _]]]]]]]]. rewrite LL, L, Nat.eqb_refl in E. cbn [sbind] in E.
  destruct (lbuf (hi h) (ir s)) as [k b] eqn:LB. injection E as <-.
  assert (TR : forall x n, String.length x <= n -> truncate n x = x).
  { induction x as [|c x IH]; intros [|n] Q; simpl in *; auto; try lia. f_equal. apply IH. lia. }
  assert (M : map (truncate k) l = l).
  { rewrite <- (map_id l) at 2. apply map_ext_in. intros x I. apply TR. rewrite Forall_forall in F. apply F; auto. }
  rewrite M. unfold labels, i_list. simpl. rewrite lbuf_snd, map_snd_put.
  assert (B : b = buf (map snd (hi h)) (ir s)) by (rewrite <- lbuf_snd, LB; reflexivity).
  change (read (buf (set_buf (map snd (hi h)) (ir s) (puts b (ia s) l)) (ir s)) (ia s) = l).
  rewrite buf_set_same by auto. rewrite B. apply read_puts_same; auto. rewrite LL; auto.
Qed.
Print Assumptions C87_labels_partial.

(** Longer ones are silently cut, so distinct labels can become equal. *)
Theorem C87_labels_refuted : exists h s h2, wf h s /\ set_index h s (WVec ["10"; "11"; "12"]) = SOk h2 /\
  labels h2 s = ["1"; "1"; "1"].
Proof.
  exists (snd demo), (fst demo). eexists. split; [exact demo_wf|]. split; [vm_compute; reflexivity|]. reflexivity.
Qed.
Print Assumptions C87_labels_refuted.

(** ** C88: to_dict with labels *)

(** With distinct labels and names every row appears under its label. *)
Theorem C88_labelled_dict_partial : forall h s, wf h s -> NoDup (labels h s) -> NoDup (vn s) ->
  to_dict_labelled h s = combine (labels h s) (map (combine (vn s)) (values h s)).
Proof.
  intros h s W NL NV. unfold to_dict_labelled. fold (labels h s). fold (values h s).
  destruct (values_shape _ _ W) as [VL VC]. pose proof (labels_length _ _ W) as LL.
  pose proof W as [_ [_ [_ [_ [_ [_ [_ [_ [LV _]]]]]]]]].
  replace (map (row_dict s) (values h s)) with (map (combine (vn s)) (values h s)).
  - apply mk_dict_nodup. rewrite map_fst_combine; auto. rewrite map_length. congruence.
  - apply map_ext_in. intros r I. symmetry. apply row_dict_plain; auto. rewrite Forall_forall in VC. rewrite (VC r I). auto.
Qed.
Print Assumptions C88_labelled_dict_partial.

(** Labels repeat in the data of a run (C09): concatenating two batches and converting loses rows. *)
Theorem C88_labelled_dict_refuted : exists h a s h', wf h a /\ sadd h a a = SOk (s, h') /\ wf h' s /\
  sN s = 6 /\ List.length (to_dict_labelled h' s) = 3.
Proof.
  exists (snd demo), (fst demo). do 2 eexists. split; [exact demo_wf|]. split; [vm_compute; reflexivity|].
  split; [demo_wf|]. split; reflexivity.
Qed.
Print Assumptions C88_labelled_dict_refuted.

(** ** C89: construction *)

(** A successful construction yields one entry of each attribute per row, provided n_eval is a
    number or has one entry per row and (single objective) fitness is a number or a flat list. *)
Theorem C89_constructor_partial : forall h x f n i v g m s h', new h x f n i v g m = SOk (s, h') -> 1 <= m ->
  (m = 1 -> forall l, f = FSeq l -> Forall (fun it => exists q, it = FS q) l) ->
  (forall l, n = NSeq l -> List.length l = List.length (xrows x)) ->
  wf h' s /\ values h' s = xrows x.
Proof.
  intros h x f n i v g m s h' E M F N. apply new_spec in E.
  destruct E as [f' [CF [V [_ [_ [_ [_ [_ [_ [_ [_ [_ [_ WF]]]]]]]]]]]]]. split; auto. apply WF; auto.
  - intros ->. unfold check_fitness in CF. simpl in CF. destruct f as [q|l].
    + destruct (sassert _) in CF; simpl in CF; try discriminate. injection CF as <-. apply Forall_forall. intros y I.
      apply repeat_spec in I. subst. reflexivity.
    + destruct (sassert _) in CF; simpl in CF; try discriminate. injection CF as <-. specialize (F eq_refl l eq_refl).
      eapply Forall_impl; [|exact F]. intros y [q ->]. reflexivity.
  - destruct n; simpl. apply repeat_length. auto.
Qed.
Print Assumptions C89_constructor_partial.

Example C89_ex : exists s h', new empty_heap (XRows [[VI 1]; [VI 2]]) (FScalar None) (NScalar 0) INone None None 2 = SOk (s, h') /\
  fits h' s = [[None; None]; [None; None]].
Proof. do 2 eexists. split; [vm_compute; reflexivity|reflexivity]. Qed.

(** n_eval lists of any length are accepted; the third row of this set has no n_eval. *)
Theorem C89_constructor_refuted : exists s h', new empty_heap (XRows [[VI 1]; [VI 2]; [VI 3]]) (FScalar None) (NSeq [1; 1]%Z)
  INone None None 1 = SOk (s, h') /\ sN s = 3 /\ evals h' s = [1; 1]%Z.
Proof. do 2 eexists. split; [vm_compute; reflexivity|]. split; reflexivity. Qed.
Print Assumptions C89_constructor_refuted.
