(** C147, C148, C252 and more on C55: replicating a solution, reading single elements and columns of a
    set of solutions, attributes of solutions read from dictionaries (solution.py). *)
From Coq Require Import Bool Arith ZArith QArith String List Lia Sorted.
From Verif Require Import Lib_List Model_Var Model_Opt Model_Sol Spec_Sol Proofs_Ask Proofs_Var Proofs_Sol Proofs_SolOps Proofs_SolWrite
  Proofs_SolNew Proofs_SolDict Properties_Sol.
Import ListNotations.
Open Scope nat_scope.
Open Scope string_scope.

(** ** C147 *)
Lemma good_repeat m f N : good_items m f -> good_items m (List.concat (repeat f N)).
Proof.
  intro G. assert (F : forall P, Forall P f -> Forall P (List.concat (repeat f N))).
  { intros P F. apply Forall_concat, Forall_forall. intros x I. apply repeat_spec in I. subst. auto. }
  destruct G as [[M G]|[M G]]; [left|right]; split; auto.
Qed.
Lemma concat_repeat_length {A} (l : list A) N : List.length (List.concat (repeat l N)) = N * List.length l.
Proof. induction N as [|N IH]; simpl; auto. rewrite app_length, IH. lia. Qed.
Lemma concat_repeat_map {A B} (f : A -> B) (l : list A) N : map f (List.concat (repeat l N)) = List.concat (repeat (map f l) N).
Proof. induction N as [|N IH]; simpl; auto. rewrite map_app, IH. auto. Qed.
Lemma concat_repeat_one {A} (a : A) N : List.concat (repeat [a] N) = repeat a N.
Proof. induction N as [|N IH]; simpl; auto. rewrite IH. auto. Qed.

Lemma new_default_labels h rows f n v g m :
  new h (XRows rows) f n INone v g m = new h (XRows rows) f n (ISeq (map str_nat (seq 0 (List.length rows)))) v g m.
Proof.
  unfold new. destruct (x_array (XRows rows)) as [[ax bx]|] eqn:X; [|reflexivity]. cbn [sbind]. cbv zeta.
  apply x_array_spec in X. destruct X as [[l [H _]]|[rows' [c [H [-> _]]]]]; [discriminate|].
  injection H as <-. rewrite grid_length. reflexivity.
Qed.

(** s * N of a single solution, N >= 1: N rows with the components, the objective values and the
    evaluation count of s, labelled 0 .. N-1, and independent of s.  [flattened]: a single row
    taken out of a set with several objectives. *)
Theorem C147_replication_partial : forall h a N, wf h a -> ~ is_2d a -> ~ flattened a -> 1 <= sdim a -> 1 <= N ->
  exists s h', smul h a N = SOk (s, h') /\ wf h' s /\ is_2d s /\ sN s = N /\
    (forall r, In r (values h' s) -> values h a = [r]) /\ (forall f, In f (fits h' s) -> fits h a = [f]) /\
    (forall n, In n (evals h' s) -> evals h a = [n]) /\ labels h' s = map str_nat (seq 0 N) /\ vn s = vn a /\
    forall ws h2, do_writes h' s ws = SOk h2 -> same_rows h h2 a.
Proof.
  intros h a N W D2 FL D1 N1. destruct (values_shape _ _ W) as [VL VC]. pose proof (evals_length _ _ W) as EL.
  destruct (fit_list_good _ _ W FL) as [G [LF FF]].
  assert (X : exists ps, xa a = A1 ps) by (unfold is_2d in D2; destruct (xa a); [eauto|tauto]). destruct X as [ps X].
  assert (S1 : sN a = 1) by (unfold sN; rewrite X; auto).
  set (r := read (buf (hx h) (xr a)) ps).
  assert (V : values h a = [r]) by (unfold values, row_list; rewrite X; auto).
  assert (GN : good_items (nobj a) (List.concat (repeat (fit_list h a) N))) by (apply good_repeat; auto).
  assert (LN : List.length (List.concat (repeat (fit_list h a) N)) = N) by (rewrite concat_repeat_length, LF, S1; lia).
  assert (E : exists s h', smul h a N = SOk (s, h')).
  { unfold smul. rewrite X. fold r. rewrite new_default_labels, repeat_length. apply new_rows_ok with (c := sdim a); auto.
    - apply Forall_forall. intros x I. apply repeat_spec in I. subst. rewrite V in VC. inversion VC; auto.
    - destruct N; [lia|discriminate].
    - rewrite repeat_length. auto.
    - rewrite ?map_length, ?seq_length, ?repeat_length; auto.
    - destruct W as [_ [_ [_ [_ [_ [_ [_ [_ [L _]]]]]]]]]. lia.
    - destruct W as [_ [_ [_ [_ [_ [_ [_ [_ [_ L]]]]]]]]]. lia. }
  destruct E as [s [h' E]]. exists s, h'. split; auto.
  unfold smul in E. rewrite X in E. fold r in E.
  pose proof (new_spec _ _ _ _ _ _ _ _ _ _ E) as [f' [CF [V' [F [EV [LB [FR [EX [_ [_ [VN [_ [IS WF]]]]]]]]]]]]].
  cbn [xrows nlist ilist] in *. rewrite repeat_length in *.
  rewrite <- LN in CF at 1. rewrite check_fitness_good in CF; auto.
  2:{ intro Q. rewrite Q in LN. simpl in LN. lia. }
  injection CF as <-.
  assert (WS : wf h' s).
  { apply WF; auto.
    - apply W.
    - intro Q. destruct GN as [[_ GN]|[GN _]]; [exact GN|lia].
    - rewrite concat_repeat_length. unfold evals in EL. rewrite EL, S1. lia. }
  split; auto. split; [apply IS; eauto|]. split.
  { destruct (values_shape _ _ WS) as [Q _]. rewrite V', repeat_length in Q. auto. }
  split. { rewrite V'. intros x I. apply repeat_spec in I. subst. auto. }
  split. { rewrite F, concat_repeat_map, <- FF. destruct (fits h a) as [|f0 [|]] eqn:FH.
    - apply (f_equal (@List.length _)) in FF. rewrite map_length, LF, S1 in FF. discriminate.
    - rewrite concat_repeat_one. intros x I. apply repeat_spec in I. subst. auto.
    - apply (f_equal (@List.length _)) in FF. rewrite map_length, LF, S1 in FF. discriminate. }
  split. { rewrite EV. unfold evals in *. destruct (n_list h a) as [|n0 [|]] eqn:NH; rewrite S1 in EL; try discriminate.
    rewrite concat_repeat_one. intros x I. apply repeat_spec in I. subst. auto. }
  split; auto. split; [apply VN; auto|].
  intros ws h2 WR. pose proof (writes_written _ _ _ _ WS WR) as WW.
  destruct (written_apart _ _ _ a WW (fresh_apart _ _ _ FR W)) as [T1 [T2 [T3 T4]]].
  destruct (same_rows_extends _ _ _ EX W) as [U1 [U2 [U3 U4]]].
  unfold same_rows. rewrite T1, T2, T3, T4. auto.
Qed.
Print Assumptions C147_replication_partial.

(** A set of solutions (2-d) cannot be replicated: an exception. *)
Theorem C147_sets_raise : forall h a N, is_2d a -> exists e, smul h a N = SErr e.
Proof. intros h a N D. unfold is_2d, smul in *. destruct (xa a); [tauto|]. eauto. Qed.
Print Assumptions C147_sets_raise.

(** Refuted for several objectives: a solution taken out of a set by its row index fails as soon
    as N >= 2, whatever the solution. *)
Theorem C147_replication_refuted :
  (forall h a N, wf h a -> ~ is_2d a -> flattened a -> 1 <= sdim a -> 2 <= N -> smul h a N = SErr SAssert) /\
  (exists h s a, wf h s /\ getitem h s (Rows (SInt 0)) = SOk (Sub a, h) /\ wf h a /\ ~ is_2d a /\ flattened a /\
     1 <= sdim a /\ values h a = [[VI 1; VS "a"]] /\ fits h a = [[Some 1%Q; Some 2%Q]] /\ smul h a 2 = SErr SAssert).
Proof.
  assert (G : forall h a N, wf h a -> ~ is_2d a -> flattened a -> 1 <= sdim a -> 2 <= N -> smul h a N = SErr SAssert).
  { intros h a N W D2 FL D1 N2. pose proof (values_shape _ _ W) as [VL VC].
    destruct W as [WX [[LF [RF _]] [_ [_ [SH [NO _]]]]]]. unfold flattened, wf_fit, is_2d, smul, sdim, values, row_list in *.
    destruct (xa a) as [ps|]; [|tauto]. destruct (fa a) as [fs|] eqn:F; [|tauto].
    set (r := read (buf (hx h) (xr a)) ps) in *. inversion VC as [|? ? LR _]; subst.
    assert (LFs : List.length (fit_list h a) = nobj a).
    { unfold fit_list. rewrite F, map_length. rewrite read_length; auto. }
    assert (FS1 : exists v t, fit_list h a = FS v :: t).
    { unfold fit_list in *. rewrite F in *. destruct (read _ fs) as [|v t]; simpl in *; [lia|eauto]. }
    destruct FS1 as [v [t FT]].
    unfold new. destruct N as [|N]; [lia|]. cbn [repeat].
    assert (XA : exists b, x_array (XRows (r :: repeat r N)) = SOk (A2 (grid (S N) (List.length r)) (List.length r), b)).
    { destruct r as [|x l]; [simpl in LR; lia|]. simpl. rewrite (proj2 (forallb_forall _ _)).
      - rewrite repeat_length. eauto.
      - intros y I. apply repeat_spec in I. subst. apply Nat.eqb_refl. }
    destruct XA as [b XA]. rewrite XA. cbn [sbind]. cbv zeta. rewrite grid_length.
    set (L := List.concat (fit_list h a :: repeat (fit_list h a) N)).
    assert (LL : List.length L = S N * nobj a).
    { unfold L. change (fit_list h a :: repeat (fit_list h a) N) with (repeat (fit_list h a) (S N)).
      rewrite concat_repeat_length, LFs. reflexivity. }
    assert (LH : exists t', L = FS v :: t') by (unfold L; cbn [List.concat]; rewrite FT; simpl; eauto).
    destruct LH as [t' LH].
    unfold check_fitness. destruct (Nat.ltb_spec 1 (nobj a)); [|lia]. rewrite LH. rewrite LH in LL. rewrite LL.
    destruct (Nat.eqb_spec (S N * nobj a) (nobj a)) as [Q|]; [exfalso; nia|]. reflexivity. }
  split; [exact G|].
  exists (snd demo2), (fst demo2). eexists. split; [exact demo2_wf|]. split; [vm_compute; reflexivity|].
  split; [demo_wf|]. split; [intros []|]. split; [vm_compute; lia|]. split; [vm_compute; lia|].
  split; [reflexivity|]. split; [reflexivity|]. vm_compute. reflexivity.
Qed.
Print Assumptions C147_replication_refuted.

Example C147_ex : exists s h s3 h3, getitem (snd demo) (fst demo) (Rows (SInt 1)) = SOk (Sub s, h) /\ wf h s /\ ~ is_2d s /\
  ~ flattened s /\ 1 <= sdim s /\ smul h s 3 = SOk (s3, h3) /\ values h3 s3 = [[VI 2; VS "b"]; [VI 2; VS "b"]; [VI 2; VS "b"]] /\
  evals h3 s3 = [2; 2; 2]%Z /\ labels h3 s3 = ["0"; "1"; "2"].
Proof.
  do 4 eexists. split; [vm_compute; reflexivity|]. split; [demo_wf|]. split; [intros []|]. split; [vm_compute; lia|].
  split; [vm_compute; lia|]. split; [vm_compute; reflexivity|]. repeat split.
Qed.

(** ** C148 *)
Definition position (n : nat) (i : Z) : nat := Z.to_nat (if (i <? 0)%Z then (i + Z.of_nat n)%Z else i).

(** s[i, j] is the component j of row i, for all valid indices, negative ones included. *)
Theorem C148_element : forall h s i j, wf h s -> is_2d s ->
  (- Z.of_nat (sN s) <= i < Z.of_nat (sN s))%Z -> (- Z.of_nat (sdim s) <= j < Z.of_nat (sdim s))%Z ->
  exists row v, getitem h s (RowCol (SInt i) (SInt j)) = SOk (Elem v, h) /\
    nth_error (values h s) (position (sN s) i) = Some row /\ nth_error row (position (sdim s) j) = Some v.
Proof.
  intros h s i j W D I J. pose proof (values_shape _ _ W) as [VL VC]. destruct W as [[_ [R [_ C]]] _].
  unfold is_2d, sN, sdim, getitem, values, row_list, position in *. destruct (xa s) as [|rs c]; [tauto|].
  cbn [norm_cols is_int is_fancy andb]. cbn [sel_positions]. rewrite (int_position_valid _ _ I), (int_position_valid _ _ J). cbn [sbind].
  set (p := Z.to_nat (resolve (Z.of_nat (List.length rs)) i)). set (q := Z.to_nat (resolve (Z.of_nat c) j)).
  assert (P : p < List.length rs) by (unfold p, resolve; destruct (Z.ltb_spec i 0); lia).
  assert (Q : q < c) by (unfold q, resolve; destruct (Z.ltb_spec j 0); lia).
  destruct (lt_nth_error _ _ P) as [r Er].
  assert (Lr : List.length r = c) by (rewrite Forall_forall in C; apply C; eapply nth_error_In; eauto).
  assert (Q' : q < List.length r) by lia. destruct (lt_nth_error _ _ Q') as [x Ex].
  assert (X : x < List.length (buf (hx h) (xr s))).
  { rewrite Forall_forall in R. apply R. apply in_concat. exists r. split; eapply nth_error_In; eauto. }
  destruct (lt_nth_error _ _ X) as [v Ev].
  exists (read (buf (hx h) (xr s)) r), v. split.
  { unfold pick at 1. unfold pick at 1. unfold read at 2 3. simpl. rewrite Er. simpl. unfold read at 1. simpl. rewrite Ex. simpl.
    unfold read. simpl. rewrite Ev. reflexivity. }
  split. { rewrite nth_error_map. unfold resolve in *. fold p. rewrite Er. reflexivity. }
  assert (RS : selects (buf (hx h) (xr s)) r (read (buf (hx h) (xr s)) r)).
  { apply pick_selects. apply Forall_forall. intros y Iy. rewrite Forall_forall in R. apply R. apply in_concat. exists r. split; auto. eapply nth_error_In; eauto. }
  unfold resolve in *. fold q. clearbody q. clear - RS Ex Ev. revert q Ex. generalize (read (buf (hx h) (xr s)) r) RS. clear RS.
  induction 1 as [|y z r l E RS IH]; intros [|q] Ex; simpl in *; try discriminate.
  - injection Ex as ->. congruence.
  - apply IH; auto.
Qed.
Print Assumptions C148_element.

Theorem C148_out_of_range : forall h s i j, is_2d s ->
  ~ (- Z.of_nat (sN s) <= i < Z.of_nat (sN s))%Z \/ ~ (- Z.of_nat (sdim s) <= j < Z.of_nat (sdim s))%Z ->
  getitem h s (RowCol (SInt i) (SInt j)) = SErr SIndex.
Proof.
  intros h s i j D V. unfold is_2d, sN, sdim, getitem in *. destruct (xa s) as [|rs c]; [tauto|].
  cbn [norm_cols is_int is_fancy andb]. cbn [sel_positions].
  destruct (int_position (List.length rs) i) as [p|e] eqn:P; cbn [sbind].
  - destruct V as [V|V]; [rewrite (int_position_invalid _ _ V) in P; discriminate|]. rewrite (int_position_invalid _ _ V). reflexivity.
  - f_equal. unfold int_position in P. destruct ((i <? - Z.of_nat (List.length rs)) || (Z.of_nat (List.length rs) <=? i))%Z%bool; [congruence|discriminate].
Qed.
Print Assumptions C148_out_of_range.

(** The columns [ks] of the rows [ps]. *)
Definition block_of (rows : list (list val)) (ps ks : list nat) (out : list (list val)) : Prop :=
  Forall2 (fun p r => exists row, nth_error rows p = Some row /\ selects row ks r) ps out.

(** The name, objective values, evaluation counts and labels of a block of rows and columns:
    slices for the rows, a slice or a column number other than -1 for the columns. *)
Theorem C148_block_partial : forall h s a b c cs ks, wf h s -> is_2d s -> c <> Some 0%Z ->
  ((exists x y z, cs = SSlice x y z /\ z <> Some 0%Z /\ slice_spec (sdim s) x y z ks) \/
   (exists j, cs = SInt j /\ (- Z.of_nat (sdim s) <= j < Z.of_nat (sdim s))%Z /\ j <> (-1)%Z /\ ks = [position (sdim s) j])) ->
  exists s' ps, getitem h s (RowCol (SSlice a b c) cs) = SOk (Sub s', h) /\ slice_spec (sN s) a b c ps /\ is_2d s' /\
    block_of (values h s) ps ks (values h s') /\ selects (vn s) ks (vn s') /\
    selects (fits h s) ps (fits h s') /\ selects (evals h s) ps (evals h s') /\ selects (labels h s) ps (labels h s').
Proof.
  intros h s a b c cs ks W D C CS. pose proof W as [[_ [R [_ CR]]] _].
  pose proof W as [_ [_ [_ [_ [_ [_ [LN [LI [LV _]]]]]]]]].
  unfold is_2d in D. destruct (xa s) as [|rs k] eqn:E; [tauto|].
  assert (SP : forall n x y z, z <> Some 0%Z -> exists qs, slice_positions n x y z = SOk qs).
  { intros n x y z Z0. unfold slice_positions. destruct z as [z|]; [|simpl; eauto].
    destruct (Z.eqb_spec z 0); [congruence|]. destruct (0 <? z)%Z; eauto. }
  destruct (SP (List.length rs) a b c C) as [ps P].
  assert (K : sel_positions k (norm_cols (SSlice a b c) cs) = SOk ks /\ is_fancy (norm_cols (SSlice a b c) cs) = false).
  { unfold sdim in CS. rewrite E in CS. destruct CS as [[x [y [z [-> [Z0 S]]]]]|[j [-> [V [N1 ->]]]]]; cbn [norm_cols is_int is_fancy sel_positions].
    - split; auto. destruct (SP k x y z Z0) as [qs Q]. rewrite Q. f_equal. apply slice_positions_spec in Q.
      unfold slice_spec in Q, S. destruct Q as [[Q1 Q]|[Q1 Q]], S as [[S1 S]|[S1 S]]; try lia; cbv zeta in *; congruence.
    - split; auto. unfold position. rewrite slice_one; auto. }
  destruct K as [K KF]. pose proof (sel_positions_range _ _ _ K) as RK.
  assert (PR : sel_positions (List.length rs) (SSlice a b c) = SOk ps) by exact P. pose proof (sel_positions_range _ _ _ PR) as RP.
  pose proof (view_rows h s (SSlice a b c) ps rs k W E PR) as [_ [VF [VE VLb]]].
  unfold sN in *. unfold sdim in LV. rewrite E in *.
  exists (mkSol (xr s) (A2 (map (fun row => pick row ks) (pick rs ps)) (List.length ks)) (fr s) (pick_arr (fa s) ps)
            (nr s) (pick (na s) ps) (ir s) (pick (ia s) ps) (pick (vn s) ks) (fnm s) (nobj s)), ps.
  split.
  { unfold getitem. rewrite E. cbn [is_fancy andb]. rewrite PR. cbn [sbind]. rewrite K. cbn [sbind]. cbn [is_fancy is_int andb]. rewrite KF. cbn [orb].
    cbn [take_arr take1 take_lab attr_sel]. rewrite (fit_len _ _ _ _ W E), PR. cbn [sbind]. rewrite LN, PR. cbn [sbind]. rewrite LI, PR. cbn [sbind].
    rewrite LV, K. cbn [sbind]. destruct h; reflexivity. }
  split; [apply slice_positions_spec; exact P|]. split; [exact I|]. split.
  { unfold values, row_list. rewrite E. cbn [xa xr]. rewrite map_map.
    pose proof (pick_selects rs ps RP) as S. unfold block_of. clear - S R CR RK.
    induction S as [|p r ps l Er S IH]; cbn [map]; constructor; auto.
    exists (read (buf (hx h) (xr s)) r). split; [rewrite nth_error_map, Er; reflexivity|].
    assert (Lr : List.length r = k) by (rewrite Forall_forall in CR; apply CR; eapply nth_error_In; eauto).
    assert (Rr : Forall (fun p => p < List.length (buf (hx h) (xr s))) r).
    { apply Forall_forall. intros y Iy. rewrite Forall_forall in R. apply R. apply in_concat. exists r. split; auto. eapply nth_error_In; eauto. }
    rewrite <- Lr in RK. pose proof (pick_selects r ks RK) as T. pose proof (pick_selects _ _ Rr) as U.
    unfold pick in *. set (rd := read (buf (hx h) (xr s)) r) in *. clearbody rd. clear - T U.
    induction T as [|q x ks l E T IH].
    - constructor.
    - assert (X : exists v, nth_error rd q = Some v /\ nth_error (buf (hx h) (xr s)) x = Some v).
      { clear - U E. revert q E. induction U as [|y z r rd E' U IH]; intros [|q] E; simpl in *; try discriminate; eauto.
        injection E as ->. eauto. }
      destruct X as [v [X1 X2]]. unfold read at 1. cbn [flat_map]. fold (read (buf (hx h) (xr s)) l). rewrite X2. constructor; auto. }
  split. { apply pick_selects. rewrite LV. auto. }
  split. { unfold view_of, fits in *. cbn [is_int xa fa fr] in *. rewrite E in *. exact VF. }
  split; [exact VE|exact VLb].
Qed.
Print Assumptions C148_block_partial.

(** Refuted for the last column given as -1: no column at all comes back. *)
Theorem C148_block_refuted : exists h s s', wf h s /\ is_2d s /\ (- Z.of_nat (sdim s) <= -1 < Z.of_nat (sdim s))%Z /\
  getitem h s (RowCol (SSlice None None None) (SInt (-1))) = SOk (Sub s', h) /\
  values h s' = [[]; []; []] /\ vn s' = [] /\ vn s = ["k"; "l"].
Proof.
  exists (snd demo), (fst demo). eexists. split; [exact demo_wf|]. split; [exact I|]. split; [vm_compute; split; congruence|].
  split; [vm_compute; reflexivity|]. repeat split.
Qed.
Print Assumptions C148_block_refuted.

Example C148_ex :
  getitem (snd demo) (fst demo) (RowCol (SInt (-1)) (SInt 1)) = SOk (Elem (VS "c"), snd demo) /\
  exists s', getitem (snd demo) (fst demo) (RowCol (SSlice (Some 1%Z) None None) (SInt 0)) = SOk (Sub s', snd demo) /\
    values (snd demo) s' = [[VI 2]; [VI 3]] /\ vn s' = ["k"] /\ evals (snd demo) s' = [2; 3]%Z.
Proof. split; [vm_compute; reflexivity|]. eexists. split; [vm_compute; reflexivity|]. repeat split. Qed.

(** ** C55: solutions read from a dictionary have not been evaluated. *)
Theorem C55_not_evaluated : forall h d s h', from_dict h d = SOk (s, h') ->
  nobj s = 1 /\ (forall f, In f (fits h' s) -> f = [None]) /\ (forall n, In n (evals h' s) -> n = 0%Z) /\
  List.length (fits h' s) = List.length (values h' s) /\ List.length (evals h' s) = List.length (values h' s) /\
  labels h' s = map str_nat (seq 0 (List.length (values h' s))).
Proof.
  intros h d s h' E.
  assert (G : exists x v, new h x (FScalar None) (NScalar 0) INone v None 1 = SOk (s, h')).
  { destruct d as [d|[|d t]]; [eauto|discriminate|eauto]. }
  destruct G as [x [v G]]. apply new_spec in G. destruct G as [f' [CF [V [F [EV [LB [_ [_ [NO _]]]]]]]]].
  unfold check_fitness in CF. cbn [Nat.ltb Nat.leb Nat.eqb sbind] in CF. rewrite repeat_length, Nat.eqb_refl in CF.
  cbn [sassert sbind] in CF. injection CF as <-. rewrite V, F, EV, LB. cbn [nlist ilist].
  split; auto. split. { intros f I. apply in_map_iff in I. destruct I as [y [<- I]]. apply repeat_spec in I. subst. reflexivity. }
  split. { intros n I. apply repeat_spec in I. auto. }
  rewrite map_length, !repeat_length. auto.
Qed.
Print Assumptions C55_not_evaluated.

Example C55_not_evaluated_ex : exists s h', from_dict empty_heap (DMany [[("a", VI 1)]; [("a", VI 2)]]) = SOk (s, h') /\
  fits h' s = [[None]; [None]] /\ labels h' s = ["0"; "1"].
Proof. do 2 eexists. split; [vm_compute; reflexivity|]. split; reflexivity. Qed.

(** ** C252: to_dict by variable *)
Lemma column_nth (rows : list (list val)) d k : Forall (fun r => List.length r = d) rows -> k < d ->
  let col := flat_map (fun r => match nth_error r k with Some v => [v] | None => [] end) rows in
  List.length col = List.length rows /\ forall i r, nth_error rows i = Some r -> nth_error col i = nth_error r k.
Proof.
  intros F K. induction F as [|r rows L F [IL IN]]; cbn [flat_map]; [split; auto; intros [|i] r; discriminate|].
  destruct (nth_error r k) as [v|] eqn:E; [|apply nth_error_None in E; lia]. cbn [app List.length]. split; [now rewrite IL|].
  intros [|i] r' H; cbn [nth_error] in *; [congruence|auto].
Qed.
Lemma combine_seq {A B} (l : list A) (f : nat -> B) : forall b k a y, nth_error (combine l (map f (seq b (List.length l)))) k = Some (a, y) ->
  nth_error l k = Some a /\ y = f (b + k) /\ k < List.length l.
Proof.
  induction l as [|x l IH]; intros b [|k] a y H; cbn in H; try discriminate.
  - injection H as <- <-. rewrite Nat.add_0_r. repeat split; auto. cbn. lia.
  - apply IH in H as (H1 & -> & H3). cbn. split; [exact H1|]. split; [f_equal; lia|lia].
Qed.

(** The keys are the names of the variables, and the value of a key is the column of that variable. *)
Theorem C252_columns : forall h s, wf h s -> NoDup (vn s) ->
  map fst (to_dict_var h s) = vn s /\
  forall k n col, nth_error (to_dict_var h s) k = Some (n, col) ->
    nth_error (vn s) k = Some n /\ List.length col = sN s /\
    forall i r, nth_error (values h s) i = Some r -> nth_error col i = nth_error r k.
Proof.
  intros h s W NV. destruct (values_shape _ _ W) as [VL VC]. pose proof W as [_ [_ [_ [_ [_ [_ [_ [_ [LV _]]]]]]]]].
  unfold to_dict_var. fold (values h s). rewrite mk_dict_nodup by (rewrite map_fst_combine; auto; now rewrite map_length, seq_length).
  split; [apply map_fst_combine; now rewrite map_length, seq_length|]. intros k n col H. apply combine_seq in H as (H1 & -> & H3). split; auto.
  rewrite <- VL. apply (column_nth _ (sdim s)); auto. cbn. lia.
Qed.
Print Assumptions C252_columns.
(** The same with the labels of the rows, which are distinct. *)
Theorem C252_labelled_columns : forall h s, wf h s -> NoDup (vn s) -> NoDup (labels h s) ->
  map fst (to_dict_var_labelled h s) = vn s /\
  forall k n d, nth_error (to_dict_var_labelled h s) k = Some (n, d) ->
    nth_error (vn s) k = Some n /\ map fst d = labels h s /\
    forall i r, nth_error (values h s) i = Some r -> nth_error (map snd d) i = nth_error r k.
Proof.
  intros h s W NV NL. destruct (values_shape _ _ W) as [VL VC]. pose proof W as [_ [_ [_ [_ [_ [_ [_ [_ [LV _]]]]]]]]]. pose proof (labels_length _ _ W) as LL.
  unfold to_dict_var_labelled. fold (values h s) (labels h s). rewrite mk_dict_nodup by (rewrite map_fst_combine; auto; now rewrite map_length, seq_length).
  split; [apply map_fst_combine; now rewrite map_length, seq_length|]. intros k n col H. apply combine_seq in H as (H1 & -> & H3). split; auto. cbn [Nat.add].
  destruct (column_nth (values h s) (sdim s) k) as [CL CN]; auto; [lia|]. rewrite mk_dict_nodup by (rewrite map_fst_combine; auto; congruence).
  rewrite map_fst_combine, map_snd_combine by congruence. auto.
Qed.
Print Assumptions C252_labelled_columns.
Example C252_ex : wf (snd demo) (fst demo) /\ to_dict_var (snd demo) (fst demo) = [("k", [VI 1; VI 2; VI 3]); ("l", [VS "a"; VS "b"; VS "c"])] /\
  NoDup (labels (snd demo) (fst demo)).
Proof. split; [exact demo_wf|]. split; [reflexivity|]. vm_compute. repeat constructor; cbn; intuition discriminate. Qed.
