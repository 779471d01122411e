(** Properties C80 and C85: dictionary form of search spaces. *)
From Coq Require Import Bool Arith ZArith QArith String List Lia.
From Verif Require Import Lib_List Model_Var Model_Opt Model_Space Proofs_Space Model_SpaceDict Properties_Space.
Import ListNotations.
Open Scope nat_scope.

(** * C80 *)
Lemma set_item_In d e x : In x (set_item d e) -> In x d \/ x = e.
Proof.
  induction d as [|y d IH]; simpl; [intuition|]. destruct (String.eqb (ekey y) (ekey e)); simpl; intuition.
Qed.
Lemma to_dict_In h s e : In e (to_dict h s) -> exists v, In v (variables h s) /\ e = entry_of v.
Proof.
  unfold to_dict. assert (G : forall vs d, In e (fold_left (fun d v => set_item d (entry_of v)) vs d) ->
     In e d \/ exists v, In v vs /\ e = entry_of v).
  { induction vs as [|v vs IH]; intros d H; simpl in H; [auto|]. apply IH in H. destruct H as [H|(w&Hw&E)].
    - apply set_item_In in H. destruct H as [H|H]; [auto|]. right. exists v. simpl. auto.
    - right. exists w. simpl. auto. }
  intro H. apply G in H. destruct H as [[]|H]. exact H.
Qed.
Lemma from_items_classes adj : forall es h acc, (forall e, In e es -> erange e <> Some [] /\ edefault e = false /\ exists t, etype e = TCls t) ->
  from_items adj h acc None es = Some (h, acc).
Proof.
  induction es as [|e es IH]; intros h acc H; [reflexivity|]. destruct (H e (or_introl eq_refl)) as (R&D&t&T).
  assert (M : make adj e = Unmatched) by (unfold make; rewrite T; reflexivity).
  simpl. rewrite D, M, app_nil_r.
  destruct (erange e) as [[|x l]|]; [congruence| |]; apply IH; intros; apply H; right; assumption.
Qed.

(** Refuted, for every space (whose variables have at least one level): what comes back is the
    empty space. *)
Theorem C80_round_trip_refuted :
  forall adj h s, (forall v, In v (variables h s) -> vbounds (vk v) <> []) ->
    exists h' t, from_dict adj (to_dict h s) = Some (h', t) /\ variables h' t = [] /\
      (data s <> [] -> forall hash g, variables g t = [] -> variables g s = variables h s -> space_eqb hash g t s = false).
Proof.
  intros adj h s HB. unfold from_dict. rewrite from_items_classes.
  - simpl. unfold set_data. simpl. eexists. eexists. split; [reflexivity|]. split; [reflexivity|].
    intros NE hash g _ _. unfold space_eqb. simpl. destruct (data s); [congruence|reflexivity].
  - intros e He. apply to_dict_In in He. destruct He as (v&Hv&->). simpl. split; [|split; [reflexivity|eauto]].
    intro E. injection E as E. exact (HB v Hv E).
Qed.
Print Assumptions C80_round_trip_refuted.

(** The round trip works for the empty space only. *)
Theorem C80_round_trip_partial :
  forall adj h s, data s = [] -> exists h' t, from_dict adj (to_dict h s) = Some (h', t) /\ variables h' t = variables h s.
Proof.
  intros adj h [d n] E. simpl in E. subst d. eexists. eexists. split; [reflexivity|reflexivity].
Qed.
Print Assumptions C80_round_trip_partial.

Example C80_example :
  let '(h, s) := fresh [rv "a"; iv "b"] in
  (forall v, In v (variables h s) -> vbounds (vk v) <> []) /\ map ekey (to_dict h s) = ["a"; "b"]%string /\
  option_map (fun p => length (data (snd p))) (from_dict (fun _ b => b) (to_dict h s)) = Some 0.
Proof. split; [|vm_compute; auto]. intros v Hv. vm_compute in Hv. destruct Hv as [<-|[<-|[]]]; discriminate. Qed.

(** * C85 *)
(** Documented defaults: one copy, linear scale, step 1. *)
Definition given_count (e : entry) : nat := match eN e with Some n => n | None => 1 end.
Definition given_scale (e : entry) : string := match escale e with Some s => s | None => "linear"%string end.
Definition given_step (e : entry) : Z := match estep e with Some s => s | None => 1%Z end.
Ltac plain := change count_of with given_count in *; change scale_of with given_scale in *; change step_of with given_step in *.
(** What an item of the documented format describes. *)
Definition describes (adj : string -> Q * Q -> Q * Q) (e : entry) (k : kind) (scale : string) : Prop :=
  match etype e with
  | TStr t =>
    (In t ["r"; "real"]%string /\ exists lb ub a b l, bounds_of e = a :: b :: l /\ as_num a = Some lb /\ as_num b = Some ub /\
        (lb < ub)%Q /\ scale = given_scale e /\ k = KReal (fst (adj scale (lb, ub))) (snd (adj scale (lb, ub))) (eprec e)) \/
    (In t ["i"; "int"; "integer"]%string /\ exists lb ub, dedup (bounds_of e) = [VI lb; VI ub] /\ (lb < ub)%Z /\ k = KInt lb ub (given_step e)) \/
    (In t ["o"; "ordinal"]%string /\ k = KOrdinal (bounds_of e)) \/
    (In t ["c"; "cat"]%string /\ k = KDiscrete (bounds_of e)) \/
    (In t ["s"; "subset"]%string /\ k = KSubset (bounds_of e)) \/
    (In t ["b"; "bool"]%string /\ k = KBool)
  | TCls _ => False
  end.

(** An admissible item: documented type, consistent bounds, scale and step. *)
Definition good_item (adj : string -> Q * Q -> Q * Q) (e : entry) : Prop :=
  erange e <> Some [] /\ In (given_scale e) scales /\ given_step e <> 0%Z /\ exists k sc, describes adj e k sc.

Lemma is_type_str t l : is_type (TStr t) l = true <-> In t l.
Proof. apply existsb_names. Qed.

Lemma make_good adj e : good_item adj e ->
  (given_step e = 1%Z \/ given_count e <= 1 \/ forall t, etype e = TStr t -> ~ In t ["i"; "int"; "integer"]%string) ->
  exists l, make adj e = Vars l /\ length l = given_count e /\
    forall v, In v l -> vn v = ekey e /\ vdef v = None /\ describes adj e (vk v) (match vk v with KReal _ _ _ => vscale v | _ => given_scale e end).
Proof.
  intros (_&SC&ST&k&sc&D) HI. unfold describes in D |- *. unfold make. plain. destruct (etype e) as [t|t]; [|destruct D].
  destruct (is_type (TStr t) ["r"; "real"]%string) eqn:T1.
  { apply is_type_str in T1.
    assert (RL : exists v, make_real adj e = Some v /\ vn v = ekey e /\ vdef v = None /\ vscale v = given_scale e /\
        exists lb ub a b l, bounds_of e = a :: b :: l /\ as_num a = Some lb /\ as_num b = Some ub /\ (lb < ub)%Q /\
          vk v = KReal (fst (adj (given_scale e) (lb, ub))) (snd (adj (given_scale e) (lb, ub))) (eprec e)).
    { destruct D as [(_&lb&ub&a&b&l&B&A1&A2&L&_&_)|D].
      - unfold make_real. plain. rewrite B, A1, A2. assert (Q : Qle_bool ub lb = false).
        { apply not_true_is_false. intro Q. apply Qle_bool_iff in Q. exact (Qlt_not_le _ _ L Q). }
        rewrite Q. apply existsb_names in SC. rewrite SC. simpl. destruct (adj (given_scale e) (lb, ub)) as [l' u'] eqn:A.
        eexists. split; [reflexivity|]. simpl. repeat (split; [reflexivity|]). exists lb, ub, a, b, l. rewrite A. auto.
      - exfalso. simpl in T1. destruct T1 as [<-|[<-|[]]]; simpl in D; intuition discriminate. }
    destruct RL as (v&E1&E2&E3&E4&lb&ub&a&b&l&R). exists (repeat v (given_count e)). rewrite E1. split.
    - unfold replicate. destruct (given_count e); reflexivity.
    - split; [apply repeat_length|]. intros w Hw. apply repeat_spec in Hw. subst w. split; [exact E2|]. split; [exact E3|].
      left. split; [exact T1|]. exists lb, ub, a, b, l. destruct R as (R1&R2&R3&R4&R5). rewrite R5, E4. auto 10. }
  destruct (is_type (TStr t) ["i"; "int"; "integer"]%string) eqn:T2.
  { apply is_type_str in T2.
    assert (IL : exists lb ub, dedup (bounds_of e) = [VI lb; VI ub] /\ (lb < ub)%Z).
    { destruct D as [D|[(_&lb&ub&B&L&_)|D]]; [|exists lb, ub; auto|]; exfalso.
      - destruct D as (D&_). apply is_type_str in D. congruence.
      - simpl in T2. destruct T2 as [<-|[<-|[<-|[]]]]; simpl in D; intuition discriminate. }
    destruct IL as (lb&ub&B&L).
    assert (MI : forall st, st <> 0%Z -> make_int e st = Some (mkV (ekey e) (KInt lb ub st) None "")).
    { intros st Hst. unfold make_int. rewrite B. apply Z.ltb_lt in L. apply Z.eqb_neq in Hst. rewrite L, Hst. reflexivity. }
    assert (MS : all_steps e = repeat (given_step e) (given_count e)).
    { unfold all_steps. plain. destruct HI as [H|[H|H]].
      - rewrite H. destruct (given_count e); reflexivity.
      - destruct (given_count e) as [|[|]]; [reflexivity|reflexivity|lia].
      - exfalso. exact (H t eq_refl T2). }
    exists (repeat (mkV (ekey e) (KInt lb ub (given_step e)) None "") (given_count e)). split.
    - rewrite MS. assert (G : forall n, make_ints e (repeat (given_step e) n) = Some (repeat (mkV (ekey e) (KInt lb ub (given_step e)) None "") n)).
      { induction n as [|n IH]; [reflexivity|]. simpl. rewrite (MI _ ST), IH. reflexivity. }
      rewrite G. reflexivity.
    - split; [apply repeat_length|]. intros w Hw. apply repeat_spec in Hw. subst w. simpl. split; [reflexivity|]. split; [reflexivity|].
      right. left. split; [exact T2|]. exists lb, ub. auto. }
  assert (F1 : ~ In t ["r"; "real"]%string) by (intro X; apply is_type_str in X; congruence).
  assert (F2 : ~ In t ["i"; "int"; "integer"]%string) by (intro X; apply is_type_str in X; congruence).
  destruct (is_type (TStr t) ["o"; "ordinal"]%string) eqn:T3.
  { apply is_type_str in T3. eexists. split; [reflexivity|]. split; [apply repeat_length|].
    intros w Hw. apply repeat_spec in Hw. subst w. simpl. split; [reflexivity|]. split; [reflexivity|]. right. right. left. auto. }
  destruct (is_type (TStr t) ["c"; "cat"]%string) eqn:T4.
  { apply is_type_str in T4. eexists. split; [reflexivity|]. split; [apply repeat_length|].
    intros w Hw. apply repeat_spec in Hw. subst w. simpl. split; [reflexivity|]. split; [reflexivity|]. right. right. right. left. auto. }
  destruct (is_type (TStr t) ["s"; "subset"]%string) eqn:T5.
  { apply is_type_str in T5. eexists. split; [reflexivity|]. split; [apply repeat_length|].
    intros w Hw. apply repeat_spec in Hw. subst w. simpl. split; [reflexivity|]. split; [reflexivity|]. right. right. right. right. left. auto. }
  destruct (is_type (TStr t) ["b"; "bool"]%string) eqn:T6.
  { apply is_type_str in T6. eexists. split; [reflexivity|]. split; [apply repeat_length|].
    intros w Hw. apply repeat_spec in Hw. subst w. simpl. split; [reflexivity|]. split; [reflexivity|]. right. right. right. right. right. auto. }
  exfalso. assert (F3 : ~ In t ["o"; "ordinal"]%string) by (intro X; apply is_type_str in X; congruence).
  assert (F4 : ~ In t ["c"; "cat"]%string) by (intro X; apply is_type_str in X; congruence).
  assert (F5 : ~ In t ["s"; "subset"]%string) by (intro X; apply is_type_str in X; congruence).
  assert (F6 : ~ In t ["b"; "bool"]%string) by (intro X; apply is_type_str in X; congruence). tauto.
Qed.

(** For documented items without a default, and with step 1 where an integer item is repeated: the
    result holds, in order, given_count e variables for each item, each as described. *)
Theorem C85_documented_format_partial :
  forall adj es,
    (forall e, In e es -> good_item adj e /\ edefault e = false /\
       (given_step e = 1%Z \/ given_count e <= 1 \/ forall t, etype e = TStr t -> ~ In t ["i"; "int"; "integer"]%string)) ->
    exists h s groups, from_dict adj es = Some (h, s) /\ proper_space h s /\ variables h s = concat groups /\
      Forall2 (fun e g => length g = given_count e /\ forall v, In v g ->
                 vdef v = None /\ describes adj e (vk v) (match vk v with KReal _ _ _ => vscale v | _ => given_scale e end)) es groups.
Proof.
  intros adj es H.
  assert (G : forall es h prev, (forall e, In e es -> good_item adj e /\ edefault e = false /\
       (given_step e = 1%Z \/ given_count e <= 1 \/ forall t, etype e = TStr t -> ~ In t ["i"; "int"; "integer"]%string)) ->
     exists groups, from_items adj h (seq 0 (length h)) prev es = Some (h ++ concat groups, seq 0 (length (h ++ concat groups))) /\
       Forall2 (fun e g => length g = given_count e /\ forall v, In v g ->
                 vdef v = None /\ describes adj e (vk v) (match vk v with KReal _ _ _ => vscale v | _ => given_scale e end)) es groups).
  { clear. induction es as [|e es IH]; intros h prev H.
    - exists []. simpl. rewrite app_nil_r. auto.
    - destruct (H e (or_introl eq_refl)) as (GI&D&ST). destruct (make_good adj e GI ST) as (l&M&L&P).
      destruct (IH (h ++ l) (Some (seq (length h) (length l))) (fun e' He => H e' (or_intror He))) as (gs&E&F).
      exists (l :: gs). split.
      + simpl. rewrite D, M. destruct GI as (R&_). destruct (erange e) as [[|x y]|]; [congruence| |];
          rewrite app_length, seq_app in E; simpl in E; rewrite E; rewrite <- app_assoc; reflexivity.
      + constructor; [|exact F]. split; [exact L|]. intros v Hv. destruct (P v Hv) as (_&Q). exact Q. }
  destruct (G es [] None H) as (gs&E&F). simpl in E. unfold from_dict. rewrite E. simpl.
  destruct (set_data (concat gs) (seq 0 (length (concat gs)))) as [h s] eqn:SD.
  assert (V : valid (concat gs) (seq 0 (length (concat gs)))) by (intros r Hr; apply in_seq in Hr; lia).
  assert (N : NoDup (seq 0 (length (concat gs)))) by apply seq_NoDup.
  pose proof (sd_vars_strip _ _ _ _ SD) as SV.
  assert (SV' : map strip (variables h s) = map strip (concat gs)).
  { rewrite SV, <- (map_map (deref (concat gs)) strip). f_equal. unfold deref. clear.
    generalize (concat gs). intro l. transitivity (map (fun i => nth i l no_var) (seq 0 (length l))); [reflexivity|].
    induction l as [|x l IH]; simpl; [reflexivity|]. f_equal. rewrite <- seq_shift, map_map. exact IH. }
  (* regroup the renamed variables *)
  assert (RG : forall (gs : list (list vobj)) (vs : list vobj) es, map strip vs = map strip (concat gs) ->
     Forall2 (fun e g => length g = given_count e /\ forall v, In v g ->
                 vdef v = None /\ describes adj e (vk v) (match vk v with KReal _ _ _ => vscale v | _ => given_scale e end)) es gs ->
     exists gs', vs = concat gs' /\ Forall2 (fun e g => length g = given_count e /\ forall v, In v g ->
                 vdef v = None /\ describes adj e (vk v) (match vk v with KReal _ _ _ => vscale v | _ => given_scale e end)) es gs').
  { clear. intros gs. induction gs as [|g gs IH]; intros vs es M F; inversion F as [|e ? es' ? [L P] F']; subst.
    - exists []. split; [|constructor]. destruct vs; [reflexivity|discriminate].
    - simpl in M. rewrite map_app in M.
      assert (M1 : map strip (firstn (length g) vs) = map strip g).
      { rewrite <- firstn_map, M, firstn_app, map_length, Nat.sub_diag, firstn_O, app_nil_r. rewrite <- (map_length strip g) at 1. apply firstn_all. }
      assert (M2 : map strip (skipn (length g) vs) = map strip (concat gs)).
      { rewrite <- skipn_map, M, skipn_app, map_length, Nat.sub_diag, skipn_O. rewrite <- (map_length strip g) at 1. rewrite skipn_all. reflexivity. }
      destruct (IH _ _ M2 F') as (gs'&E&F2). exists (firstn (length g) vs :: gs'). split.
      + simpl. rewrite <- E. symmetry. apply firstn_skipn.
      + constructor; [|exact F2]. split.
        * rewrite <- (map_length strip), M1, map_length. exact L.
        * intros v Hv. apply (in_map strip) in Hv. rewrite M1 in Hv. apply in_map_iff in Hv. destruct Hv as (w&Ew&Hw).
          destruct (P w Hw) as [P1 P2]. unfold strip in Ew. injection Ew as E1 E2 E3. rewrite <- E1, <- E2, <- E3. auto. }
  destruct (RG gs (variables h s) es SV' F) as (gs'&E1&E2).
  exists h, s, gs'. split; [reflexivity|]. split; [exact (set_data_proper _ _ _ _ SD V N)|]. auto.
Qed.
Print Assumptions C85_documented_format_partial.

Definition item (k : string) (t : string) : entry := mkE k (Some [VI 0; VI 9]) (TStr t) None false None None None.

(** Refuted: (1) any item with a default makes from_dict fail, whatever the other items are. *)
Theorem C85_default_refuted :
  forall adj es e, In e es -> edefault e = true -> from_dict adj es = None.
Proof.
  intros adj es e I D. unfold from_dict. assert (G : forall es h acc prev, In e es -> from_items adj h acc prev es = None).
  { clear es I. induction es as [|x es IH]; intros h acc prev I; [destruct I|]. simpl. destruct I as [->|I].
    - rewrite D. destruct (erange e) as [[|]|]; reflexivity.
    - destruct (erange x) as [[|]|]; [reflexivity| |]; destruct (edefault x); try reflexivity; destruct (make adj x); apply IH; exact I. }
  rewrite (G es _ _ _ I). reflexivity.
Qed.
Print Assumptions C85_default_refuted.

(** (2) Two copies of an integer item with step 3: the second copy has step 1.  (3) An item of an
    unknown type adds the variable of the item before it again. *)
Theorem C85_items_refuted :
  (exists e h s, good_item (fun _ b => b) e /\ edefault e = false /\ given_step e = 3%Z /\ from_dict (fun _ b => b) [e] = Some (h, s) /\
     map vk (variables h s) = [KInt 0 9 3; KInt 0 9 1]) /\
  (exists e e' h s, good_item (fun _ b => b) e /\ etype e' = TStr "float" /\ from_dict (fun _ b => b) [e; e'] = Some (h, s) /\
     length (variables h s) = 2).
Proof.
  split.
  - exists (mkE "i" (Some [VI 0; VI 9]) (TStr "int") (Some 2) false None None (Some 3%Z)). eexists. eexists.
    split; [|split; [reflexivity|split; [reflexivity|split; [vm_compute; reflexivity|reflexivity]]]].
    split; [discriminate|]. split; [simpl; auto|]. split; [discriminate|]. exists (KInt 0 9 3), EmptyString.
    right. left. split; [simpl; auto|]. exists 0%Z, 9%Z. split; [reflexivity|]. split; [reflexivity|reflexivity].
  - exists (item "a" "int"), (item "b" "float"). eexists. eexists.
    split; [|split; [reflexivity|split; [vm_compute; reflexivity|reflexivity]]].
    split; [discriminate|]. split; [simpl; auto|]. split; [discriminate|]. exists (KInt 0 9 1), EmptyString.
    right. left. split; [simpl; auto|]. exists 0%Z, 9%Z. split; [reflexivity|]. split; [reflexivity|reflexivity].
Qed.
Print Assumptions C85_items_refuted.

Example C85_example :
  option_map (fun p => map (fun v => (vn v, vk v)) (variables (fst p) (snd p)))
    (from_dict (fun _ b => b) [mkE "x" (Some [VI 0; VI 9]) (TStr "r") (Some 2) false (Some 2%Z) None None; item "y" "int"; item "z" "cat"])
  = Some [("x0", KReal (inject_Z 0) (inject_Z 9) (Some 2%Z)); ("x1", KReal (inject_Z 0) (inject_Z 9) (Some 2%Z)); ("y", KInt 0 9 1); ("z", KDiscrete [VI 0; VI 9])]%string.
Proof. vm_compute. reflexivity. Qed.
