(** C221-C225: text files (Solution.to_csv and the data file of a run).  The reader [records], the
    records of a solution set and [sublist] are defined in Spec_Csv.v. *)
From Coq Require Import Bool Arith ZArith QArith String Ascii List Lia.
From Verif Require Import Lib_List Model_Var Model_Opt Model_Sol Model_Csv Spec_Opt Spec_Sol Spec_Csv
  Proofs_Sol Proofs_SolDict Properties_Sol Proofs_Csv Proofs_DataFile.
From Verif Require Model_MOBO.
Import ListNotations.
Open Scope nat_scope.

(** ** C221 *)

(** All texts of a solution set can stand in a column: labels, names, components, counts, fitness. *)
Definition plain_set (show : val -> string) (show_f : option Q -> string) (show_n : Z -> string) (d : ascii) (h : heap) (s : sol) : Prop :=
  Forall (plain d) (labels h s) /\ Forall (Forall (fun v => plain d (show v))) (values h s) /\
  Forall (fun n => plain d (show_n n)) (Spec_Sol.evals h s) /\ Forall (Forall (fun f => plain d (show_f f))) (fits h s) /\
  Forall (plain d) (vn s) /\ Forall (plain d) (fnm s) /\ plain d "n_eval".

(** Writing a solution set replaces the file, and reading the file gives back the names and, in
    order, the label, components, number of evaluations and fitness of every solution.  Missing:
    texts that contain the delimiter or a newline. *)
Theorem C221_readable_partial : forall show show_f show_n h s d f, wf h s -> ~ flattened s -> d <> ascii_of_nat 10 ->
  plain_set show show_f show_n d h s ->
  exists t, to_csv show show_f show_n h s f (String d EmptyString) false true true true = SOk (Some t) /\
    exists rs, records d t = (EmptyString :: vn s ++ "n_eval"%string :: fnm s) :: rs /\ List.length rs = sN s /\
      forall i r, nth_error rs i = Some r -> is_record show show_f show_n h s i r.
Proof.
  intros show show_f show_n h s d f W F D [P1 [P2 [P3 [P4 [P5 [P6 P7]]]]]].
  destruct (table_ok show show_f show_n h s W F) as [rows [E [L R]]].
  unfold to_csv. rewrite E. cbn [sbind write_file]. eexists. split; [reflexivity|].
  exists rows. split; auto. rewrite <- text_app. apply text_records; auto.
  change ([head_row s true true] ++ rows)%list with (head_row s true true :: rows).
  constructor.
  - split; [discriminate|]. unfold head_row. simpl. constructor; [split; exact I|]. apply Forall_app. split; auto.
  - apply Forall_forall. intros r I. destruct (In_nth_error _ _ I) as [i N].
    destruct (R i r N) as [l [xs [n [fs [A [B [C [G ->]]]]]]]]. split; [discriminate|].
    rewrite Forall_forall in P1, P2, P3, P4.
    apply nth_error_In in A, B, C, G. constructor; [auto|]. apply Forall_app. split; [apply Forall_map, P2; auto|].
    constructor; [auto|]. apply Forall_map, P4; auto.
Qed.
Print Assumptions C221_readable_partial.

Definition show0 (v : val) : string := match v with VS s => s | VI z => if (z =? 1)%Z then "1" else "2" | _ => "3" end.
Definition show_n0 (z : Z) : string := "0".
Definition show_f0 (q : option Q) : string := match q with None => "nan" | Some _ => "1.5" end.
Example C221_ex : plain_set show0 show_f0 show_n0 ","%char (snd demo) (fst demo) /\ ~ flattened (fst demo) /\
  wf (snd demo) (fst demo) /\ ","%char <> ascii_of_nat 10 /\
  to_csv show0 show_f0 show_n0 (snd demo) (fst demo) None "," false true true true =
    SOk (Some (String.concat (String newline EmptyString)
      [",k,l,n_eval,f"; "0,1,a,0,1.5"; "1,2,b,0,1.5"; "2,2,c,0,1.5"; ""]))%string.
Proof.
  split.
  { vm_compute. repeat match goal with |- _ /\ _ => split | |- Forall _ _ => constructor | |- True => exact I | |- _ -> False => discriminate end. }
  split; [vm_compute; tauto|]. split; [exact demo_wf|]. split; [discriminate|]. vm_compute. reflexivity.
Qed.

(** Nothing is quoted: two different solution sets of the same two categorical variables give the
    same file, so no reader can tell them apart. *)
Theorem C221_quoting_refuted : forall show show_f show_n, (forall s, show (VS s) = s) ->
  exists h a b t, wf h a /\ wf h b /\ vn a = vn b /\ values h a <> values h b /\
    to_csv show show_f show_n h a None "," false true true true = SOk t /\
    to_csv show show_f show_n h b None "," false true true true = SOk t.
Proof.
  intros show show_f show_n S.
  pose (p := get_new (new empty_heap (XRows [[VS "u,v"; VS "w"]]) (FSeq [FS (Some 1%Q)]) (NScalar 0) INone (Some ["k"; "l"]) None 1)).
  pose (q := get_new (new (snd p) (XRows [[VS "u"; VS "v,w"]]) (FSeq [FS (Some 1%Q)]) (NScalar 0) INone (Some ["k"; "l"]) None 1)).
  exists (snd q), (fst p), (fst q). eexists. split; [demo_wf|]. split; [demo_wf|]. split; [reflexivity|]. split; [discriminate|].
  split.
  - lazy. rewrite !S. reflexivity.
  - lazy. rewrite !S. reflexivity.
Qed.
Print Assumptions C221_quoting_refuted.

(** A row of a set with several objectives cannot be written: ValueError. *)
Theorem C221_row_refuted : forall show show_f show_n f d ap hd ix, exists h s a, wf h s /\
  getitem h s (Rows (SInt 0)) = SOk (Sub a, h) /\ wf h a /\
  to_csv show show_f show_n h a f d ap hd ix true = SErr SValue.
Proof.
  intros. exists (snd demo2), (fst demo2). eexists. split; [exact demo2_wf|]. split; [vm_compute; reflexivity|].
  split; [demo_wf|]. destruct ix; reflexivity.
Qed.
Print Assumptions C221_row_refuted.

(** ** C222 *)

(** Writing a set and appending another one is writing their concatenation. *)
Theorem C222_append : forall show show_f show_n h a b d f hd, wf h a -> wf h b -> is_2d a -> is_2d b ->
  sdim a = sdim b -> nobj a = nobj b -> (forall x, In x (fnm a) <-> In x (fnm b)) ->
  (forall x, In x (vn a) <-> In x (vn b)) -> 1 <= sdim a -> 1 <= sN a + sN b ->
  exists s h' f1 f2, sadd h a b = SOk (s, h') /\
    to_csv show show_f show_n h a f d false hd true true = SOk f1 /\
    to_csv show show_f show_n h b f1 d true false true true = SOk f2 /\
    to_csv show show_f show_n h' s f d false hd true true = SOk f2.
Proof.
  intros show show_f show_n h a b d f hd WA WB DA DB ED EO EF EV D1 N1.
  assert (F : forall t, is_2d t -> ~ flattened t) by (intros t; unfold is_2d, flattened; destruct (xa t); tauto).
  destruct (C53_concatenation_partial h a b) as [s [h' [E [WS [DS [V [FI [EV' [L [VN _]]]]]]]]]]; auto.
  assert (FN : fnm s = fnm a).
  { unfold sadd in E. destruct (same_set (vn a) (vn b)), (same_set (fnm a) (fnm b)), (sdim a =? sdim b), (nobj a =? nobj b); try discriminate.
    cbn [sassert sbind] in E. unfold new in E.
    repeat match type of E with sbind ?x _ = _ => destruct x as [?|]; [cbn [sbind] in E|discriminate]
      | (let (_, _) := ?p in _) = _ => destruct p end.
    injection E as <- _. reflexivity. }
  destruct (table_ok show show_f show_n h a WA (F a DA)) as [ta [TA _]].
  destruct (table_ok show show_f show_n h b WB (F b DB)) as [tb [TB _]].
  pose proof (table_app show show_f show_n h a b h' s ta tb WA WB (F a DA) (F b DB) WS (F s DS) V FI EV' L TA TB) as TS.
  exists s, h'. unfold to_csv. rewrite TA, TB, TS. cbn [sbind].
  assert (H : head_row s true true = head_row a true true) by (unfold head_row; rewrite VN, FN; reflexivity).
  rewrite H. eexists. eexists. split; auto. split; [reflexivity|]. split; [reflexivity|].
  cbn [write_file]. rewrite text_app. do 2 f_equal. simpl. rewrite append_assoc. reflexivity.
Qed.
Print Assumptions C222_append.

Example C222_ex : wf (snd demo) (fst demo) /\ is_2d (fst demo) /\ 1 <= sdim (fst demo) /\ 1 <= sN (fst demo) + sN (fst demo).
Proof. split; [exact demo_wf|]. vm_compute. split; [exact I|]. split; lia. Qed.

(** ** C223 *)

(** If every tell returns, then the data file is what it held before followed by one line for
    every observation of the optimizer, in order.  Missing: histories with a tell that raises. *)
Theorem C223_complete_partial : forall (xv : Type) (cells : xv -> list string) str_f str_n c ks f s, exec c init ks = Some s ->
  fst (history cells str_f str_n c init f ks) = s /\
  contents (snd (history cells str_f str_n c init f ks)) =
    String.append (contents f) (text "," (map (fun r => rl r :: cells (rx r) ++ [str_n (rn r); str_f (rf r)]) (rows s))).
Proof.
  intros xv cells str_f str_n c ks f s H.
  destruct (history_ok cells str_f str_n c ks init f s H) as [new [E [R C]]]. split; auto. rewrite C, R. reflexivity.
Qed.
Print Assumptions C223_complete_partial.

(** So with a fresh file the file can be read back into the observations. *)
Theorem C223_readable_partial : forall (xv : Type) (cells : xv -> list string) str_f str_n c ks s, exec c init ks = Some s ->
  Forall (fun r => Forall (plain ",") (rl r :: cells (rx r) ++ [str_n (rn r); str_f (rf r)])) (rows s) ->
  records "," (contents (snd (history cells str_f str_n c init None ks))) =
    map (fun r => rl r :: cells (rx r) ++ [str_n (rn r); str_f (rf r)]) (rows s).
Proof.
  intros xv cells str_f str_n c ks s H P.
  destruct (C223_complete_partial xv cells str_f str_n c ks None s H) as [_ C]. rewrite C. simpl.
  apply text_records; [discriminate|]. apply Forall_map. eapply Forall_impl; [|exact P]. intros r K. split; [discriminate|exact K].
Qed.
Print Assumptions C223_readable_partial.

Definition cells0 (b : bool) : list string := [if b then "x"%string else "y"%string].
Definition str_f0 (f : fval) : string := match f with FNum q => if Qeq_bool q 1 then "1.0" else "2.0" | _ => "nan" end.
Definition cfg0 := mkCfg true (Some 10) None EList.
Definition good_calls : list (call bool) :=
  [mkCall [true; false] [FNum 1; FNan] None false (true, None); mkCall [false] [FNum 2] (Some ["p"%string]) false (true, None)].
Example C223_ex : exists s, exec cfg0 init good_calls = Some s /\ List.length (rows s) = 2 /\
  records "," (contents (snd (history cells0 str_f0 str_nat cfg0 init None good_calls))) =
    [["0"; "x"; "2"; "1.0"]; ["p"; "y"; "2"; "2.0"]]%string.
Proof. eexists. split; [vm_compute; reflexivity|]. split; vm_compute; reflexivity. Qed.

(** A tell that raises leaves its observations in the optimizer but not in the file, and a later
    tell does not make up for it: after six equal values (FlatFitnessError) and a seventh
    observation the file has one line. *)
Definition flat_calls : list (call bool) :=
  [mkCall (repeat true 6) (repeat (FNum 1) 6) None false (true, None); mkCall [false] [FNum 2] None false (true, None)].
Theorem C223_complete_refuted : exists c (ks : list (call bool)),
  let r := history cells0 str_f0 str_nat c init None ks in
  List.length (rows (fst r)) = 7 /\ records "," (contents (snd r)) = [["0"; "y"; "2"; "2.0"]]%string.
Proof. exists cfg0, flat_calls. vm_compute. split; reflexivity. Qed.
Print Assumptions C223_complete_refuted.

(** The file of an earlier run is not replaced: its lines stay in front. *)
Theorem C223_fresh_refuted : exists c (ks : list (call bool)) s,
  let f1 := snd (history cells0 str_f0 str_nat c init None ks) in
  let r := history cells0 str_f0 str_nat c init f1 ks in
  exec c init ks = Some s /\ List.length (rows (fst r)) = 2 /\ List.length (records "," (contents (snd r))) = 4.
Proof. exists cfg0, good_calls. eexists. split; [vm_compute; reflexivity|]. vm_compute. split; reflexivity. Qed.
Print Assumptions C223_fresh_refuted.

(** ** C224 *)

(** Whatever happens: the old contents are kept, and what is added are lines of observations the
    optimizer holds, in their order and each at most once. *)
Theorem C224_sound : forall (xv : Type) (cells : xv -> list string) str_f str_n c ks f,
  let r := history cells str_f str_n c init f ks in
  fst r = exec_any c init ks /\
  exists L, sublist L (rows (fst r)) /\
    contents (snd r) = String.append (contents f) (text "," (map (fun r => rl r :: cells (rx r) ++ [str_n (rn r); str_f (rf r)]) L)).
Proof.
  intros xv cells str_f str_n c ks f. cbv zeta. split; [apply history_state|].
  destruct (history_any cells str_f str_n c ks init f) as [new [L [R [S C]]]]. exists L. rewrite R. auto.
Qed.
Print Assumptions C224_sound.

Example C224_ex : let r := history cells0 str_f0 str_nat cfg0 init (Some "old"%string) flat_calls in
  snd r = Some (String.append "old0,y,2,2.0" (String newline EmptyString)).
Proof. vm_compute. reflexivity. Qed.

(** ** C225 *)

(** The multi-objective optimizer: after any history of calls, also with calls that raise, the
    file has one line for every observation of the optimizer, in order. *)
Theorem C225_complete : forall (X : Type) (cells : X -> list string) str_f count n_obj cs f,
  let r := mo_history cells str_f count n_obj Model_MOBO.mstart f cs in
  fst r = Model_MOBO.run_calls n_obj cs /\
  exists L, Forall2 (describes cells str_f count) L (Model_MOBO.data (fst r)) /\
    contents (snd r) = String.append (contents f) (text "," L).
Proof.
  intros X cells str_f count n_obj cs f. cbv zeta. split.
  - unfold Model_MOBO.run_calls. generalize (@Model_MOBO.mstart X). revert f. induction cs as [|c cs IH]; intros f s; [reflexivity|].
    cbn [mo_history fold_left]. apply IH.
  - destruct (mo_history_ok cells str_f count n_obj cs Model_MOBO.mstart f) as [new [L [D [F C]]]]. exists L.
    change (Model_MOBO.data Model_MOBO.mstart) with (@nil (Model_MOBO.row X)) in D. simpl in D. rewrite D. auto.
Qed.
Print Assumptions C225_complete.

Example C225_ex : let c := Model_MOBO.Call false [true; false] [[Model_MOBO.Fin 1; Model_MOBO.Fin 2]; [Model_MOBO.Fin 2; Model_MOBO.Fin 1]] false in
  let r := mo_history cells0 (fun f => match f with Model_MOBO.Fin q => if Qeq_bool q 1 then "1.0" else "2.0" | _ => "nan" end)%string "2" 2
    Model_MOBO.mstart None [c] in
  List.length (Model_MOBO.data (fst r)) = 2 /\
  records "," (contents (snd r)) = [["0"; "x"; "2"; "1.0"; "2.0"]; ["1"; "y"; "2"; "2.0"; "1.0"]]%string.
Proof. vm_compute. split; reflexivity. Qed.
