(** Lemmas about delimited text files (Model_Csv.v, Spec_Csv.v). *)
From Coq Require Import Bool Arith ZArith QArith String Ascii List Lia.
From Verif Require Import Lib_List Model_Var Model_Opt Model_Sol Model_Csv Spec_Sol Spec_Csv Proofs_Sol Proofs_SolOps Proofs_SolNew Proofs_SolDict.
Import ListNotations.
Open Scope nat_scope.

Lemma append_assoc (a b c : string) : String.append a (String.append b c) = String.append (String.append a b) c.
Proof. induction a; simpl; congruence. Qed.

Lemma append_nil_r (a : string) : String.append a EmptyString = a.
Proof. induction a; simpl; congruence. Qed.

Lemma free_split d s : free d s -> split d s = [s].
Proof.
  induction s as [|c s IH]; simpl; auto. intros [N F]. destruct (Ascii.eqb_spec c d); [congruence|]. rewrite IH; auto.
Qed.

Lemma split_app d a b : free d a -> split d (String.append a (String d b)) = a :: split d b.
Proof.
  induction a as [|c a IH]; simpl.
  - intros _. rewrite Ascii.eqb_refl. auto.
  - intros [N F]. destruct (Ascii.eqb_spec c d); [congruence|]. rewrite IH; auto.
Qed.

Lemma split_concat d cs : cs <> [] -> Forall (free d) cs -> split d (String.concat (String d EmptyString) cs) = cs.
Proof.
  induction cs as [|a cs IH]; [congruence|]. intros _ F. inversion F; subst. destruct cs as [|b cs].
  - simpl. apply free_split. auto.
  - change (String.concat (String d EmptyString) (a :: b :: cs))
      with (String.append a (String d (String.concat (String d EmptyString) (b :: cs)))).
    rewrite split_app, IH; auto. discriminate.
Qed.

Lemma free_append d a b : free d a -> free d b -> free d (String.append a b).
Proof. induction a; simpl; tauto. Qed.

Lemma free_concat d e cs : d <> e -> Forall (free e) cs -> free e (String.concat (String d EmptyString) cs).
Proof.
  intro N. induction cs as [|a cs IH]; simpl; auto. intro F. inversion F; subst. destruct cs as [|b cs]; auto.
  apply free_append; auto. split; auto.
Qed.

Lemma concat_cons a l : String.concat EmptyString (a :: l) = String.append a (String.concat EmptyString l).
Proof. destruct l; simpl; auto. symmetry. apply append_nil_r. Qed.

Lemma concat_app l m : String.concat EmptyString (l ++ m) = String.append (String.concat EmptyString l) (String.concat EmptyString m).
Proof. induction l as [|a l IH]; [reflexivity|]. rewrite <- app_comm_cons, !concat_cons, IH. apply append_assoc. Qed.

Lemma text_cons d r rows : text d (r :: rows) = String.append (String.concat d r) (String newline (text d rows)).
Proof.
  unfold text. rewrite map_cons, concat_cons, <- append_assoc. reflexivity.
Qed.

Lemma text_app d a b : text d (a ++ b) = String.append (text d a) (text d b).
Proof. unfold text. rewrite map_app. apply concat_app. Qed.

Lemma text_lines d rows : Forall (fun r => free newline (String.concat d r)) rows -> lines (text d rows) = map (String.concat d) rows.
Proof.
  intro F. unfold lines. change (ascii_of_nat 10) with newline.
  assert (E : split newline (text d rows) = (map (String.concat d) rows ++ [EmptyString])%list).
  { induction F as [|r rows H F IH]; [reflexivity|]. rewrite text_cons, split_app, IH; auto. }
  rewrite E. apply removelast_last.
Qed.

Lemma text_records d rows : d <> newline -> Forall (fun r => r <> [] /\ Forall (plain d) r) rows ->
  records d (text (String d EmptyString) rows) = rows.
Proof.
  intros N F. unfold records. rewrite text_lines.
  - rewrite map_map. rewrite <- (map_id rows) at 2. apply map_ext_in. intros r I. rewrite Forall_forall in F.
    destruct (F r I) as [E P]. apply split_concat; auto. eapply Forall_impl; [|exact P]. intros a [A _]. exact A.
  - eapply Forall_impl; [|exact F]. intros r [_ P]. apply free_concat; auto. eapply Forall_impl; [|exact P]. intros a [_ A]. exact A.
Qed.

(** ** The table *)
Lemma hcat_ok a b : List.length a = List.length b -> hcat a b = SOk (map (fun p => fst p ++ snd p)%list (combine a b)).
Proof. intro E. unfold hcat. rewrite E, Nat.eqb_refl. reflexivity. Qed.

Lemma hcat_nth a b c i r : hcat a b = SOk c -> nth_error c i = Some r ->
  exists x y, nth_error a i = Some x /\ nth_error b i = Some y /\ r = (x ++ y)%list.
Proof.
  unfold hcat. destruct (List.length a =? List.length b); [|discriminate]. intros [= <-].
  revert b i. induction a as [|x a IH]; intros b i.
  - destruct i; discriminate.
  - destruct b as [|y b]; [destruct i; discriminate|]. destruct i as [|i]; simpl.
    + intros [= <-]. eauto.
    + apply IH.
Qed.

Lemma hcat_length a b c : hcat a b = SOk c -> List.length c = List.length a /\ List.length a = List.length b.
Proof.
  unfold hcat. destruct (Nat.eqb_spec (List.length a) (List.length b)); [|discriminate]. intros [= <-].
  rewrite map_length, combine_length. lia.
Qed.

Section Table.
  Variable show : val -> string.
  Variable show_f : option Q -> string.
  Variable show_n : Z -> string.

  Lemma fit_columns_fits h s : wf h s -> ~ flattened s -> fit_columns show_f h s = map (map show_f) (fits h s).
  Proof.
    intros W F. destruct (fit_list_good _ _ W F) as [_ [_ E]]. unfold fit_columns. rewrite E, map_map. apply map_ext.
    intros [f|l]; reflexivity.
  Qed.

  Lemma table_ok h s : wf h s -> ~ flattened s ->
    exists rows, table show show_f show_n h s true true = SOk rows /\ List.length rows = sN s /\
      forall i r, nth_error rows i = Some r -> is_record show show_f show_n h s i r.
  Proof.
    intros W F. destruct (values_shape _ _ W) as [LV _]. pose proof (evals_length _ _ W) as LE.
    pose proof (labels_length _ _ W) as LL. destruct (fit_list_good _ _ W F) as [_ [LF EF]].
    unfold table. rewrite fit_columns_fits; auto. unfold column. cbn [sbind].
    unfold values, evals, labels in *.
    destruct (hcat (map (fun l => [l]) (i_list h s)) (map (map show) (row_list h s))) as [t1|] eqn:E1;
      [|unfold hcat in E1; rewrite !map_length, LL, LV, Nat.eqb_refl in E1; discriminate].
    cbn [sbind]. destruct (hcat_length _ _ _ E1) as [L1 _]. rewrite map_length in L1.
    destruct (hcat t1 (map (fun a => [show_n a]) (n_list h s))) as [t2|] eqn:E2;
      [|unfold hcat in E2; rewrite !map_length, L1, LL, LE, Nat.eqb_refl in E2; discriminate].
    cbn [sbind]. destruct (hcat_length _ _ _ E2) as [L2 _].
    destruct (hcat t2 (map (map show_f) (fits h s))) as [t3|] eqn:E3;
      [|unfold hcat in E3; rewrite EF, !map_length, LF, L2, L1, LL, Nat.eqb_refl in E3; discriminate].
    destruct (hcat_length _ _ _ E3) as [L3 _].
    exists t3. split; auto. split; [lia|]. intros i r H.
    destruct (hcat_nth _ _ _ _ _ E3 H) as [a [f [A [B ->]]]].
    destruct (hcat_nth _ _ _ _ _ E2 A) as [b [n [C [D ->]]]].
    destruct (hcat_nth _ _ _ _ _ E1 C) as [l [x [G [I ->]]]].
    rewrite nth_error_map in B, D, G, I.
    destruct (nth_error (fits h s) i) as [fs|] eqn:HF; [|discriminate].
    destruct (nth_error (n_list h s) i) as [z|] eqn:HN; [|discriminate].
    destruct (nth_error (i_list h s) i) as [u|] eqn:HL; [|discriminate].
    destruct (nth_error (row_list h s) i) as [xs|] eqn:HX; [|discriminate].
    cbn in B, D, G, I. injection B as <-. injection D as <-. injection G as <-. injection I as <-.
    exists u, xs, z, fs. unfold values, evals, labels. do 4 (split; [assumption|]).
    simpl. rewrite <- app_assoc. reflexivity.
  Qed.

  Lemma is_record_fun h s i r r' : is_record show show_f show_n h s i r -> is_record show show_f show_n h s i r' -> r = r'.
  Proof.
    intros [l [xs [n [fs [A [B [C [D ->]]]]]]]] [l' [xs' [n' [fs' [A' [B' [C' [D' ->]]]]]]]]. congruence.
  Qed.

  (** The table of a concatenation. *)
  Lemma table_app h a b h' s ta tb : wf h a -> wf h b -> ~ flattened a -> ~ flattened b -> wf h' s -> ~ flattened s ->
    values h' s = (values h a ++ values h b)%list -> fits h' s = (fits h a ++ fits h b)%list ->
    evals h' s = (evals h a ++ evals h b)%list -> labels h' s = (labels h a ++ labels h b)%list ->
    table show show_f show_n h a true true = SOk ta -> table show show_f show_n h b true true = SOk tb ->
    table show show_f show_n h' s true true = SOk (ta ++ tb).
  Proof.
    intros WA WB FA FB WS FS V F E L TA TB.
    destruct (table_ok _ _ WA FA) as [ra [EA [LA RA]]]. destruct (table_ok _ _ WB FB) as [rb [EB [LB RB]]].
    rewrite EA in TA. rewrite EB in TB. injection TA as ->. injection TB as ->.
    destruct (table_ok _ _ WS FS) as [rs [ES [LS RS]]]. rewrite ES. f_equal.
    destruct (values_shape _ _ WA) as [VA _]. destruct (values_shape _ _ WB) as [VB _]. destruct (values_shape _ _ WS) as [VS _].
    pose proof (evals_length _ _ WA) as EA'. pose proof (labels_length _ _ WA) as LA'.
    destruct (fit_list_good _ _ WA FA) as [_ [FA1 FA2]].
    assert (FAL : List.length (fits h a) = sN a) by (rewrite FA2, map_length; auto).
    assert (N : sN s = sN a + sN b) by (rewrite <- VS, V, app_length; lia).
    apply nth_error_ext. intro i.
    destruct (nth_error rs i) as [r|] eqn:Hr.
    - assert (I : i < sN s) by (rewrite <- LS; apply nth_error_Some; congruence).
      destruct (RS i r Hr) as [l [xs [n [fs [A [B [C [D R]]]]]]]]. rewrite V in B. rewrite F in D. rewrite E in C. rewrite L in A.
      destruct (Nat.lt_ge_cases i (sN a)) as [Q|Q].
      + rewrite nth_error_app1 in A, B, C, D by lia. rewrite nth_error_app1 by lia.
        destruct (nth_error ta i) as [t|] eqn:Ht; [|apply nth_error_None in Ht; lia].
        f_equal. apply (is_record_fun h a i); [|auto]. exists l, xs, n, fs. auto.
      + rewrite nth_error_app2 in A, B, C, D by lia. rewrite nth_error_app2 by lia.
        replace (i - List.length (labels h a)) with (i - sN a) in A by lia.
        replace (i - List.length (values h a)) with (i - sN a) in B by lia.
        replace (i - List.length (evals h a)) with (i - sN a) in C by lia.
        replace (i - List.length (fits h a)) with (i - sN a) in D by lia.
        replace (i - List.length ta) with (i - sN a) by lia.
        destruct (nth_error tb (i - sN a)) as [t|] eqn:Ht; [|apply nth_error_None in Ht; lia].
        f_equal. apply (is_record_fun h b (i - sN a)); [|auto]. exists l, xs, n, fs. auto.
    - symmetry. apply nth_error_None. apply nth_error_None in Hr. rewrite app_length. lia.
  Qed.
End Table.
