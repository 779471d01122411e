(** The data file along a history of tell calls (Model_Csv.v). *)
From Coq Require Import Bool Arith ZArith QArith String Ascii List Lia.
From Verif Require Import Lib_List Model_Var Model_Opt Model_Csv Spec_Opt Spec_Csv Proofs_Csv.
From Verif Require Model_MOBO.
Import ListNotations.
Open Scope nat_scope.

Lemma sublist_refl {A} (l : list A) : sublist l l.
Proof. induction l as [|a l IH]; [apply sub_nil|apply sub_keep; exact IH]. Qed.
Lemma sublist_nil {A} (l : list A) : sublist [] l.
Proof. induction l as [|a l IH]; [apply sub_nil|apply sub_skip; exact IH]. Qed.
Lemma sublist_app {A} (a b c d : list A) : sublist a b -> sublist c d -> sublist (a ++ c) (b ++ d).
Proof. induction 1; simpl; intro K; auto; [apply sub_skip|apply sub_keep]; auto. Qed.

Section Single.
  Context {xv : Type}.
  Variable cells : xv -> list string.
  Variable str_f : fval -> string.
  Variable str_n : nat -> string.
  Notation tell_file := (tell_file cells str_f str_n).
  Notation line := (line cells str_f str_n).

  (** What a call adds to the data, and what it adds to the file. *)
  Lemma tell_effect (c : cfg) (s : st xv) (k : call xv) :
    exists new, rows (snd (tell c s k)) = (rows s ++ new)%list /\
      match reported c s k with
      | Some X => new = X
      | None => fst (tell c s k) <> None
      end.
  Proof.
    unfold tell, reported. destruct (to_geno (emode c) (c_X k) (c_idx k)) as [X|e].
    2:{ exists []. rewrite app_nil_r. split; [reflexivity|discriminate]. }
    destruct (assign X (c_f k)) as [X1|].
    2:{ exists []. rewrite app_nil_r. split; [destruct (c_warm k); reflexivity|discriminate]. }
    set (X2 := post_eval_check X1).
    set (s1 := if c_warm k then s else add_evals s (List.length X1)).
    assert (D : data s1 = data s) by (unfold s1; destruct (c_warm k); reflexivity).
    assert (FT : fitted s1 = fitted s) by (unfold s1; destruct (c_warm k); reflexivity).
    rewrite D. set (d := match data s with Some d0 => (d0 ++ X2)%list | None => X2 end).
    assert (Rd : d = (rows s ++ X2)%list) by (unfold d, rows; destruct (data s); reflexivity).
    assert (R1 : rows s1 = rows s) by (unfold rows; rewrite D; reflexivity).
    clearbody X2 s1 d.
    destruct (data s) as [[|r0 d0]|] eqn:DS; [destruct X2 as [|x2 X2]| |].
    { exists []. rewrite app_nil_r. split; [exact R1|discriminate]. }
    all: change (fitted (set_data s1 d)) with (fitted s1); rewrite FT.
    all: destruct (update_model d (fitted s) (c_fit k)) as [fi er]; cbn [snd]; destruct er as [e|].
    all: try (eexists; split; [exact Rd|discriminate]).
    all: match goal with |- context [xopt ?cc ?z] => destruct (xopt cc z) as [[r|]|e] end.
    all: eexists; (split; [|reflexivity]); try exact Rd; destruct (c_warm k); exact Rd.
  Qed.

  Lemma write_contents f s : contents (write_file f true s) = String.append (contents f) s.
  Proof. destruct f; reflexivity. Qed.

  Notation history := (history cells str_f str_n).

  Lemma history_state c s f ks : fst (history c s f ks) = exec_any c s ks.
  Proof.
    revert s f. induction ks as [|k ks IH]; intros s f; [reflexivity|].
    cbn [history]. unfold Model_Csv.tell_file. destruct (tell c s k) as [o s'] eqn:E. rewrite IH. unfold exec_any. cbn [fold_left]. rewrite E. reflexivity.
  Qed.

  Lemma history_any c ks : forall s f, exists new L,
    rows (fst (history c s f ks)) = (rows s ++ new)%list /\ sublist L new /\
    contents (snd (history c s f ks)) = String.append (contents f) (text "," (map line L)).
  Proof.
    induction ks as [|k ks IH]; intros s f.
    - exists [], []. cbn [history fst snd map]. rewrite app_nil_r. split; auto. split; [constructor|]. symmetry. apply append_nil_r.
    - cbn [history]. destruct (tell_effect c s k) as [n1 [R1 E1]]. unfold Model_Csv.tell_file.
      destruct (tell c s k) as [o s'] eqn:T. cbn [fst snd] in *.
      match goal with |- context [history c s' ?g ks] => destruct (IH s' g) as [n2 [L2 [R2 [S2 C2]]]] end.
      exists (n1 ++ n2)%list. destruct (reported c s k) as [X|].
      + exists (X ++ L2)%list. split; [rewrite R2, R1, app_assoc; auto|]. split; [apply sublist_app; auto; subst; apply sublist_refl|].
        rewrite C2, write_contents, map_app, text_app. apply eq_sym, append_assoc.
      + exists L2. split; [rewrite R2, R1, app_assoc; auto|].
        split; [apply (sublist_app [] n1 L2 n2); auto; apply sublist_nil|]. exact C2.
  Qed.

  Lemma history_ok c ks : forall s f s', exec c s ks = Some s' ->
    exists new, fst (history c s f ks) = s' /\ rows s' = (rows s ++ new)%list /\
      contents (snd (history c s f ks)) = String.append (contents f) (text "," (map line new)).
  Proof.
    induction ks as [|k ks IH]; intros s f s' H.
    - injection H as <-. exists []. rewrite app_nil_r. split; auto. split; auto. symmetry. apply append_nil_r.
    - cbn [exec] in H. cbn [history]. destruct (tell_effect c s k) as [n1 [R1 E1]]. unfold Model_Csv.tell_file.
      destruct (tell c s k) as [[o|] s1] eqn:T; [discriminate|]. cbn [fst snd] in *.
      destruct (reported c s k) as [X|]; [|congruence]. subst n1.
      match goal with |- context [history c s1 ?g ks] => destruct (IH s1 g s' H) as [n2 [F2 [R2 C2]]] end.
      exists (X ++ n2)%list. split; auto. split; [rewrite R2, R1, app_assoc; auto|].
      rewrite C2, write_contents, map_app, text_app. apply eq_sym, append_assoc.
  Qed.
End Single.

Section Multi.
  Context {X : Type}.
  Variable cells : X -> list string.
  Variable str_f : Model_MOBO.fval -> string.
  Variable count : string.

  Notation mo_history := (mo_history cells str_f count).
  Notation describes := (describes cells str_f count).

  Lemma mo_lines_describe rows : Forall2 describes (mo_lines cells str_f count rows) rows.
  Proof.
    unfold mo_lines. generalize 0. induction rows as [|r rows IH]; intro k; simpl; constructor; auto.
    eexists. reflexivity.
  Qed.

  Lemma mo_tell_effect n_obj s c :
    let s' := Model_MOBO.state_of (fst (mo_tell_file cells str_f count n_obj s None c)) in
    exists new, Model_MOBO.data s' = (Model_MOBO.data s ++ new)%list /\
      forall f, contents (snd (mo_tell_file cells str_f count n_obj s f c)) = String.append (contents f) (text "," (mo_lines cells str_f count new)).
  Proof.
    unfold mo_tell_file, Model_MOBO.tell. cbn [fst snd].
    destruct (Model_MOBO.tell_rows n_obj (Model_MOBO.c_warm c) (Model_MOBO.c_xs c) (Model_MOBO.c_F c) (Model_MOBO.eval_count s)) as [n [rows|]].
    2:{ exists []. rewrite app_nil_r. split; auto. intro f. symmetry. apply append_nil_r. }
    destruct (existsb _ rows).
    { exists []. rewrite app_nil_r. split; auto. intro f. symmetry. apply append_nil_r. }
    exists rows. split.
    - destruct (Model_MOBO.c_fits c); [destruct (Model_MOBO.c_warm c)|]; reflexivity.
    - intro f. apply write_contents.
  Qed.

  Lemma mo_history_ok n_obj cs : forall s f, exists new L,
    Model_MOBO.data (fst (mo_history n_obj s f cs)) = (Model_MOBO.data s ++ new)%list /\ Forall2 describes L new /\
    contents (snd (mo_history n_obj s f cs)) = String.append (contents f) (text "," L).
  Proof.
    induction cs as [|c cs IH]; intros s f.
    - exists [], []. rewrite app_nil_r. split; auto. split; [constructor|]. symmetry. apply append_nil_r.
    - cbn [mo_history]. destruct (mo_tell_effect n_obj s c) as [n1 [D1 C1]]. specialize (C1 f).
      unfold mo_tell_file in D1. cbn [fst] in D1. unfold mo_tell_file in C1 |- *. cbn [snd] in C1.
      match goal with |- context [mo_history n_obj ?s1 ?g cs] => destruct (IH s1 g) as [n2 [L2 [D2 [F2 C2]]]] end.
      exists (n1 ++ n2)%list, (mo_lines cells str_f count n1 ++ L2)%list.
      split; [rewrite D2, D1, app_assoc; auto|]. split; [apply Forall2_app; auto; apply mo_lines_describe|].
      rewrite C2, C1, text_app. apply eq_sym, append_assoc.
  Qed.
End Multi.
