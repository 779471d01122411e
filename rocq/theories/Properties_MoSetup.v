(** C226-C229: constructing multi-objective optimizers, warm data, and the acquisition function. *)
From Coq Require Import Bool Arith ZArith QArith String List Lia.
From Verif Require Import Lib_List Model_Var Model_Opt Model_Sol Model_MoSetup Spec_Sol Proofs_Sol Proofs_SolNew.
Import ListNotations.
Open Scope nat_scope.
Open Scope string_scope.

(** ** C226 *)

(** What a user expects of a constructed optimizer: at least two objectives, one direction for each,
    and one for each objective function. *)
Definition consistent (f : fun_arg) (n : nat) (d : option (list bool)) : Prop :=
  2 <= n /\ (exists l, d = Some l /\ List.length l = n) /\
  match f with FunSeq l => List.length l = n /\ Forall (fun c => c = true) l | _ => True end.

(** With objective functions, and directions given as a bool or a sequence, the constructor
    accepts exactly the arguments that fit together, and what it builds is consistent; the
    directions are those given.  Missing: obj_fun = None and other values of minimize. *)
Theorem C226_consistent_partial : forall names n_obj fs m, m <> MinOther ->
  match construct names n_obj (FunSeq fs) m None with
  | MOk (n, d) => consistent (FunSeq fs) n d /\
      match m with MinBool b => d = Some (repeat b n) | MinSeq l => d = Some l | MinOther => False end
  | MErr _ => List.length fs < 2 \/ In false fs \/ match m with MinSeq l => List.length l <> List.length fs | _ => False end
  end.
Proof.
  intros names n_obj fs m M. unfold construct, warm_data, check_obj_fun.
  destruct (forallb (fun c => c) fs) eqn:F.
  2:{ right. left. assert (forallb (fun c => c) fs <> true) as N by congruence. clear M F. induction fs as [|[] fs IH]; simpl in *; [congruence| |left; auto].
      right. apply IH. exact N. }
  assert (A : Forall (fun c => c = true) fs).
  { apply Forall_forall. rewrite forallb_forall in F. exact F. }
  destruct (Nat.ltb_spec 1 (List.length fs)); [|left; lia].
  destruct m as [b| |l]; [|congruence|]; cbn [check_minimize].
  - split; [|reflexivity]. split; [lia|]. split; [|auto]. eexists. split; [reflexivity|]. apply repeat_length.
  - destruct (Nat.eqb_spec (List.length l) (List.length fs)); [|right; right; auto].
    split; [|reflexivity]. split; [lia|]. split; [|auto]. eexists. split; [reflexivity|]. auto.
Qed.
Print Assumptions C226_consistent_partial.

Example C226_ex : construct ["x"] 2 (FunSeq [true; true; true]) (MinSeq [true; false; true]) None = MOk (3, Some [true; false; true]) /\
  construct ["x"] 3 (FunSeq [true; true; true]) (MinSeq [true; false]) None = MErr MAssert.
Proof. split; reflexivity. Qed.

(** Without objective functions (the ask-and-tell interface) one objective, or none, is accepted;
    and a number or numpy bool as direction is accepted but does not give one per objective. *)
Theorem C226_consistent_refuted : forall names,
  construct names 1 FunNone (MinBool true) None = MOk (1, Some [true]) /\
  construct names 0 FunNone (MinBool true) None = MOk (0, Some []) /\
  construct names 2 (FunSeq [true; true]) MinOther None = MOk (2, None).
Proof. intro names. repeat split. Qed.
Print Assumptions C226_consistent_refuted.

(** A single function that is not in a sequence is rejected. *)
Theorem C226_single_partial : forall names n_obj m w, exists e, construct names n_obj FunSingle m w = MErr e.
Proof. intros. unfold construct. destruct (warm_data names w); simpl; eauto. Qed.
Print Assumptions C226_single_partial.

(** ** C227 *)

(** Warm data with two or more objective values for every point is never accepted: whatever the
    points and the other arguments, the constructor raises. *)
Theorem C227_warm_data_refuted : forall names n_obj f m X y, X <> [] -> List.length X = List.length y ->
  Forall (fun x => List.length x = List.length names) X -> Forall (fun v => 2 <= List.length v) y ->
  exists e, construct names n_obj f m (Some (X, y)) = MErr e.
Proof.
  intros names n_obj f m X y NX L FX FY. unfold construct, warm_data. rewrite L, Nat.eqb_refl.
  destruct (new _ _ _ _ _ _ _ 1) as [[s h]|e] eqn:E; [|eauto].
  assert (SH : fa s = A1 (seq 0 (List.length X))).
  { unfold new in E. destruct (x_array (XRows X)) as [[ax bx]|] eqn:EX; [|discriminate]. cbn [sbind] in E.
    assert (N : match ax with A1 _ => 1 | A2 rs _ => List.length rs end = List.length X).
    { destruct X as [|[|v t] rest]; try discriminate. unfold x_array in EX.
      destruct (forallb _ rest); [|discriminate]. injection EX as <- _. rewrite grid_length. reflexivity. }
    rewrite N in E. unfold check_fitness in E. cbn [Nat.ltb Nat.leb Nat.eqb sbind] in E.
    rewrite repeat_length, Nat.eqb_refl in E. cbn [sassert sbind] in E.
    destruct (sassert (List.length (map str_nat _) =? _)%nat); [cbn [sbind] in E|discriminate].
    destruct (sassert (List.length names =? _)%nat); [cbn [sbind] in E|discriminate]. cbn [sassert List.length Nat.eqb sbind] in E.
    unfold fl_array in E.
    assert (FB : forallb (fun i => match i with FS _ => true | FL _ => false end) (repeat (FS None) (List.length X)) = true).
    { apply forallb_forall. intros i I. apply repeat_spec in I. subst. reflexivity. }
    rewrite FB in E. cbn [sbind] in E. injection E as <- _. cbn [fa]. rewrite repeat_length. reflexivity. }
  unfold set_fitness. rewrite SH. unfold bcast1. rewrite seq_length.
  destruct y as [|v [|v2 y]].
  - destruct X; [congruence|discriminate].
  - inversion FY; subst. unfold bvec. destruct X as [|x [|]]; try discriminate. cbn [List.length].
    destruct v as [|a [|b v]]; cbn [List.length] in *; try lia. cbn [Nat.eqb sbind]. eauto.
  - cbn [sbind]. eauto.
Qed.
Print Assumptions C227_warm_data_refuted.

Example C227_ex : construct ["k"; "l"] 2 (FunSeq [true; true]) (MinBool true)
    (Some ([[VI 1; VS "a"]; [VI 2; VS "b"]], [[Some 1%Q; Some 2%Q]; [Some 3%Q; Some 4%Q]])) = MErr MValue /\
  construct ["k"; "l"] 2 (FunSeq [true; true]) (MinBool true) None = MOk (2, Some [true; true]).
Proof. split; vm_compute; reflexivity. Qed.

(** ** C228 *)

(** The documented optimizer for batches, MOBO_qEHVI: once a model is fitted every ask raises,
    for every number of points and whatever acquisition function was asked for.  So does MOBO for
    more than one point. *)
Theorem C228_batch_refuted : forall a n_point,
  (forall b, stored CqEHVI a = MOk b -> exists e, ask_criterion CqEHVI b true n_point = MErr e) /\
  (forall b, stored CMOBO a = MOk b -> 2 <= n_point -> ask_criterion CMOBO b true n_point = MErr MNotImplemented).
Proof.
  intros a n_point. split.
  - intros b H. unfold stored in H. destruct (set_acquisition a); [|discriminate]. injection H as <-.
    unfold ask_criterion, criterion. destruct (1 <? n_point)%nat; simpl; eauto.
  - intros b H N. unfold ask_criterion, criterion. destruct (Nat.ltb_spec 1 n_point); [reflexivity|lia].
Qed.
Print Assumptions C228_batch_refuted.

(** MOBO proposes one point with the expected hypervolume improvement, whatever acquisition function
    was asked for. *)
Theorem C228_single_partial : forall a b n_point, stored CMOBO a = MOk b -> n_point <= 1 ->
  ask_criterion CMOBO b true n_point = MOk (Some "EHVI").
Proof.
  intros a b n_point H N. unfold ask_criterion, criterion. destruct (Nat.ltb_spec 1 n_point); [lia|reflexivity].
Qed.
Print Assumptions C228_single_partial.

Example C228_ex : stored CqEHVI (AName "EI") = MOk (AName "qEHVI") /\ stored CMOBO (AName "EI") = MOk (AName "EHVI") /\
  ask_criterion CqEHVI (AName "qEHVI") false 3 = MOk None.
Proof. repeat split. Qed.

(** ** C229 *)

(** The five acquisition functions can be named, and the one named is the one used.  Missing: the
    constructor does not check the name. *)
Theorem C229_named_partial : forall s, In s ["UCB"; "EI"; "EpsilonPI"; "PI"; "MGFI"] ->
  exists b, stored CBO (AName s) = MOk b /\ ask_criterion CBO b true 1 = MOk (Some s).
Proof.
  intros s I. exists (AName s). split; [reflexivity|].
  repeat (destruct I as [<-|I]; [reflexivity|]). destruct I.
Qed.
Print Assumptions C229_named_partial.

(** Anything that is neither a name nor callable is rejected by the constructors. *)
Theorem C229_object_partial : forall c, exists e, stored c AObject = MErr e.
Proof. intros c. eexists. reflexivity. Qed.
Print Assumptions C229_object_partial.

(** MOBO and MOBO_qEHVI replace whatever was requested. *)
Theorem C229_multi_objective_refuted : forall a b,
  (stored CMOBO a = MOk b -> b = AName "EHVI" /\ ask_criterion CMOBO b true 1 = MOk (Some "EHVI")) /\ (stored CqEHVI a = MOk b -> b = AName "qEHVI").
Proof. intros a b. unfold stored. destruct (set_acquisition a); split; intros H; try discriminate; injection H as <-; auto. Qed.
Print Assumptions C229_multi_objective_refuted.

(** Any other name, and any callable, is accepted by the constructor, and the first ask after the
    initial design raises. *)
Theorem C229_checked_refuted : forall a,
  (a = ACallable \/ exists s, a = AName s /\ ~ In s ["UCB"; "EI"; "EpsilonPI"; "PI"; "MGFI"]) ->
  exists b, stored CBO a = MOk b /\ ask_criterion CBO b false 1 = MOk None /\ exists e, ask_criterion CBO b true 1 = MErr e.
Proof.
  intros a [->|[s [-> N]]].
  - exists ACallable. split; [reflexivity|]. split; [reflexivity|]. eexists. reflexivity.
  - exists (AName s). split; [reflexivity|]. split; [reflexivity|]. unfold ask_criterion, criterion, lookup_fun.
    cbn [Nat.ltb Nat.leb]. destruct (existsb (String.eqb s) known) eqn:E; [|eauto].
    apply existsb_exists in E. destruct E as [t [I Q]]. apply String.eqb_eq in Q. subst t. contradiction.
Qed.
Print Assumptions C229_checked_refuted.

Example C229_ex : ~ In "LogEI" ["UCB"; "EI"; "EpsilonPI"; "PI"; "MGFI"].
Proof. simpl. intuition discriminate. Qed.
