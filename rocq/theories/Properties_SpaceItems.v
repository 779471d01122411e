(** Property C266: items of a dictionary that describe no variable. *)
From Coq Require Import List Bool Arith ZArith QArith String Lia.
From Verif Require Import Model_Var Model_Opt Model_Space Model_SpaceDict.
Import ListNotations.
Open Scope nat_scope.

(** A real or integer item for one variable or more whose lower bound is not below its upper bound, or whose step is zero. *)
Definition wrong_item (e : entry) : Prop :=
  eN e <> Some 0 /\ exists t a b, etype e = TStr t /\ erange e = Some [a; b] /\
    ((In t ["r"; "real"]%string /\ exists lb ub, as_num a = Some lb /\ as_num b = Some ub /\ (ub <= lb)%Q) \/
     (In t ["i"; "int"; "integer"]%string /\ exists lb ub, a = VI lb /\ b = VI ub /\ ((ub <= lb)%Z \/ estep e = Some 0%Z))).

(** C266 refuted: such an item is not refused, the space is silently built without it. *)
Theorem C266_invalid_refuted :
  forall adj es e es', wrong_item e -> edefault e = false -> from_dict adj (es ++ e :: es') = from_dict adj (es ++ es').
Proof.
  intros adj es e es' (HN & t & a & b & T & R & W) D.
  assert (C : exists n, count_of e = S n) by (unfold count_of; destruct (eN e) as [[|n]|]; [congruence|eauto|eauto]). destruct C as [n C].
  assert (F : make adj e = Fail).
  { destruct W as [(It & lb & ub & A1 & A2 & L)|(It & lb & ub & -> & -> & L)].
    - assert (MR : make_real adj e = None).
      { unfold make_real, bounds_of. rewrite R, A1, A2. replace (Qle_bool ub lb) with true by (symmetry; now apply Qle_bool_iff). reflexivity. }
      unfold make. rewrite T, MR, C. destruct It as [<-|[<-|[]]]; reflexivity.
    - assert (MI : make_int e (step_of e) = None).
      { unfold make_int, bounds_of, step_of. rewrite R. cbn [dedup existsb]. assert (DD : dedup [VI lb; VI ub] = [VI lb; VI ub] \/ dedup [VI lb; VI ub] = [VI lb] \/ dedup [VI lb; VI ub] = [VI ub]).
        { cbn. repeat match goal with |- context [if ?c then _ else _] => destruct c; cbn end; auto. }
        destruct DD as [->|[->| ->]]; try reflexivity. destruct L as [L| ->].
        - replace (lb <? ub)%Z with false by (symmetry; apply Z.ltb_ge; exact L). reflexivity.
        - cbn. now rewrite andb_false_r. }
      unfold make. rewrite T. unfold all_steps. rewrite C. cbn [make_ints]. rewrite MI. destruct It as [<-|[<-|[<-|[]]]]; reflexivity. }
  unfold from_dict. f_equal. generalize (@nil vobj) as h, (@nil ref) as acc, (@None (list ref)) as prev. induction es as [|x es IH]; intros h acc prev.
  - cbn [app from_items]. rewrite R, D, F. reflexivity.
  - cbn [app from_items]. destruct (erange x) as [[|]|]; [reflexivity| |]; destruct (edefault x); try reflexivity; destruct (make adj x); apply IH.
Qed.
Print Assumptions C266_invalid_refuted.

(** The part that holds: an empty range is refused. *)
Theorem C266_empty_range_partial :
  forall adj es e, In e es -> erange e = Some [] -> from_dict adj es = None.
Proof.
  intros adj es e HI R. unfold from_dict. assert (G : forall h acc prev, from_items adj h acc prev es = None); [|now rewrite G].
  induction es as [|x es IH]; intros h acc prev; [destruct HI|]. cbn [from_items]. destruct HI as [->|HI]; [now rewrite R|].
  destruct (erange x) as [[|]|]; [reflexivity| |]; destruct (edefault x); try reflexivity; destruct (make adj x); apply IH; exact HI.
Qed.
Print Assumptions C266_empty_range_partial.

Example C266_case :
  let e := mkE "x" (Some [VI 5; VI 2]) (TStr "int") None false None None None in let g := mkE "y" (Some [VI 0; VI 9]) (TStr "int") None false None None None in
  wrong_item e /\ option_map (fun p => map vn (variables (fst p) (snd p))) (from_dict (fun _ b => b) [e; g]) = Some ["y"%string].
Proof.
  cbv zeta. split; [|vm_compute; reflexivity]. split; [discriminate|]. exists "int"%string, (VI 5), (VI 2). split; [reflexivity|]. split; [reflexivity|]. right.
  split; [simpl; tauto|]. exists 5%Z, 2%Z. split; [reflexivity|]. split; [reflexivity|]. left. lia.
Qed.
