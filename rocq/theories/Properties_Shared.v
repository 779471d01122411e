(** Property C69: optimizers do not influence each other. *)
From Coq Require Import Bool Arith QArith Lia String List.
From Verif Require Import Model_Shared.
Import ListNotations.
Open Scope nat_scope.

(** C69, full statement (refuted): creating or running one optimizer does not change the
    acquisition parameters of another one.  (a) creating a second optimizer changes t of the first;
    (b) running it changes it again; (c) an optimizer created after one that uses UCB gets a
    parameter that its acquisition function does not have. *)
Theorem C69_shared_default_refuted :
  (exists o o' h h', parallel import MGFI Default 1 = (h, o) /\ annealing h MGFI Default 1 3 = (h', o') /\ o <> o' /\
     parameters h o = Some [("t"%string, 2%Q)] /\ parameters h' o = Some [("t"%string, 3%Q)] /\
     parameters (adapt h' o' (1#2)) o = Some [("t"%string, 1#2)]) /\
  (exists o h h' o', parallel import UCB Default (1#2) = (h, o) /\ parallel h MGFI Default 1 = (h', o') /\
     parameters h' o' = Some [("t"%string, 2%Q); ("alpha"%string, 1#2)]).
Proof.
  split.
  - do 4 eexists. split; [reflexivity|]. split; [reflexivity|]. split; [discriminate|]. repeat split; reflexivity.
  - do 4 eexists. split; [reflexivity|]. split; [reflexivity|]. reflexivity.
Qed.
Print Assumptions C69_shared_default_refuted.

(** The address of an optimizer's dictionary is used by an action. *)
Definition touches (h : heap) (a : nat) (x : action) : Prop :=
  match x with
  | AParallel _ Default _ | AAnnealing _ Default _ _ => a = 0
  | AParallel _ (Given b) _ | AAnnealing _ (Given b) _ _ => a = b
  | AParallel _ (Literal _) _ | AAnnealing _ (Literal _) _ _ => False
  | AAdapt o _ => nth_error (opts h) o = Some a
  end.
Fixpoint untouched (h : heap) (a : nat) (xs : list action) : Prop :=
  match xs with [] => True | x :: xs => ~ touches h a x /\ untouched (act h x) a xs end.

Lemma put_other h a d b : b <> a -> cell (put h a d) b = cell h b.
Proof. intros H. cbn. apply Nat.eqb_neq in H. now rewrite H. Qed.

Lemma bind_other h p h' a' a : bind_par h p = (h', a') -> a < next h -> a <> match p with Default => 0 | Given b => b | Literal _ => next h end ->
  cell h' a = cell h a /\ a <> a' /\ next h <= next h' /\ opts h' = opts h.
Proof.
  intros E L N. destruct p as [|b|d]; cbn in E.
  - injection E as <- <-. auto.
  - destruct (match cell h b with [] => true | _ => false end); injection E as <- <-; cbn; auto.
    assert (H : a <> next h) by lia. apply Nat.eqb_neq in H. rewrite H. repeat split; auto. apply Nat.eqb_neq in H. exact H.
  - injection E as <- <-. cbn. apply Nat.eqb_neq in N. rewrite N. apply Nat.eqb_neq in N. auto.
Qed.

Lemma parallel_other h f p dv h' o a : parallel h f p dv = (h', o) -> a < next h ->
  a <> match p with Default => 0 | Given b => b | Literal _ => next h end ->
  cell h' a = cell h a /\ next h <= next h' /\ o = length (opts h) /\ exists a', opts h' = opts h ++ [a'] /\ a' <> a.
Proof.
  intros E L N. unfold parallel in E. destruct (bind_par h p) as [h1 a1] eqn:Eb.
  destruct (bind_other _ _ _ _ _ Eb L N) as (A & B & C & G).
  injection E as <- <-. cbn.
  assert (X : forall b : bool, cell (if b then h1 else put h1 a1 (dset (cell h1 a1) (par_name f) dv)) a = cell h a).
  { intros []; auto. rewrite put_other; auto. }
  assert (Y : forall b : bool, next (if b then h1 else put h1 a1 (dset (cell h1 a1) (par_name f) dv)) = next h1) by (intros []; reflexivity).
  assert (Z : forall b : bool, opts (if b then h1 else put h1 a1 (dset (cell h1 a1) (par_name f) dv)) = opts h1) by (intros []; reflexivity).
  rewrite X, Y, Z, G. repeat split; auto. exists a1. auto.
Qed.

Lemma act_other h x a : a < next h -> ~ touches h a x -> cell (act h x) a = cell h a /\ a < next (act h x).
Proof.
  intros L N. destruct x as [f p dv|f p dv t0|o v]; cbn [act].
  - destruct (parallel h f p dv) as [h' o] eqn:E. destruct (parallel_other _ _ _ _ _ _ a E L) as (A & B & _); [destruct p; cbn in N; lia|].
    cbn [fst]. split; [exact A|lia].
  - unfold annealing. destruct (parallel h f p dv) as [h' o] eqn:E.
    destruct (parallel_other _ _ _ _ _ _ a E L) as (A & B & Eo & a' & G & H); [destruct p; cbn in N; lia|]. cbn [fst].
    rewrite G, Eo, app_nth2, Nat.sub_diag by lia. cbn [nth]. rewrite put_other by auto. split; [exact A|]. cbn. lia.
  - unfold adapt. cbn in N. destruct (nth_error (opts h) o) as [a'|] eqn:E; [|auto]. rewrite put_other by congruence. auto.
Qed.

Lemma opts_grow h x o a : nth_error (opts h) o = Some a -> nth_error (opts (act h x)) o = Some a.
Proof.
  intros H. assert (P : forall f p dv h' o', parallel h f p dv = (h', o') -> nth_error (opts h') o = Some a).
  { intros f p dv h' o' E. unfold parallel in E. destruct (bind_par h p) as [h1 a1] eqn:Eb. injection E as <- _. cbn.
    assert (opts h1 = opts h) as X.
    { destruct p as [|b|d]; cbn in Eb; [|destruct (match cell h b with [] => true | _ => false end)|]; injection Eb as <- _; reflexivity. }
    assert (Z : forall b : bool, opts (if b then h1 else put h1 a1 (dset (cell h1 a1) (par_name f) dv)) = opts h1) by (intros []; reflexivity).
    rewrite Z, X. rewrite nth_error_app1; auto. apply nth_error_Some. congruence. }
  destruct x as [f p dv|f p dv t0|o' v]; cbn [act].
  - destruct (parallel h f p dv) as [h' o'] eqn:E. exact (P _ _ _ _ _ E).
  - unfold annealing. destruct (parallel h f p dv) as [h' o'] eqn:E. cbn. exact (P _ _ _ _ _ E).
  - unfold adapt. destruct (nth_error (opts h) o'); exact H.
Qed.

(** What does hold: an optimizer keeps its parameters through any sequence of actions that create
    or run optimizers with other dictionaries; in particular if it was created with a dictionary
    literal of its own. *)
Theorem C69_own_dictionary_partial :
  forall xs h o a, nth_error (opts h) o = Some a -> a < next h -> untouched h a xs ->
    parameters (fold_left act xs h) o = parameters h o.
Proof.
  induction xs as [|x xs IH]; intros h o a Ho L U; [reflexivity|]. destruct U as [N U]. cbn [fold_left].
  destruct (act_other h x a L N) as [E L']. rewrite (IH _ o a (opts_grow _ _ _ _ Ho) L' U).
  unfold parameters. rewrite Ho, (opts_grow _ _ _ _ Ho). cbn. now rewrite E.
Qed.
Print Assumptions C69_own_dictionary_partial.

(** C69, the parameters themselves: adapting optimizer o sets its t and keeps its other parameters, and creating an
    annealing optimizer starts with t0. *)
Lemma dset_same d k v : dget (dset d k v) k = Some v.
Proof.
  unfold dget. induction d as [|[k' v'] d IH]; cbn; [now rewrite String.eqb_refl|].
  destruct (String.eqb k' k) eqn:E; cbn; [now rewrite String.eqb_refl|]. now rewrite E.
Qed.
Lemma dset_other d k v k' : k' <> k -> dget (dset d k v) k' = dget d k'.
Proof.
  intros N. unfold dget. induction d as [|[a x] d IH]; cbn.
  - destruct (String.eqb_spec k k'); [congruence|reflexivity].
  - destruct (String.eqb_spec a k) as [->|M]; cbn.
    + destruct (String.eqb_spec k k'); [congruence|reflexivity].
    + destruct (String.eqb a k'); [reflexivity|exact IH].
Qed.
Theorem C69_adapt_own_parameter :
  forall h o v d, parameters h o = Some d ->
    exists d', parameters (adapt h o v) o = Some d' /\ dget d' "t" = Some v /\ forall k, k <> "t"%string -> dget d' k = dget d k.
Proof.
  intros h o v d H. unfold parameters in H. destruct (nth_error (opts h) o) as [a|] eqn:E; [|discriminate]. injection H as <-.
  exists (dset (cell h a) "t" v). unfold parameters, adapt. rewrite E. cbn. rewrite E. cbn. rewrite Nat.eqb_refl.
  split; [reflexivity|]. split; [apply dset_same|]. intros k N. now apply dset_other.
Qed.
Print Assumptions C69_adapt_own_parameter.
Theorem C69_annealing_start :
  forall h f d dv t0 h' o, annealing h f (Literal d) dv t0 = (h', o) ->
    exists d', parameters h' o = Some d' /\ dget d' "t" = Some t0 /\
      (forall k, k <> "t"%string -> k <> par_name f -> dget d' k = dget d k) /\
      (par_name f <> "t"%string -> dget d' (par_name f) = Some (match dget d (par_name f) with Some v => v | None => dv end)).
Proof.
  intros h f d dv t0 h' o H. unfold annealing, parallel, bind_par in H. cbn in H. rewrite Nat.eqb_refl in H.
  assert (EX : existsb (fun kv => String.eqb (fst kv) (par_name f)) d = match dget d (par_name f) with Some _ => true | None => false end).
  { unfold dget. clear. induction d as [|[k v] d IH]; cbn; [reflexivity|]. destruct (String.eqb k (par_name f)); [reflexivity|]. exact IH. }
  rewrite EX in H. clear EX.
  set (d1 := match dget d (par_name f) with Some _ => d | None => dset d (par_name f) dv end).
  exists (dset d1 "t" t0).
  assert (G : parameters h' o = Some (dset d1 "t" t0)).
  { unfold d1. destruct (dget d (par_name f)) as [v0|]; injection H as <- <-; unfold parameters; cbn;
    rewrite nth_error_app2, Nat.sub_diag by lia; cbn; rewrite app_nth2, Nat.sub_diag by lia; cbn; rewrite !Nat.eqb_refl; reflexivity. }
  split; [exact G|]. split; [apply dset_same|]. split.
  - intros k N1 N2. rewrite dset_other by assumption. unfold d1. destruct (dget d (par_name f)); [reflexivity|]. now apply dset_other.
  - intros N. rewrite dset_other by assumption. unfold d1. destruct (dget d (par_name f)) eqn:E; [exact E|]. apply dset_same.
Qed.
Print Assumptions C69_annealing_start.

Example own_case :
  let h := act import (AParallel MGFI (Literal [("t"%string, 5%Q)]) 1) in
  let xs := [AAnnealing MGFI Default 1 3; AAdapt 1 (1#2); AParallel UCB (Literal []) (1#2)] in
  nth_error (opts h) 0 = Some 1 /\ 1 < next h /\ untouched h 1 xs /\ parameters h 0 = Some [("t"%string, 5%Q)].
Proof. cbn. repeat split; try lia; try reflexivity; try discriminate. Qed.
