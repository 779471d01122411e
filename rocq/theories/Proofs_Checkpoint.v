(** Invariant of save. *)
From Coq Require Import List Bool Arith.
From Verif Require Import Model_Checkpoint.
Import ListNotations.

Section Inv.
  Context {D Lg K F W : Type}.
  Notation obj := (obj D Lg K F W).
  Notation bytes := (list nat).
  Variable dumps : dval D -> option bytes.
  Variable loads : bytes -> option (dval D).
  Variable dumpL : Lg -> option bytes.
  Variable pickle : obj -> bytes * bool.
  Variables can_mkdir can_open : bool.
  Notation step := (step D Lg K F W dumps loads dumpL pickle can_mkdir can_open).
  Notation steps := (steps D Lg K F W dumps loads dumpL pickle can_mkdir can_open).
  Notation saving := (saving D Lg K F W dumps loads dumpL pickle can_mkdir can_open).
  Notation dump_log := (dump_log Lg dumpL).

  Definition stage1 (o o1 : obj) :=
    (odata o = None /\ o1 = o) \/ exists v p, odata o = Some v /\ dumps v = Some p /\ o1 = with_data o (Some (DBytes p)).
  Definition stage2 (o1 o2 : obj) := exists p, dump_log (olog o1) = Some p /\ o2 = with_log o1 (LBytes p).
  Definition stage3 (o1 o3 : obj) :=
    (odata o1 = None /\ o3 = o1) \/ exists p v, odata o1 = Some (DBytes p) /\ loads p = Some v /\ o3 = with_data o1 (Some v).
  Definition staged (o o2 : obj) := exists o1, stage1 o o1 /\ stage2 o1 o2.

  (** the bytes written so far *)
  Definition content (s : sys D Lg K F W) (x : bytes) := exists d, disk s = Some d /\ x = d ++ buf s.

  Definition Inv (o : obj) (d0 : option bytes) (s : sys D Lg K F W) : Prop :=
    match at_ s with
    | Start | MadeDir => mem s = o /\ disk s = d0 /\ buf s = []
    | Opened => mem s = o /\ content s []
    | DataDumped => stage1 o (mem s) /\ content s []
    | LoggerDumped l => l = olog o /\ staged o (mem s) /\ content s []
    | Writing l todo ok => l = olog o /\ staged o (mem s) /\ exists x, content s x /\ pickle (mem s) = (x ++ todo, ok)
    | Dumped l => l = olog o /\ staged o (mem s) /\ exists x, content s x /\ pickle (mem s) = (x, true)
    | LoggerBack => stage1 o (mem s) /\ exists x o2, content s x /\ staged o o2 /\ pickle o2 = (x, true)
    | DataBack => exists o1 x o2, stage1 o o1 /\ stage3 o1 (mem s) /\ content s x /\ staged o o2 /\ pickle o2 = (x, true)
    | Done => exists o1 x o2, stage1 o o1 /\ stage3 o1 (mem s) /\ disk s = Some x /\ buf s = [] /\ staged o o2 /\ pickle o2 = (x, true)
    | Raising | Failed =>
        (mem s = o /\ disk s = d0 /\ buf s = [] /\ at_ s = Failed)
        \/ (mem s = o /\ content s [] /\ exists v, odata o = Some v /\ dumps v = None)
        \/ (stage1 o (mem s) /\ content s [] /\ dump_log (olog o) = None)
        \/ (staged o (mem s) /\ exists x, content s x /\ pickle (mem s) = (x, false))
        \/ (stage1 o (mem s) /\ (exists p, odata (mem s) = Some (DBytes p) /\ loads p = None) /\
            exists x o2, content s x /\ staged o o2 /\ pickle o2 = (x, true))
    end.

  Lemma content_flush q (o : obj) d b1 b2 x : content (Sys q o (Some d) (b1 ++ b2)) x -> content (Sys q o (Some (d ++ b1)) b2) x.
  Proof. intros (d' & H & ->). cbn in *. injection H as <-. exists (d ++ b1). split; auto. now rewrite app_assoc. Qed.
  Lemma content_pc q q' (o o' : obj) d b x : content (Sys q o d b) x -> content (Sys q' o' d b) x.
  Proof. intros H. exact H. Qed.
  Lemma content_close q q' (o o' : obj) d b x : content (Sys q o d b) x ->
    content (Sys q' o' (Some (match d with Some x => x | None => [] end ++ b)) []) x.
  Proof. intros (d' & H & ->). cbn in *. subst d. exists (d' ++ b). cbn. rewrite app_nil_r. auto. Qed.

  Lemma staged_log o o2 : staged o o2 -> exists o1, stage1 o o1 /\ with_log o2 (olog o) = o1.
  Proof.
    intros (o1 & S1 & p & _ & ->). exists o1. split; auto. destruct S1 as [[_ ->]|(v & q & _ & _ & ->)]; destruct o; reflexivity.
  Qed.
  Lemma stage1_log o o1 : stage1 o o1 -> olog o1 = olog o.
  Proof. intros [[_ ->]|(v & q & _ & _ & ->)]; reflexivity. Qed.

  Lemma step_inv o d0 s t : Inv o d0 s -> step s t -> Inv o d0 t.
  Proof.
    intros I H. destruct H; cbn in I |- *.
    - tauto.
    - left. intuition.
    - destruct I as (-> & -> & _). split; auto. exists []. auto.
    - left. intuition.
    - destruct I as [-> C]. split; auto. left. auto.
    - destruct I as [-> C]. split; auto. right. eauto.
    - destruct I as [-> C]. right; left. split; auto. split; auto. eauto.
    - destruct I as [S1 C]. split; [apply (stage1_log _ _ S1)|]. split; auto. exists o0. split; auto. exists p. auto.
    - destruct I as [S1 C]. right; right; left. split; auto. split; auto. now rewrite <- (stage1_log _ _ S1).
    - destruct I as (El & S2 & C). split; auto. split; auto. exists []. split; auto.
    - destruct I as (El & S2 & x & (d' & Ed & ->) & Ep). cbn in *. split; auto. split; auto. exists ((d' ++ b) ++ [c]). split.
      + exists d'. cbn. split; auto. now rewrite app_assoc.
      + rewrite Ep. now rewrite <- (app_assoc (d' ++ b) [c] p).
    - destruct I as (El & S2 & x & C & Ep). rewrite app_nil_r in Ep. split; auto. split; auto. exists x. auto.
    - destruct I as (El & S2 & x & C & Ep). rewrite app_nil_r in Ep. right; right; right; left. split; auto. exists x. auto.
    - destruct I as (-> & S2 & x & C & Ep). destruct (staged_log _ _ S2) as (o1 & S1 & ->). split; auto. exists x, o0. auto.
    - destruct I as (S1 & x & o2 & C & S2 & Ep). exists o0, x, o2. split; auto. split; [left; auto|auto].
    - destruct I as (S1 & x & o2 & C & S2 & Ep). exists o0, x, o2. split; auto. split; [right; eauto|auto].
    - destruct I as (S1 & x & o2 & C & S2 & Ep). right; right; right; right. split; auto. split; [eauto|]. exists x, o2. auto.
    - destruct I as (o1 & x & o2 & S1 & S3 & (d' & Ed & ->) & S2 & Ep). cbn in *. subst d. exists o1, (d' ++ b), o2. auto 7.
    - destruct I as [(_ & _ & _ & E)|[(A & C & B)|[(A & C & B)|[(A & x & C & B)|(A & B & x & o2 & C & S2 & E)]]]]; [discriminate|..].
      + right; left. split; auto. split; auto. exact (content_close _ _ _ _ _ _ _ C).
      + right; right; left. split; auto. split; auto. exact (content_close _ _ _ _ _ _ _ C).
      + right; right; right; left. split; auto. exists x. split; auto. exact (content_close _ _ _ _ _ _ _ C).
      + right; right; right; right. split; auto. split; auto. exists x, o2. split; auto. exact (content_close _ _ _ _ _ _ _ C).
    - assert (CF : forall x, content (Sys q o0 (Some d) (b1 ++ b2)) x -> content (Sys q o0 (Some (d ++ b1)) b2) x)
        by (intros x; apply content_flush).
      assert (N : b1 ++ b2 = [] -> Some (d ++ b1) = Some d /\ b2 = []).
      { intros E. apply app_eq_nil in E as [-> ->]. rewrite app_nil_r. auto. }
      destruct q; cbn in *.
      + destruct I as (A & B & C). destruct (N C) as [-> ->]. auto.
      + destruct I as (A & B & C). destruct (N C) as [-> ->]. auto.
      + destruct I. split; auto.
      + destruct I. split; auto.
      + destruct I as (A & B & C). auto.
      + destruct I as (A & B & x & C & E). split; auto. split; auto. exists x. auto.
      + destruct I as (A & B & x & C & E). split; auto. split; auto. exists x. auto.
      + destruct I as (A & x & o2 & C & E). split; auto. exists x, o2. split; [auto|tauto].
      + destruct I as (o1 & x & o2 & A & B & C & E). exists o1, x, o2. intuition auto.
      + destruct I as [(_ & _ & _ & E)|[(A & C & B)|[(A & C & B)|[(A & x & C & B)|(A & B & x & o2 & C & S2 & E)]]]]; [discriminate|..].
        * right; left. auto.
        * right; right; left. auto.
        * right; right; right; left. split; auto. exists x. auto.
        * right; right; right; right. split; auto. split; auto. exists x, o2. auto.
      + destruct I as (o1 & x & o2 & A & B & C & E & G). destruct (N E) as [-> ->]. exists o1, x, o2. auto.
      + destruct I as [(A & B & C & E)|[(A & C & B)|[(A & C & B)|[(A & x & C & B)|(A & B & x & o2 & C & S2 & E)]]]].
        * destruct (N C) as [-> ->]. left. auto.
        * right; left. auto.
        * right; right; left. auto.
        * right; right; right; left. split; auto. exists x. auto.
        * right; right; right; right. split; auto. split; auto. exists x, o2. auto.
  Qed.

  Lemma saving_inv o d0 s : saving o d0 s -> Inv o d0 s.
  Proof.
    unfold Model_Checkpoint.saving. intros H. remember (Sys Start o d0 []) as s0 eqn:E.
    induction H as [|s t u Ht IH St]; subst.
    - cbn. auto.
    - apply step_inv with t; auto.
  Qed.

  Lemma stage1_fun o o1 o1' : stage1 o o1 -> stage1 o o1' -> o1 = o1'.
  Proof.
    intros [[A ->]|(v & p & A & B & ->)] [[A' ->]|(v' & p' & A' & B' & ->)]; try congruence.
  Qed.
  Lemma staged_fun o o2 o2' : staged o o2 -> staged o o2' -> o2 = o2'.
  Proof.
    intros (o1 & A & p & B & ->) (o1' & A' & p' & B' & ->). rewrite (stage1_fun _ _ _ A A') in *. assert (p = p') by congruence. now subst.
  Qed.
  Lemma stage13 o o1 o3 : (forall v p, dumps v = Some p -> loads p = Some v) -> stage1 o o1 -> stage3 o1 o3 -> o3 = o.
  Proof.
    intros RT [[A ->]|(v & p & A & B & ->)] [[A' ->]|(p' & v' & A' & B' & ->)]; auto; try (cbn in *; congruence).
    cbn in A'. injection A' as <-. rewrite (RT _ _ B) in B'. injection B' as <-. destruct o; cbn in *. now rewrite A.
  Qed.
End Inv.
