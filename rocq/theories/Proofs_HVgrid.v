(** Grids exist; monotonicity of the measure (C145, C146). *)
From Coq Require Import List Bool Arith ZArith QArith Permutation Lia Lqa Setoid.
From Verif Require Import Lib_List Spec_HV Proofs_HVmeasure.
Import ListNotations.
Open Scope nat_scope.

Fixpoint ins (v : Q) (G : list Q) : list Q :=
  match G with
  | [] => [v]
  | g :: G' => match v ?= g with Lt => v :: G | Eq => G | Gt => g :: ins v G' end
  end%Q.
Lemma ins_head v G a : (a < v)%Q -> ascending (a :: G) -> ascending (a :: ins v G).
Proof.
  revert a. induction G as [|g G IH]; intros a Hv H; [split; [exact Hv|exact I]|]. destruct H as [H1 H2].
  cbn [ins]. destruct (v ?= g)%Q eqn:C.
  - split; assumption.
  - split; [exact Hv|]. split; [now apply Qlt_alt|exact H2].
  - split; [exact H1|]. apply IH; [now apply Qgt_alt|exact H2].
Qed.
Lemma ins_ascending v G : ascending G -> ascending (ins v G).
Proof.
  destruct G as [|g G]; intros H; [exact I|]. cbn [ins]. destruct (v ?= g)%Q eqn:C; [exact H| |].
  - split; [now apply Qlt_alt|exact H].
  - apply ins_head; [now apply Qgt_alt|exact H].
Qed.
Lemma ins_on v w G : (w == v)%Q \/ on_line w G -> on_line w (ins v G).
Proof.
  induction G as [|g G IH]; cbn [ins].
  - intros [E|[x [[] _]]]. exists v. split; [now left|now symmetry].
  - intros H. destruct (v ?= g)%Q eqn:C.
    + apply Qeq_alt in C. destruct H as [H|H]; [|exact H]. exists g. split; [now left|]. rewrite H. now symmetry.
    + destruct H as [H|[x [I E]]]; [exists v; split; [now left|now symmetry]|exists x; split; [now right|exact E]].
    + destruct H as [H|[x [[<-|I] E]]].
      * destruct (IH (or_introl H)) as [x [I E]]. exists x. split; [now right|exact E].
      * exists g. split; [now left|exact E].
      * destruct (IH (or_intror (ex_intro _ x (conj I E)))) as [x' [I' E']]. exists x'. split; [now right|exact E'].
Qed.
Lemma line_exists l : exists G, ascending G /\ forall v, In v l -> on_line v G.
Proof.
  induction l as [|a l [G [H1 H2]]]; [exists []; split; [exact I|intros v []]|].
  exists (ins a G). split; [now apply ins_ascending|]. intros v [<-|Hv]; apply ins_on; [left; reflexivity|right; now apply H2].
Qed.
Lemma grid_exists ref Y : exists Gs, grid_for Gs ref Y.
Proof.
  assert (H : forall m, exists Gs, length Gs = m /\ forall k G, nth_error Gs k = Some G ->
    ascending G /\ on_line (nth k ref 0%Q) G /\ forall y, In y Y -> on_line (nth k y 0%Q) G).
  { induction m as [|m [Gs [E H]]]; [exists []; split; [reflexivity|intros [|k] G; discriminate]|].
    destruct (line_exists (nth m ref 0%Q :: map (fun y => nth m y 0%Q) Y)) as [G [H1 H2]].
    exists (Gs ++ [G]). split; [rewrite app_length, E; simpl; lia|]. intros k G' EG.
    destruct (Nat.lt_ge_cases k m) as [L|L].
    - rewrite nth_error_app1 in EG by lia. now apply H.
    - rewrite nth_error_app2 in EG by lia. rewrite E in EG. destruct (k - m) as [|d] eqn:D; [|destruct d; discriminate].
      simpl in EG. injection EG as <-. assert (k = m) by lia. subst k. split; [exact H1|]. split; [apply H2; now left|].
      intros y Hy. apply H2. right. now apply (in_map (fun y => nth m y 0%Q)). }
  destruct (H (length ref)) as [Gs HG]. exists Gs. exact HG.
Qed.

(** * Monotonicity *)
Lemma volume_pos Gs cs : (forall G, In G Gs -> ascending G) -> In cs (cells Gs) -> (0 < volume cs)%Q.
Proof.
  revert cs. induction Gs as [|G Gs IH]; intros cs H I; [destruct I as [<-|[]]; reflexivity|].
  simpl in I. apply in_flat_map in I. destruct I as [c [I1 I2]]. apply in_map_iff in I2. destruct I2 as [cs' [<- I2]].
  assert (L : (fst c < snd c)%Q).
  { destruct c as [a b]. simpl. specialize (H G (or_introl eq_refl)). unfold intervals in I1. clear -I1 H.
    induction G as [|x G IH]; [destruct I1|]. destruct G as [|y G]; [destruct I1|]. destruct H as [H1 H2]. destruct I1 as [E|I1].
    - injection E as <- <-. exact H1. - exact (IH H2 I1). }
  change (volume (c :: cs')) with ((snd c - fst c) * volume cs')%Q. apply Qmult_lt_0_compat; [lra|].
  apply IH; [intros G' HG'; apply H; now right|exact I2].
Qed.
Lemma measure_mono Gs ref Y Y' : (forall G, In G Gs -> ascending G) ->
  (forall y c, In y Y -> In c (cells Gs) -> between ref y c = true -> exists y', In y' Y' /\ between ref y' c = true) ->
  (measure Gs ref Y <= measure Gs ref Y')%Q.
Proof.
  intros HG H. unfold measure. apply sum_le. intros c Hc. destruct (existsb (fun y => between ref y c) Y) eqn:E.
  - apply existsb_exists in E. destruct E as [y [I B]]. destruct (H y c I Hc B) as [y' [I' B']].
    rewrite (proj2 (existsb_exists _ _) (ex_intro _ y' (conj I' B'))). lra.
  - pose proof (volume_pos Gs c HG Hc). destruct (existsb (fun y => between ref y c) Y'); lra.
Qed.
Lemma between_mono ref y y' c : Forall2 (fun a b => (a <= b)%Q) y y' -> between ref y c = true -> between ref y' c = true.
Proof.
  intros F. revert ref c. induction F as [|a b y y' L F IH]; intros [|r ref] [|d c]; simpl; try discriminate; auto.
  intros H. apply andb_true_iff in H. destruct H as [H1 H2]. apply andb_true_iff in H1. destruct H1 as [H0 H1].
  rewrite H0. rewrite (IH _ _ H2), andb_true_r. simpl. apply Qle_bool_iff. apply Qle_bool_iff in H1. lra.
Qed.
