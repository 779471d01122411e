(** When a point adds nothing to the measure: it is dominated by another one (C220). *)
From Coq Require Import List Bool Arith ZArith QArith Lia Lqa Setoid.
From Verif Require Import Spec_HV Proofs_HVmeasure.
Import ListNotations.
Open Scope Q_scope.

Section Dom.
Variables (G : nat -> list Q) (ref : nat -> Q) (y : nat -> nat -> Q).
Notation mes := (mes G ref y).

Lemma mes_mono k : (forall j, (j < k)%nat -> ascending (G j)) -> forall S S', incl S S' -> mes k S <= mes k S'.
Proof.
  induction k as [|k IH]; intros HG S S' I; simpl.
  - destruct S as [|a S], S' as [|b S']; try lra. destruct (I a (or_introl eq_refl)).
  - apply sum_le. intros c Hc. destruct (Qle_bool _ _); [|lra].
    pose proof (intervals_lt _ _ (HG k ltac:(lia)) Hc).
    assert (L : mes k (filter (fun x => Qle_bool (snd c) (y x k)) S) <= mes k (filter (fun x => Qle_bool (snd c) (y x k)) S')).
    { apply IH; [intros; apply HG; lia|]. intros x Hx. apply filter_In in Hx. apply filter_In. split; [apply I|]; apply Hx. }
    set (a := mes k _) in *. set (b := mes k _) in L |- *. clearbody a b. nra.
Qed.

(** Adding a point that is not better than another one. *)
Lemma mes_dominated k S p x : In p S -> (forall j, (j < k)%nat -> y x j <= y p j) -> mes k (S ++ [x]) == mes k S.
Proof.
  revert S. induction k as [|k IH]; intros S Hp H; simpl.
  - destruct S; [destruct Hp|reflexivity].
  - apply sum_ext. intros c _. destruct (Qle_bool (ref k) (fst c)); [|reflexivity]. rewrite filter_app. simpl filter.
    destruct (Qle_bool (snd c) (y x k)) eqn:E; [|now rewrite app_nil_r]. rewrite IH; [reflexivity| |intros; apply H; lia].
    apply filter_In. split; [exact Hp|]. apply Qle_bool_iff in E. apply Qle_bool_iff. specialize (H k ltac:(lia)). lra.
Qed.

Lemma sum_squeeze {A} (f g : A -> Q) l : (forall c, In c l -> g c <= f c) -> sumQ (map f l) <= sumQ (map g l) -> forall c, In c l -> f c == g c.
Proof.
  induction l as [|a l IH]; intros H L c I; [destruct I|]. simpl in L. pose proof (H a (or_introl eq_refl)) as La.
  pose proof (sum_le g f l (fun c Hc => H c (or_intror Hc))) as Ll. destruct I as [<-|I]; [lra|].
  apply IH; [intros; apply H; now right|lra|exact I].
Qed.
Lemma interval_below L a v : ascending L -> on_line a L -> on_line v L -> a < v -> exists c, In c (intervals L) /\ snd c == v /\ a <= fst c.
Proof.
  revert a. induction L as [|g L IH]; intros a H Ha Hv Lt; [destruct Ha as [? [[] _]]|]. pose proof (ascending_lt g L H) as LT.
  destruct L as [|h L]; [destruct Ha as [x [[<-|[]] E1]], Hv as [z [[<-|[]] E2]]; lra|].
  destruct (Qeq_dec v h) as [E|N].
  - exists (g, h). split; [now left|]. cbn. split; [lra|]. destruct Ha as [x [[<-|[<-|I]] Ex]]; [lra|lra|]. pose proof (ascending_lt h L (proj2 H) x I). lra.
  - assert (Hv' : on_line v (h :: L)).
    { destruct Hv as [z [[<-|I] Ez]]; [|now exists z]. exfalso. destruct Ha as [x [[<-|I] Ex]]; [lra|]. specialize (LT x I). lra. }
    assert (Lh : h < v). { destruct Hv' as [z [[<-|I] Ez]]; [lra|]. pose proof (ascending_lt h L (proj2 H) z I). lra. }
    destruct (Qlt_le_dec a h) as [La|La].
    + destruct (IH h (proj2 H)) as [c [I1 [I2 I3]]]; [exists h; split; [now left|reflexivity]|exact Hv'|exact Lh|]. exists c. split; [now right|]. split; [exact I2|lra].
    + destruct (IH a (proj2 H)) as [c [I1 [I2 I3]]]; [|exact Hv'|exact Lt|exists c; split; [now right|auto]].
      destruct Ha as [x [[<-|I] Ex]]; [|now exists x]. specialize (LT h (or_introl eq_refl)). lra.
Qed.

(** A point that adds nothing, and is better than the reference point, is not better than another one. *)
Lemma mes_covered k S x : (forall j, (j < k)%nat -> lines G ref j /\ on_line (y x j) (G j) /\ ref j < y x j) ->
  mes k (S ++ [x]) <= mes k S -> exists p, In p S /\ forall j, (j < k)%nat -> y x j <= y p j.
Proof.
  revert S. induction k as [|k IH]; intros S H L.
  - destruct S as [|p S]; [cbn in L; lra|]. exists p. split; [now left|]. intros; lia.
  - destruct (H k ltac:(lia)) as [[HA HR] [HO HS]]. destruct (interval_below (G k) (ref k) (y x k) HA HR HO HS) as [c [Ic [E1 E2]]].
    cbn [Proofs_HVmeasure.mes] in L.
    match type of L with sumQ (map ?f ?l) <= sumQ (map ?g _) => assert (Hle : forall d, In d l -> g d <= f d) end.
    { intros d Hd. cbv beta. destruct (Qle_bool (ref k) (fst d)) eqn:Er; [|lra]. pose proof (intervals_lt _ _ HA Hd) as Ld.
      assert (Lm : mes k (filter (fun x0 => Qle_bool (snd d) (y x0 k)) S) <= mes k (filter (fun x0 => Qle_bool (snd d) (y x0 k)) (S ++ [x]))).
      { apply mes_mono; [intros j Hj; exact (proj1 (proj1 (H j ltac:(lia))))|]. intros z Hz. apply filter_In in Hz. apply filter_In. split; [apply in_or_app; left|]; apply Hz. }
      set (a := mes k (filter _ S)) in *. set (b := mes k (filter _ (S ++ [x]))) in *. clearbody a b. nra. }
    pose proof (sum_squeeze _ _ _ Hle L c Ic) as Q. cbv beta in Q.
    rewrite (proj2 (Qle_bool_iff (ref k) (fst c)) E2) in Q. rewrite filter_app in Q. simpl filter in Q.
    rewrite (proj2 (Qle_bool_iff (snd c) (y x k))) in Q by lra.
    pose proof (intervals_lt _ _ HA Ic) as Lc.
    destruct (IH (filter (fun z => Qle_bool (snd c) (y z k)) S)) as [p [Ip Hp]].
    + intros j Hj. apply H. lia.
    + set (a := mes k (_ ++ _)) in *. set (b := mes k _) in Q |- *. clearbody a b. assert (Z : (snd c - fst c) * (a - b) == 0) by lra. apply Qmult_integral in Z. destruct Z as [Z|Z]; lra.
    + apply filter_In in Ip. destruct Ip as [Ip C]. apply Qle_bool_iff in C. exists p. split; [exact Ip|]. intros j Hj. destruct (Nat.eq_dec j k) as [->|N]; [lra|]. apply Hp. lia.
Qed.
End Dom.
