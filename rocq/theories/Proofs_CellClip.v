(** Lemmas about Model_CellVolume.v: cells cut off at the best values. *)
From Coq Require Import List Bool Arith ZArith QArith Qminmax Lia Lqa.
From Verif Require Import Lib_List Model_Pareto Spec_Pareto Model_Boxes Spec_Boxes Proofs_Boxes Proofs_BoxFront Proofs_BoxRuns Proofs_LacourRuns Spec_HV Proofs_HVmeasure Proofs_HVgrid Model_CellVolume Proofs_CellVolume.
Import ListNotations.
Open Scope nat_scope.

Definition clipQ (e : ext) (b : Q) : Q := match e with NInf => 0%Q | Val a => if Qle_bool a b then a else b | PInf => b end.
Lemma clip_le e b : e <> NInf -> (clipQ e b <= b)%Q.
Proof. destruct e as [|a|]; simpl; intros H; [congruence| |lra]. destruct (Qle_bool a b) eqn:E; [now apply Qle_bool_iff|lra]. Qed.
Lemma clip_above e b q : e <> NInf -> (q <= b)%Q -> (above e q <-> (clipQ e b < q)%Q).
Proof.
  destruct e as [|a|]; simpl; intros H Hq; [congruence| |split; [tauto|lra]]. destruct (Qle_bool a b) eqn:E; [reflexivity|]. apply Qle_bool_false in E. split; lra.
Qed.
Lemma clip_upto e b q : e <> NInf -> (q <= b)%Q -> (upto q e <-> (q <= clipQ e b)%Q).
Proof.
  destruct e as [|a|]; simpl; intros H Hq; [congruence| |tauto]. destruct (Qle_bool a b) eqn:E; [reflexivity|]. apply Qle_bool_false in E. split; lra.
Qed.
Lemma extent_clip a b q : a <> NInf -> b <> NInf -> extent (emin a q) (emin b q) = Some (clamp (clipQ a q) (clipQ b q)).
Proof.
  unfold clamp. destruct a as [|a|], b as [|b|]; intros HA HB; try congruence; cbn [emin clipQ extent]; [destruct (Qle_bool a q), (Qle_bool b q); reflexivity|destruct (Qle_bool a q); reflexivity|destruct (Qle_bool b q); reflexivity|reflexivity].
Qed.

Lemma prod_some {A} (f g : A -> Q) (h : A -> option Q) l : (forall a, In a l -> h a = Some (clamp (f a) (g a))) ->
  exists v, prod_opt (map h l) = Some v /\ (v == boxvol (map f l) (map g l))%Q.
Proof.
  induction l as [|a l IH]; intros H; simpl; [eexists; split; reflexivity|]. rewrite (H a) by now left. destruct IH as (v & -> & E); [intros b Hb; apply H; now right|].
  eexists. split; [reflexivity|]. rewrite E. reflexivity.
Qed.
Lemma sum_some {A} (f : A -> Q) (h : A -> option Q) l : (forall a, In a l -> exists v, h a = Some v /\ (v == f a)%Q) -> exists v, sum_opt (map h l) = Some v /\ (v == sumQ (map f l))%Q.
Proof.
  induction l as [|a l IH]; intros H; simpl; [eexists; split; reflexivity|]. destruct (H a) as (u & -> & Eu); [now left|]. destruct IH as (v & -> & E); [intros b Hb; apply H; now right|].
  eexists. split; [reflexivity|]. rewrite E, Eu. reflexivity.
Qed.
Lemma prod_clamp (f g h : nat -> Q) l : (forall j, In j l -> (h j == clamp (f j) (g j))%Q) -> (prod (map h l) == boxvol (map f l) (map g l))%Q.
Proof. induction l as [|a l IH]; intros H; simpl; [reflexivity|]. rewrite (H a) by now left. rewrite IH by (intros j Hj; apply H; now right). reflexivity. Qed.
Lemma vmax_in c : c <> [] -> exists v, In v c /\ (vmax c == v)%Q.
Proof.
  destruct c as [|a l]; [congruence|]. intros _. simpl. revert a. induction l as [|b l IH]; intros a; simpl; [exists a; split; [auto|reflexivity]|].
  destruct (IH (Qmax a b)) as (v & [<-|Hv] & E).
  - destruct (Q.max_spec a b) as [[_ K]|[_ K]]; [exists b|exists a]; (split; [simpl; auto|exact (Qeq_trans _ _ _ E K)]).
  - exists v. simpl. auto.
Qed.
Lemma vmin_in c : c <> [] -> exists v, In v c /\ (vmin c == v)%Q.
Proof.
  destruct c as [|a l]; [congruence|]. intros _. simpl. revert a. induction l as [|b l IH]; intros a; simpl; [exists a; split; [auto|reflexivity]|].
  destruct (IH (Qmin a b)) as (v & [<-|Hv] & E).
  - destruct (Q.min_spec a b) as [[_ K]|[_ K]]; [exists a|exists b]; (split; [simpl; auto|exact (Qeq_trans _ _ _ E K)]).
  - exists v. simpl. auto.
Qed.
Lemma on_line_eq v w G : (v == w)%Q -> on_line v G -> on_line w G.
Proof. intros E (g & Hg & K). exists g. split; auto. lra. Qed.
Lemma nth_seq_map (f : nat -> Q) n k : k < n -> nth k (map f (seq 0 n)) 0%Q = f k.
Proof. intros H. rewrite (map_nth_lt f 0) by now rewrite seq_length. now rewrite seq_nth. Qed.

Lemma opp_at' (y : vec) n l : length y = n -> l < n -> nth l (map Qopp y) 0%Q = (- nth l y 0)%Q.
Proof. intros <- H. now rewrite (map_nth_lt Qopp 0%Q). Qed.

Lemma chv_unfold ref P cs : P <> [] -> cells_hypervolume ref P cs =
  match sum_opt (map (clipped_volume (length ref) (best_point (length ref) P)) cs) with
  | Some v => Some (prod (map (fun j => (if Qle_bool 0 (nth j (best_point (length ref) P) 0 - nth j ref 0) then nth j (best_point (length ref) P) 0 - nth j ref 0 else 0)%Q) (seq 0 (length ref))) - v)%Q
  | None => None
  end.
Proof. destruct P; [congruence|reflexivity]. Qed.

Section Front.
  Variables (ref : vec) (Y : list vec) (Gs : list (list Q)) (P : list vec).
  Notation m := (length ref).
  Hypothesis HR : rectangular m Y.
  Hypothesis HG : grid_for Gs ref Y.
  Hypothesis FO : from_outcomes ref Y P.
  Hypothesis RE : reaches ref Y P.

  Lemma front_line p j : In p P -> j < m -> on_line (- nth j p 0)%Q (nth j Gs []).
  Proof.
    intros Hp Hj. destruct (FO p Hp) as (y & Hy & _ & ->). destruct (grid_lines ref Y Gs HG) as [_ G]. destruct (G j Hj) as (_ & _ & K). rewrite (opp_at' y m) by (auto; apply HR, Hy).
    apply (on_line_eq (nth j y 0%Q)); [lra|]. apply K, Hy.
  Qed.
  (** A point that is at least the negated front everywhere and on it somewhere. *)
  Definition is_best (best : vec) : Prop := length best = m /\
    forall j, j < m -> (forall p, In p P -> (- nth j p 0 <= nth j best 0)%Q) /\ exists p, In p P /\ (nth j best 0 == - nth j p 0)%Q.
  Lemma best_lines best : is_best best -> lines ref Gs best.
  Proof. intros [L B]. split; [exact L|]. intros k Hk. destruct (B k Hk) as (_ & p & Hp & E). apply (on_line_eq (- nth k p 0)%Q); [lra|]. now apply front_line. Qed.
  Lemma best_covers best : is_best best -> forall y, In y Y -> strictly_above ref y -> forall k, k < m -> (nth k y 0 <= nth k best 0)%Q.
  Proof.
    intros [L B] y Hy SA k Hk. destruct (RE y Hy SA) as (p & Hp & K). specialize (K k Hk). rewrite (opp_at' y m) in K by (auto; apply HR, Hy). destruct (B k Hk) as [B1 _]. specialize (B1 p Hp). lra.
  Qed.
  Lemma measure_none : P = [] -> (measure Gs ref Y == 0)%Q.
  Proof.
    intros E0. unfold measure. rewrite <- (sum_zero (cells Gs)). apply sum_ext. intros c Hc. destruct (existsb (fun y => between ref y c) Y) eqn:E; [|reflexivity]. exfalso.
    apply existsb_exists in E as (y & Hy & B). apply (between_fin ref Y Gs HG c Hc ref y) in B.
    - apply (fin_above ref Y Gs HG c Hc y) in B as SA. assert (SY : strictly_above ref y).
      { unfold strictly_above. apply (F2_nth Qlt 0%Q 0%Q); [symmetry; apply HR, Hy|]. intros k Hk. destruct (B k) as [B1 B2]; [rewrite (z_len ref Y Gs HG c Hc); exact Hk|]. cbn [fst snd] in *. lra. }
      destruct (RE y Hy SY) as (p & Hp & _). rewrite E0 in Hp. destruct Hp.
    - apply (lines_ref ref Y Gs HG).
    - apply (lines_y ref Y Gs HR HG y Hy).
  Qed.
  Hypothesis NP : P <> [].
  Lemma best_point_is_best : is_best (best_point m P).
  Proof.
    unfold best_point. split; [now rewrite map_length, seq_length|]. intros j Hj. rewrite nth_seq_map by exact Hj. split.
    - intros p Hp. apply vmax_ge. apply in_map. apply in_map_iff. eauto.
    - destruct (vmax_in (map Qopp (col j P))) as (v & Hv & E). { destruct P; [congruence|discriminate]. }
      apply in_map_iff in Hv as (u & <- & Hu). apply in_map_iff in Hu as (p & <- & Hp). eauto.
  Qed.

  Definition bound_ok (j : nat) (e : ext) : Prop := e = PInf \/ exists v, e = Val v /\ on_line v (nth j Gs []).
  Lemma bound_clip j e best : bound_ok j e -> on_line (nth j best 0%Q) (nth j Gs []) -> e <> NInf /\ on_line (clipQ e (nth j best 0%Q)) (nth j Gs []).
  Proof. intros [->|(v & -> & O)] B; (split; [discriminate|]); simpl; [exact B|]. now destruct (Qle_bool v _). Qed.

  Theorem clip_hypervolume cs : partitions cs ref Y -> nothing_below cs ref ->
    (forall c, In c cs -> length (fst c) = m /\ length (snd c) = m /\ forall j, j < m -> bound_ok j (nth j (fst c) NInf) /\ bound_ok j (nth j (snd c) NInf)) ->
    exists v, cells_hypervolume ref P cs = Some v /\ (v == measure Gs ref Y)%Q.
  Proof.
    intros PA NB OK. set (best := best_point m P). assert (IB : is_best best) by apply best_point_is_best. assert (LB := best_lines best IB).
    set (cl := fun es : list ext => map (fun j => clipQ (nth j es NInf) (nth j best 0%Q)) (seq 0 m)).
    set (boxes := map (fun c : box => (cl (fst c), cl (snd c))) cs).
    assert (CN : forall es k, k < m -> nth k (cl es) 0%Q = clipQ (nth k es NInf) (nth k best 0%Q)) by (intros es k Hk; unfold cl; now rewrite nth_seq_map).
    assert (FI : forall c z, In c cs -> within ref best z -> (fin z (cl (fst c), cl (snd c)) <-> inside z c)).
    { intros c z Hc [Lz Wz]. destruct (OK c Hc) as (L1 & L2 & OKc). unfold fin, inside. cbn [fst snd]. rewrite (F2_nth above NInf 0%Q) by congruence. rewrite (F2_nth upto 0%Q NInf) by congruence. rewrite L1, Lz. split.
      - intros F. split; intros k Hk; destruct (F k Hk) as [F1 F2]; rewrite CN in F1, F2 by exact Hk; destruct (OKc k Hk) as [O1 O2];
          destruct (bound_clip k _ best O1 (proj2 LB k Hk)) as [N1 _]; destruct (bound_clip k _ best O2 (proj2 LB k Hk)) as [N2 _].
        + apply (clip_above _ (nth k best 0%Q)); auto.
        + apply (clip_upto _ (nth k best 0%Q)); auto.
      - intros [A B] k Hk. rewrite !CN by exact Hk. destruct (OKc k Hk) as [O1 O2]. destruct (bound_clip k _ best O1 (proj2 LB k Hk)) as [N1 _]; destruct (bound_clip k _ best O2 (proj2 LB k Hk)) as [N2 _].
        split; [apply clip_above; auto|apply clip_upto; auto]. }
    assert (IN : forall b, In b boxes <-> exists c, b = (cl (fst c), cl (snd c)) /\ In c cs).
    { intros b. unfold boxes. rewrite in_map_iff. split; intros (c & E & Hc); exists c; auto. }
    assert (P4 : forall b, In b boxes -> forall k, k < m -> (nth k (snd b) 0 <= nth k best 0)%Q).
    { intros b Hb k Hk. apply IN in Hb as (c & -> & Hc). cbn [snd]. rewrite CN by exact Hk. apply clip_le. destruct (OK c Hc) as (_ & _ & O). destruct (O k Hk) as [_ O2]. apply (bound_clip k _ best O2 (proj2 LB k Hk)). }
    assert (MAIN : (boxvol ref best - sumQ (map (fun b => boxvol (fst b) (snd b)) boxes) == measure Gs ref Y)%Q).
    { apply outside_volume; auto.
      - apply best_covers, IB.
      - intros b Hb. apply IN in Hb as (c & -> & Hc). destruct (OK c Hc) as (_ & _ & O). cbn [fst snd]. split; (split; [unfold cl; now rewrite map_length, seq_length|]); intros k Hk; rewrite CN by exact Hk; apply bound_clip; try apply (O k Hk); apply (proj2 LB k Hk).
      - intros z W SA D b Hb F. apply IN in Hb as (c & -> & Hc). apply (FI c z Hc W) in F. destruct (PA z SA) as [A _]. exact (A D c Hc F).
      - intros z W SA D. destruct (PA z SA) as [_ A]. destruct (A D) as (l & c & r & E & I & O). unfold boxes. rewrite E, map_app. cbn [map]. do 3 eexists. split; [reflexivity|].
        assert (Hc : In c cs) by (rewrite E; apply in_app_iff; simpl; auto). split; [apply FI; auto|]. intros d Hd. rewrite <- map_app in Hd. apply in_map_iff in Hd as (d' & <- & Hd). intros F.
        apply (O d' Hd). apply FI; auto. rewrite E. apply in_app_iff in Hd. apply in_app_iff. simpl. tauto.
      - intros z Lz NS b Hb F. apply IN in Hb as IC. destruct IC as (c & -> & Hc). assert (W : within ref best z).
        { split; [exact Lz|]. intros k Hk. destruct (F k ltac:(lia)) as [_ K]. assert (T := P4 _ Hb k Hk). lra. }
        apply (FI c z Hc W) in F. exact (NB z Lz NS c Hc F). }
    rewrite (chv_unfold ref P cs NP). fold best.
    destruct (sum_some (fun c : box => boxvol (cl (fst c)) (cl (snd c))) (clipped_volume m best) cs) as (v & -> & E).
    { intros c Hc. destruct (OK c Hc) as (_ & _ & O). apply prod_some. intros j Hj. apply in_seq in Hj. destruct (O j ltac:(lia)) as [O1 O2].
      apply extent_clip; [apply (bound_clip j _ best O1)|apply (bound_clip j _ best O2)]; apply LB; lia. }
    eexists. split; [reflexivity|]. rewrite <- MAIN. rewrite E. unfold boxes. rewrite map_map. cbn [fst snd]. apply Qplus_comp; [|reflexivity].
    rewrite (prod_clamp (fun j => nth j ref 0%Q) (fun j => nth j best 0%Q)).
    - rewrite map_nth_seq. replace m with (length best) by apply IB. rewrite map_nth_seq. reflexivity.
    - intros j _. unfold clamp. destruct (Qle_bool (nth j ref 0%Q) (nth j best 0%Q)) eqn:E1; destruct (Qle_bool 0 (nth j best 0 - nth j ref 0)%Q) eqn:E2; try reflexivity; exfalso.
      + apply Qle_bool_iff in E1. apply Qle_bool_false in E2. lra.
      + apply Qle_bool_false in E1. apply Qle_bool_iff in E2. lra.
  Qed.
End Front.
