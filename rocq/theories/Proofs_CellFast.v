(** Lemmas about Model_CellVolume.v: the fast decomposition. *)
From Coq Require Import List Bool Arith ZArith QArith Lia Lqa.
From Verif Require Import Lib_List Model_Pareto Spec_Pareto Model_Boxes Spec_Boxes Proofs_Boxes Proofs_BoxFront Proofs_Box2D Proofs_BoxRuns Model_Lacour Proofs_LacourRuns Spec_HV Proofs_HVmeasure Model_CellVolume Proofs_CellVolume Proofs_CellClip Proofs_CellIndex.
Import ListNotations.
Open Scope nat_scope.

Lemma inv_volume ref o Gs : 2 <= length ref -> Inv ref o -> grid_for Gs ref (f_Y o) -> exists v, fast_hypervolume ref o = Some v /\ (v == measure Gs ref (f_Y o))%Q.
Proof.
  intros Hm HI HG. destruct (inv_partitions ref Hm o HI) as [PA NB]. destruct HI as (R & F & C & [[E0 _]|(NP & N & L & _ & Z1 & FN & _ & Z2)]); unfold fast_hypervolume.
  - rewrite E0. exists 0%Q. split; [reflexivity|]. rewrite (measure_none ref (f_Y o) Gs (f_front o) R HG C E0). reflexivity.
  - apply (clip_hypervolume ref (f_Y o) Gs (f_front o) R HG F C NP (f_cells o) PA NB).
    destruct (two_passes ref Hm N (from_under ref Hm _ _ FN)) as (L' & cells & A1 & A2 & _ & OV & _). assert (L' = L) by congruence. subst L'. assert (cells = f_cells o) by congruence. subst cells.
    assert (OK : forall j e, j < length ref -> from_values ref N j e -> bound_ok Gs j e).
    { intros j e Hj [->|(v & -> & [E|(p & Hp & E)])]; [left; reflexivity| |]; right; exists v; (split; [reflexivity|]).
      - destruct (grid_lines ref (f_Y o) Gs HG) as [_ G]. destruct (G j Hj) as (_ & K & _). apply (on_line_eq (nth j ref 0%Q)); [lra|exact K].
      - apply (on_line_eq (- nth j p 0)%Q); [lra|]. apply (front_line ref (f_Y o) Gs N R HG FN p j Hp Hj). }
    intros c Hc. destruct (OV c Hc) as (L1 & L2 & O). split; [exact L1|]. split; [exact L2|]. intros j Hj. destruct (O j Hj). auto.
Qed.

Lemma stairs_values ps : forall l r1 c, In c (stairs l ps r1) -> exists a b u, c = ([Val a; Val b], [u; PInf]) /\
  (a = l \/ exists p, In p ps /\ a = fst p) /\ (b = r1 \/ exists p, In p ps /\ b = snd p) /\ (u = PInf \/ exists p, In p ps /\ u = Val (fst p)).
Proof.
  induction ps as [|p ps IH]; intros l r1 c; cbn [stairs].
  - intros [<-|[]]. exists l, r1, PInf. auto.
  - intros [<-|H].
    + exists l, (snd p), (Val (fst p)). split; [reflexivity|]. split; [now left|]. split; right; exists p; simpl; auto.
    + destruct (IH (fst p) r1 c H) as (a & b & u & -> & A & B & U). exists a, b, u. split; [reflexivity|]. split; [|split].
      * destruct A as [->|(q & Hq & ->)]; right; [exists p|exists q]; simpl; auto.
      * destruct B as [->|(q & Hq & ->)]; [now left|right; exists q; simpl; auto].
      * destruct U as [->|(q & Hq & ->)]; [now left|right; exists q; simpl; auto].
Qed.

Lemma two_volume argsort r0 r1 Y Gs : sorts argsort -> rectangular 2 Y -> grid_for Gs [r0; r1] Y -> exists v, fast_hypervolume_2d argsort [r0; r1] Y = Some v /\ (v == measure Gs [r0; r1] Y)%Q.
Proof.
  intros HS HR HG. unfold fast_hypervolume_2d. destruct (fast_2d argsort HS r0 r1 Y HR) as (cs & E & PA & NB). rewrite E.
  destruct (sorted_front argsort HS [r0; r1] Y HR) as [FO RE].
  assert (DP : neg_front argsort true [r0; r1] Y = [] \/ neg_front argsort true [r0; r1] Y <> []) by (destruct (neg_front argsort true [r0; r1] Y); [left; reflexivity|right; discriminate]).
  destruct DP as [EP|NP]; [rewrite EP; exists 0%Q; split; [reflexivity|]; rewrite (measure_none [r0; r1] Y Gs _ HR HG RE EP); reflexivity|].
  apply (clip_hypervolume [r0; r1] Y Gs _ HR HG FO RE NP cs PA NB).
  assert (EC : cs = stairs r0 (rev (map (fun p => ((- nth 0 p 0)%Q, (- nth 1 p 0)%Q)) (neg_front argsort true [r0; r1] Y))) r1).
  { unfold fast_partitioning_2d in E. destruct (neg_front argsort true [r0; r1] Y) as [|p0 P0] eqn:EP; [congruence|]. rewrite nd_cells_stairs in E; [cbn [fst snd nth] in E; congruence|].
    simpl. intros K. apply app_eq_nil in K. destruct K; discriminate. }
  destruct (grid_lines [r0; r1] Y Gs HG) as [_ G]. destruct (G 0 ltac:(simpl; lia)) as (_ & G0 & _). destruct (G 1 ltac:(simpl; lia)) as (_ & G1 & _). cbn [nth] in G0, G1.
  intros c Hc. rewrite EC in Hc. destruct (stairs_values _ _ _ _ Hc) as (a & b & u & -> & A & B & U). split; [reflexivity|]. split; [reflexivity|].
  assert (PT : forall q, In q (rev (map (fun p => ((- nth 0 p 0)%Q, (- nth 1 p 0)%Q)) (neg_front argsort true [r0; r1] Y))) -> on_line (fst q) (nth 0 Gs []) /\ on_line (snd q) (nth 1 Gs [])).
  { intros q Hq. apply in_rev in Hq. apply in_map_iff in Hq as (p & <- & Hp). cbn [fst snd]. split; apply (front_line [r0; r1] Y Gs _ HR HG FO p); auto; simpl; lia. }
  intros [|[|j]] Hj; [| |simpl in Hj; lia]; cbn [fst snd nth].
  - split; [right; exists a; split; [reflexivity|]; destruct A as [->|(q & Hq & ->)]; [exact G0|apply PT, Hq]|].
    destruct U as [->|(q & Hq & ->)]; [now left|right; exists (fst q); split; [reflexivity|apply PT, Hq]].
  - split; [right; exists b; split; [reflexivity|]; destruct B as [->|(q & Hq & ->)]; [exact G1|apply PT, Hq]|now left].
Qed.
