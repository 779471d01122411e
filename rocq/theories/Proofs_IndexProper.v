(** Lemmas: the cells of the binary partitioning have finite lower bounds that do not exceed their upper bounds. *)
From Coq Require Import Reals List Bool Arith ZArith QArith Qreals Lia Lqa.
From Verif Require Import Lib_List Model_Pareto Spec_Pareto Proofs_Pareto Model_Boxes Spec_Boxes Proofs_Boxes Proofs_BoxFront Proofs_Box2D Proofs_BoxRuns Proofs_LacourRuns
  Model_CellVolume Proofs_CellVolume Proofs_CellClip Proofs_CellIndex Spec_Expect Proofs_Expect Proofs_ExpectCells Proofs_Region.
Import ListNotations.
Open Scope nat_scope.

Section Index.
  Variables (argsort : list Q -> list nat) (argmax : list nat -> nat).
  Hypothesis HS : sorts argsort.
  Hypothesis HM : finds_max argmax.
  Variables (ref : vec) (Y : list vec).
  Hypothesis HR : rectangular (length ref) Y.
  Notation P := (neg_front argsort true ref Y).

  Lemma pos_nonzero j b : 1 <= b <= S (length P) -> exists k, at_pos argsort P j b = S k.
  Proof.
    intros [H1 H2]. destruct b as [|b]; [lia|]. destruct (Nat.eq_dec b (length P)) as [->|N]; [exists (length P); apply (atp_top argsort HS P j)|].
    destruct (atp_mid argsort HS P j b) as (i & _ & F); [lia|]. exists i. exact F.
  Qed.
  Lemma index_upper alpha cs : cells_of argsort argmax alpha ref P = Some cs -> forall c, In c cs -> length c = length ref /\ forall j lu, nth_error c j = Some lu -> exists k, snd lu = S k.
  Proof.
    intros E c Hc. unfold cells_of in E. destruct (Nat.eqb_spec (length ref) 2) as [E2|E2].
    - injection E as <-. apply in_map_iff in Hc as (i & <- & Hi). apply in_seq in Hi. split; [now rewrite E2|].
      intros [|[|j]] lu F; cbn [nth_error] in F; [| |destruct j; discriminate]; injection F as <-; cbn [snd]; [now exists i|].
      assert (LA : length (aug_idx argsort P 1) = S (S (length P))). { unfold aug_idx. cbn [length]. rewrite app_length, map_length, (sort_len argsort HS P 1). cbn. lia. }
      change (exists k, at_pos argsort P 1 (length (aug_idx argsort P 1) - 1 - i) = S k). rewrite LA. apply (pos_nonzero 1). lia.
    - assert (V0 : valid (length ref) P (repeat (0, S (length P)) (length ref))).
      { split; [apply repeat_length|]. intros j lu F. rewrite repeat_nth_error in F. destruct (j <? length ref); [|discriminate]. injection F as <-. cbn [fst snd]. lia. }
      assert (X : exists d, valid (length ref) P d /\ c = cell_idx argsort P d).
      { unfold partition_space in E. destruct P as [|p0 P0] eqn:EP.
        - injection E as <-. destruct Hc as [<-|[]]. eexists. split; [exact V0|reflexivity].
        - rewrite <- EP in *. refine (loop_valid argsort argmax HM (length ref) P alpha _ _ _ _ _ _ E c Hc); [intros d [<-|[]]; exact V0|intros d []]. }
      destruct X as (d & [L V] & ->). split; [unfold cell_idx; now rewrite map_length, indexed_len|]. intros j lu F. rewrite cell_idx_nth in F. destruct (nth_error d j) as [lu'|] eqn:D; [|discriminate]. injection F as <-. cbn [snd].
      apply pos_nonzero. specialize (V j lu' D). lia.
  Qed.
  Lemma index_order alpha cs : P <> [] -> cells_of argsort argmax alpha ref P = Some cs -> forall c, In c cs -> forall j lu, nth_error c j = Some lu ->
    (finite_at (length ref) P ref (fst lu) j <= finite_at (length ref) P ref (snd lu) j)%Q.
  Proof.
    intros NP E c Hc. unfold cells_of in E. destruct (Nat.eqb_spec (length ref) 2) as [E2|E2].
    - clear HM. destruct ref as [|r0 [|r1 [|]]]; try discriminate. injection E as <-. exact (proj2 (two_mono argsort HS r0 r1 Y HR NP c Hc)).
    - exact (proj2 (space_mono argsort argmax HS HM ref Y HR NP alpha _ cs E c Hc)).
  Qed.
  Lemma index_proper alpha cs big : cells_of argsort argmax alpha ref P = Some cs -> below_cut big ref -> (forall y, In y Y -> below_cut big y) ->
    proper_cells big (length ref) (map (cell_bounds P ref) cs).
  Proof.
    intros E HC HY c Hc. apply in_map_iff in Hc as (d & <- & Hd). destruct (index_upper alpha cs E d Hd) as [Ld U]. unfold cell_bounds. cbn [fst snd]. split; [now rewrite map_length, indexed_len|].
    apply proper_nth; [now rewrite !map_length|]. rewrite map_length, indexed_len, Ld. intros j Hj. destruct (lt_nth_error d j ltac:(lia)) as (lu & El). destruct (U j lu El) as (k & Ek).
    assert (N1 : forall f : nat * (nat * nat) -> ext, nth j (map f (indexed d)) NInf = f (j, lu)) by (intros f; apply nth_error_nth; rewrite nth_error_map, nth_error_indexed, El; reflexivity).
    rewrite !N1. cbn [fst snd]. rewrite Ek.
    assert (V : forall i, bound_at P ref (S i) j = Val (finite_at (length ref) P ref (S i) j)) by (intros i; cbn [bound_at finite_at]; destruct (nth_error P i); reflexivity).
    rewrite V. cbn [eopp]. eexists. split; [reflexivity|]. split.
    - cbn [finite_at]. destruct (nth_error P k) as [p|] eqn:Ep.
      + destruct (sorted_front argsort HS ref Y HR) as [FO _]. destruct (FO p (nth_error_In _ _ Ep)) as (y & Hy & _ & ->). rewrite (opp_at' y (length ref)) by auto. rewrite (Qeq_eqR _ (nth j y 0%Q)) by lra. apply cut_nth; [now apply HY|]. now rewrite (HR y Hy).
      + rewrite (Qeq_eqR _ (nth j ref 0%Q)) by lra. now apply cut_nth.
    - destruct lu as [a b]. cbn [fst snd] in *. subst b. destruct a as [|a]; [left; reflexivity|]. right. rewrite V. cbn [eopp]. eexists. split; [reflexivity|].
      assert (DP : P = [] \/ P <> []) by (destruct P; [left; reflexivity|right; discriminate]). destruct DP as [EP|NP].
      + cbn [finite_at]. rewrite EP. destruct k, a; cbn [nth_error]; lra.
      + assert (K := index_order alpha cs NP E d Hd j (S a, S k) El). cbn [fst snd] in K. lra.
  Qed.
End Index.

(** After any history. *)
Lemma good_proper argsort argmax alpha ref d big : sorts argsort -> finds_max argmax -> (alpha <= 0)%Q -> good argsort argmax alpha ref d -> below_cut big ref -> (forall y, In y (d_Y d) -> below_cut big y) ->
  exists bs, bounds_of ref d = Some bs /\ partitions bs ref (d_Y d) /\ nothing_below bs ref /\ proper_cells big (length ref) bs.
Proof.
  intros HS HM HA G HC HY. destruct (good_partitions argsort argmax HS HM alpha ref d HA G) as (bs & E & PA & NB). exists bs. split; [exact E|]. split; [exact PA|]. split; [exact NB|].
  destruct G as (R1 & Y0 & R0 & IN & F & C & D). unfold bounds_of in E. rewrite F in C. destruct (d_cells d) as [cs|] eqn:EC; [|discriminate]. cbn in E. injection E as <-. rewrite F.
  apply (index_proper argsort argmax HS HM ref Y0 R0 alpha cs big); auto.
Qed.
