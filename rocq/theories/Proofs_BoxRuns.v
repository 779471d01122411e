(** Lemmas about Model_Boxes.v: the statements about whole calls and about updates. *)
From Coq Require Import List Bool Arith ZArith QArith Qminmax Permutation Sorted Lia Lqa.
From Verif Require Import Lib_List Model_Pareto Spec_Pareto Proofs_Pareto Model_Boxes Spec_Boxes Proofs_Boxes Proofs_BoxFront Proofs_Box2D.
Import ListNotations.
Open Scope nat_scope.

Lemma bp_mono argsort argmax m alpha P : forall fuel stack acc r, bp_loop argsort argmax fuel m alpha P stack acc = Some r ->
  forall fuel', fuel <= fuel' -> bp_loop argsort argmax fuel' m alpha P stack acc = Some r.
Proof.
  induction fuel as [|fuel IH]; intros [|c stack] acc r H fuel' L; cbn [bp_loop] in H; try discriminate.
  - destruct fuel'; exact H.
  - destruct fuel'; exact H.
  - destruct fuel' as [|fuel']; [lia|]. cbn [bp_loop].
    destruct (forallb _ P); [apply (IH _ _ _ H); lia|]. destruct (forallb _ P); [|apply (IH _ _ _ H); lia].
    destruct (_ && _); apply (IH _ _ _ H); lia.
Qed.
Lemma ps_mono argsort argmax m alpha P fuel r : partition_space argsort argmax fuel m alpha P = Some r ->
  forall fuel', fuel <= fuel' -> partition_space argsort argmax fuel' m alpha P = Some r.
Proof. unfold partition_space. destruct P; [auto|]. intros H fuel' L. eapply bp_mono; eauto. Qed.

Section Runs.
  Variables (argsort : list Q -> list nat) (argmax : list nat -> nat).
  Hypothesis HS : sorts argsort.
  Hypothesis HM : finds_max argmax.

  Lemma occ_le1 {A} (f : A -> bool) l : occ f l <= 1 -> occ f l = 0 \/ occ f l = 1. Proof. lia. Qed.

  Lemma dominated_dec Y z : dominated_by Y z \/ ~ dominated_by Y z.
  Proof.
    induction Y as [|y Y IH]; [right; intros (y&[]&_)|]. destruct IH as [(x&Hx&C)|N]; [left; exists x; simpl; auto|].
    destruct (wb_dec z y) as [W|W]; [left; exists y; simpl; auto|]. right. intros (x&[<-|Hx]&C); [exact (W C)|]. apply N. exists x. auto.
  Qed.

  Lemma binary_cells alpha ref Y : rectangular (length ref) Y ->
    exists cells, (forall fuel, fuel_for (length ref) (neg_front argsort true ref Y) <= fuel ->
        partition_space argsort argmax fuel (length ref) alpha (neg_front argsort true ref Y) = Some cells) /\
      let bs := map (cell_bounds (neg_front argsort true ref Y) ref) cells in
      ((alpha <= 0)%Q -> partitions bs ref Y) /\ nothing_below bs ref /\
      forall z, strictly_above ref z -> (dominated_by Y z -> in_none z bs) /\ (in_none z bs \/ in_exactly_one z bs).
  Proof.
    intros HR. destruct (partition_spec argsort argmax HS HM ref Y HR alpha (fuel_for (length ref) (neg_front argsort true ref Y))) as (cells&E&L&H).
    { unfold fuel_for. lia. }
    exists cells. split; [intros fuel Hf; apply (ps_mono _ _ _ _ _ _ _ E); exact Hf|]. cbv zeta.
    assert (LZ : forall z : vec, length z = length ref -> forall c, In c cells -> length c = length z) by (intros z Lz c Hc; rewrite (L c Hc); congruence).
    assert (AL : forall z, strictly_above ref z -> length z = length ref) by (intros z Hz; symmetry; eapply F2_len; exact Hz).
    split; [|split].
    - intros HA z Hz. pose proof (AL z Hz) as Lz. destruct (H z Lz) as (H1&H2&_).
      destruct (inside_occ (neg_front argsort true ref Y) ref z cells (LZ z Lz)) as [I1 I2]. split.
      + intros D. apply I2, H1; assumption.
      + intros D. apply I1. apply (H2 Hz D). exact HA.
    - intros z Lz Hz. destruct (H z Lz) as (_&_&H3).
      destruct (inside_occ (neg_front argsort true ref Y) ref z cells (LZ z Lz)) as [I1 I2]. apply I2, H3, Hz.
    - intros z Hz. pose proof (AL z Hz) as Lz. destruct (H z Lz) as (H1&H2&_).
      destruct (inside_occ (neg_front argsort true ref Y) ref z cells (LZ z Lz)) as [I1 I2]. split.
      + intros D. apply I2, H1; assumption.
      + destruct (dominated_dec Y z) as [D|D]; [left; apply I2, H1; assumption|].
        destruct (H2 Hz D) as [H4 _]. apply occ_le1 in H4. destruct H4; [left; apply I2|right; apply I1]; assumption.
  Qed.

  Lemma cells_of_spec alpha ref Y : (alpha <= 0)%Q -> rectangular (length ref) Y ->
    exists cells, cells_of argsort argmax alpha ref (neg_front argsort true ref Y) = Some cells /\
      partitions (map (cell_bounds (neg_front argsort true ref Y) ref) cells) ref Y /\
      nothing_below (map (cell_bounds (neg_front argsort true ref Y) ref) cells) ref.
  Proof.
    intros HA HR. unfold cells_of. destruct (Nat.eqb_spec (length ref) 2) as [E|E].
    - destruct ref as [|r0 [|r1 [|]]]; try discriminate. exists (partition_space_2d argsort (neg_front argsort true [r0; r1] Y)).
      split; [reflexivity|]. apply class_2d; assumption.
    - destruct (binary_cells alpha ref Y HR) as (cells&C&B1&B2&_). exists cells. split; [apply C; lia|]. split; auto.
  Qed.

  Lemma same_front_nd m w : forall P P', same_front P P' = true -> nd m P w = nd m P' w.
  Proof.
    intros P P'. revert P'. induction P as [|p P IH]; intros [|p' P'] H; try reflexivity; try discriminate.
    cbn [same_front] in H. apply andb_true_iff in H. destruct H as [H3 H]. apply andb_true_iff in H3. destruct H3 as [H4 H5].
    specialize (IH P' H).
    unfold nd in *. cbn [existsb]. 
    assert (E : coveredb m w p = coveredb m w p').
    { apply Nat.eqb_eq in H4. apply all2_iff in H5; [|exact H4].
      assert (G : forall j, (nth j p 0 == nth j p' 0)%Q).
      { intros j. destruct (Nat.lt_ge_cases j (length p)) as [Hj|Hj].
        - rewrite F2_nth with (da := 0%Q) (db := 0%Q) in H5 by exact H4. apply Qeq_bool_iff, H5, Hj.
        - rewrite !nth_overflow by lia. reflexivity. }
      apply eq_true_iff_eq. rewrite !covered_iff. split; intros K j Hj; specialize (K j Hj); specialize (G j); lra. }
    rewrite E. destruct (coveredb m w p'); [reflexivity|]. exact IH.
  Qed.

  Lemma same_front_dominated ref Y Y' z : rectangular (length ref) Y -> rectangular (length ref) Y' -> strictly_above ref z ->
    same_front (neg_front argsort true ref Y') (neg_front argsort true ref Y) = true -> (dominated_by Y z <-> dominated_by Y' z).
  Proof.
    intros HR HR' Hz H. rewrite <- (nd_dominated argsort HS ref Y HR z Hz), <- (nd_dominated argsort HS ref Y' HR' z Hz).
    rewrite (same_front_nd (length ref) (map Qopp z) _ _ H). tauto.
  Qed.

  (** the invariant of a sequence of updates *)
  Definition good (alpha : Q) (ref : vec) (d : decomposition) : Prop :=
    rectangular (length ref) (d_Y d) /\
    exists Y0, rectangular (length ref) Y0 /\ incl Y0 (d_Y d) /\ d_front d = neg_front argsort true ref Y0 /\
      d_cells d = cells_of argsort argmax alpha ref (d_front d) /\
      forall z, strictly_above ref z -> (dominated_by Y0 z <-> dominated_by (d_Y d) z).

  Lemma fresh_good alpha ref Y : rectangular (length ref) Y ->
    good alpha ref (Dec Y (neg_front argsort true ref Y) (cells_of argsort argmax alpha ref (neg_front argsort true ref Y))).
  Proof. intros HR. split; [exact HR|]. exists Y. split; [exact HR|]. split; [apply incl_refl|]. split; [reflexivity|]. split; [reflexivity|]. intros z _. reflexivity. Qed.

  Lemma update_good alpha ref o Y : (forall d, o = Some d -> good alpha ref d) -> rectangular (length ref) Y ->
    good alpha ref (update argsort argmax alpha ref o Y) /\
    d_Y (update argsort argmax alpha ref o Y) = match o with Some d => d_Y d | None => [] end ++ Y.
  Proof.
    intros HO HR. destruct o as [d|]; unfold update, reset.
    - destruct (HO d eq_refl) as (R1&Y0&R0&IN&F&C&D).
      assert (RR : rectangular (length ref) (d_Y d ++ Y)) by (intros p Hp; apply in_app_or in Hp; destruct Hp; [apply R1|apply HR]; assumption).
      destruct (same_front _ _) eqn:E.
      + split; [|reflexivity]. split; [exact RR|]. exists Y0. split; [exact R0|]. split; [cbn [d_Y]; intros y Hy; apply in_or_app; left; apply IN, Hy|]. split; [exact F|]. split; [exact C|].
        intros z Hz. cbn [d_Y]. rewrite F in E. apply (same_front_dominated ref Y0 (d_Y d ++ Y) z R0 RR Hz E).
      + split; [|reflexivity]. apply fresh_good, RR.
    - split; [apply fresh_good, HR|reflexivity].
  Qed.

  Lemma updates_good alpha ref Ys : (forall Y, In Y Ys -> rectangular (length ref) Y) -> Ys <> [] ->
    exists d, updates argsort argmax alpha ref Ys = Some d /\ good alpha ref d /\ d_Y d = concat Ys.
  Proof.
    intros HR HN. unfold updates.
    assert (G : forall Ys o, (forall Y, In Y Ys -> rectangular (length ref) Y) -> (forall d, o = Some d -> good alpha ref d) ->
      match fold_left (fun o Y => Some (update argsort argmax alpha ref o Y)) Ys o with
      | Some d => good alpha ref d /\ d_Y d = match o with Some d0 => d_Y d0 | None => [] end ++ concat Ys
      | None => o = None /\ Ys = []
      end).
    { clear - HS HM. induction Ys as [|Y Ys IH]; intros o HR HO; cbn [fold_left].
      - destruct o as [d|]; [|auto]. split; [apply HO; reflexivity|]. simpl. rewrite app_nil_r. reflexivity.
      - destruct (update_good alpha ref o Y HO (HR Y (or_introl eq_refl))) as [U1 U2].
        specialize (IH (Some (update argsort argmax alpha ref o Y)) (fun Y' H => HR Y' (or_intror H))).
        destruct (fold_left _ Ys _) as [d|].
        + destruct IH as [I1 I2]; [intros d' E; injection E as <-; exact U1|]. split; [exact I1|]. rewrite I2, U2. cbn [concat]. symmetry. apply app_assoc.
        + destruct IH as [I1 _]; [intros d' E; injection E as <-; exact U1|discriminate]. }
    specialize (G Ys None HR). destruct (fold_left _ Ys None) as [d|].
    - destruct G as [G1 G2]; [discriminate|]. exists d. auto.
    - destruct G as [_ G2]; [discriminate|]. contradiction.
  Qed.

  Lemma good_partitions alpha ref d : (alpha <= 0)%Q -> good alpha ref d ->
    exists bs, bounds_of ref d = Some bs /\ partitions bs ref (d_Y d) /\ nothing_below bs ref.
  Proof.
    intros HA (R1&Y0&R0&_&F&C&D). destruct (cells_of_spec alpha ref Y0 HA R0) as (cells&E&P1&P2).
    unfold bounds_of. rewrite C, F, E. exists (map (cell_bounds (neg_front argsort true ref Y0) ref) cells). split; [reflexivity|]. split; [|exact P2].
    intros z Hz. rewrite <- (D z Hz). apply P1, Hz.
  Qed.
End Runs.
