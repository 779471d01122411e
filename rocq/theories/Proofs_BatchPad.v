(** Lemmas about Model_BatchBoxes.v: padding one front, and its volume. *)
From Coq Require Import List Bool Arith ZArith QArith Qminmax Permutation Sorted Lia Lqa.
From Verif Require Import Lib_List Model_Pareto Spec_Pareto Proofs_Pareto Model_Boxes Spec_Boxes Proofs_Boxes Proofs_BoxFront Proofs_Box2D Proofs_BoxRuns Model_Lacour Proofs_LacourRuns Spec_HV Proofs_HVmeasure Proofs_HVgrid Model_CellVolume Proofs_CellVolume Proofs_CellClip Proofs_CellIndex Proofs_CellFast Model_BatchBoxes Proofs_BatchFront.
Import ListNotations.
Open Scope nat_scope.

Lemma last_in {A} (d : A) : forall l, l <> [] -> In (last l d) l.
Proof. induction l as [|a [|b l] IH]; intros H; [congruence|now left|]. right. apply IH. discriminate. Qed.

(** *** fronts that consist of the reference point *)
Lemma flat_min r0 r1 P j : (forall p, In p P -> p = [- r0; - r1]%Q) -> P <> [] -> j < 2 -> (vmin (col j P) == - nth j [r0; r1] 0)%Q.
Proof.
  intros F NP Hj. assert (N : col j P <> []) by (unfold col; destruct P; [congruence|discriminate]). destruct (vmin_in _ N) as (v & Hv & ->).
  apply in_map_iff in Hv as (p & <- & Hp). rewrite (F p Hp). destruct j as [|[|]]; [reflexivity|reflexivity|lia].
Qed.
Lemma flat_index r0 r1 P cs : (forall p, In p P -> p = [- r0; - r1]%Q) -> (forall c, In c cs -> length c = 2) -> (index_hypervolume [r0; r1] P cs == 0)%Q.
Proof.
  intros F L. unfold index_hypervolume. assert (D : P = [] \/ P <> []) by (destruct P; [left; reflexivity|right; discriminate]). destruct D as [->|NP]; [reflexivity|].
  assert (FA : forall i j, j < 2 -> (finite_at 2 P [r0; r1] i j == - nth j [r0; r1] 0)%Q).
  { intros [|k] j Hj; cbn [finite_at]; [now apply (flat_min r0 r1)|]. destruct (nth_error P k) as [p|] eqn:E; [|reflexivity]. rewrite (F p (nth_error_In _ _ E)). destruct j as [|[|]]; [reflexivity|reflexivity|lia]. }
  assert (V : forall c, In c cs -> (index_volume 2 P [r0; r1] c == 0)%Q).
  { intros c Hc. specialize (L c Hc). destruct c as [|a [|b [|]]]; try discriminate. unfold index_volume, indexed, prod. cbn [length seq combine map fold_right fst snd].
    rewrite !(FA _ 0) by lia. rewrite !(FA _ 1) by lia. cbn [nth]. ring. }
  assert (SV : (fold_right Qplus 0 (map (index_volume 2 P [r0; r1]) cs) == 0)%Q).
  { clear - V. induction cs as [|c cs IH]; [reflexivity|]. cbn [map fold_right]. rewrite (V c) by now left. rewrite IH by (intros; apply V; now right). reflexivity. }
  destruct P as [|p0 P0] eqn:EP; [congruence|]. rewrite <- EP in *. clear EP. cbn [length seq map]. rewrite SV. unfold prod. cbn [fold_right]. rewrite (flat_min r0 r1 P 0), (flat_min r0 r1 P 1) by (auto; lia). cbn [nth]. ring.
Qed.
Lemma flat_clip r0 r1 P : (forall p, In p P -> p = [- r0; - r1]%Q) -> exists v, cells_hypervolume [r0; r1] P (stairs r0 (rev (pairs P)) r1) = Some v /\ (v == 0)%Q.
Proof.
  intros F. assert (D : P = [] \/ P <> []) by (destruct P; [left; reflexivity|right; discriminate]). destruct D as [->|NP]; [exists 0%Q; split; reflexivity|].
  rewrite (chv_unfold [r0; r1] P _ NP). cbn [length]. set (best := best_point 2 P).
  assert (B : forall j, j < 2 -> (nth j best 0 == nth j [r0; r1] 0)%Q).
  { intros j Hj. unfold best, best_point. rewrite nth_seq_map by exact Hj. assert (N : map Qopp (col j P) <> []) by (unfold col; destruct P; [congruence|discriminate]). destruct (vmax_in _ N) as (v & Hv & ->).
    apply in_map_iff in Hv as (w & <- & Hw). apply in_map_iff in Hw as (p & <- & Hp). rewrite (F p Hp). destruct j as [|[|]]; cbn [nth]; [lra|lra|lia]. }
  assert (V : exists v, sum_opt (map (clipped_volume 2 best) (stairs r0 (rev (pairs P)) r1)) = Some v /\ (v == sumQ (map (fun _ => 0) (stairs r0 (rev (pairs P)) r1)))%Q).
  { apply sum_some. intros c Hc. destruct (stairs_values _ _ _ _ Hc) as (a & b & u & -> & A & Bb & U).
    assert (PT : forall q, In q (rev (pairs P)) -> (fst q == r0)%Q /\ (snd q == r1)%Q).
    { intros q Hq. apply in_rev in Hq. apply in_map_iff in Hq as (p & <- & Hp). rewrite (F p Hp). cbn [fst snd nth]. split; lra. }
    assert (EA : (a == r0)%Q) by (destruct A as [->|(q & Hq & ->)]; [reflexivity|apply PT, Hq]). assert (B0 := B 0 ltac:(lia)). assert (B1 := B 1 ltac:(lia)). cbn [nth] in B0, B1.
    assert (EB : (b == r1)%Q) by (destruct Bb as [->|(q & Hq & ->)]; [reflexivity|apply PT, Hq]).
    assert (X0 : exists x, extent (emin (Val a) (nth 0 best 0%Q)) (emin u (nth 0 best 0%Q)) = Some x /\ (x == 0)%Q).
    { assert (U' : u = PInf \/ exists v, u = Val v /\ (v == r0)%Q) by (destruct U as [->|(q & Hq & ->)]; [now left|right; exists (fst q); split; [reflexivity|apply PT, Hq]]).
      cbn [emin]. destruct (Qle_bool a (nth 0 best 0%Q)) eqn:E1; destruct U' as [->|(v & -> & Ev)]; cbn [emin extent]; try (destruct (Qle_bool v (nth 0 best 0%Q)) eqn:E2; cbn [extent]); eexists; (split; [reflexivity|]); match goal with |- context [if ?x then _ else _] => destruct x end; lra. }
    assert (X1 : exists x, extent (emin (Val b) (nth 1 best 0%Q)) (emin PInf (nth 1 best 0%Q)) = Some x /\ (x == 0)%Q).
    { cbn [emin]. destruct (Qle_bool b (nth 1 best 0%Q)); cbn [extent]; eexists; (split; [reflexivity|]); match goal with |- context [if ?x then _ else _] => destruct x end; lra. }
    destruct X0 as (x & Ex & Hx), X1 as (y & Ey & Hy). exists (x * (y * 1))%Q. split; [|rewrite Hx; ring].
    unfold clipped_volume. cbn [seq map fst snd nth] in *. rewrite Ex, Ey. reflexivity. }
  destruct V as (v & Ev & Hv). rewrite Ev. eexists. split; [reflexivity|]. rewrite Hv, sum_zero. cbn [seq map]. unfold prod. cbn [fold_right nth].
  assert (B0 := B 0 ltac:(lia)). assert (B1 := B 1 ltac:(lia)). cbn [nth] in B0, B1.
  assert (Z0 : ((if Qle_bool 0 (nth 0 best 0 - r0) then nth 0 best 0 - r0 else 0) == 0)%Q) by (destruct (Qle_bool _ _); lra). rewrite Z0. ring.
Qed.

Section Pad.
  Variable argsort : list Q -> list nat.
  Hypothesis HS : sorts argsort.
  Variables (r0 r1 : Q) (Y : list vec) (k : nat).
  Notation ref := [r0; r1].
  Hypothesis HR : rectangular 2 Y.
  Notation C := (front_points ref Y).
  Notation P := (sorted_neg argsort (pad k ref C)).

  Lemma pad_in x : In x (pad k ref C) -> In x C \/ (C = [] /\ x = ref).
  Proof.
    unfold pad. destruct C as [|c l] eqn:E; intros H; [right; split; [reflexivity|exact (repeat_spec _ _ _ H)]|]. left. apply in_app_iff in H as [H|H]; [exact H|].
    apply repeat_spec in H. subst x. apply last_in. discriminate.
  Qed.
  Lemma in_pad x : In x C -> In x (pad k ref C).
  Proof. unfold pad. destruct C as [|c l] eqn:E; intros H; [destruct H|]. apply in_app_iff. now left. Qed.
  Lemma pad_length : length C <= k -> length (pad k ref C) = k.
  Proof. unfold pad. destruct C as [|c l] eqn:E; intros H; [apply repeat_length|]. rewrite app_length, repeat_length. lia. Qed.
  Lemma P_perm : Permutation P (map (map Qopp) (pad k ref C)).
  Proof.
    unfold sorted_neg. apply perm_seq_nth. destruct (HS (col 0 (map (map Qopp) (pad k ref C)))) as [K _]. unfold col in K at 2. rewrite map_length in K. exact K.
  Qed.
  Lemma P_length : length C <= k -> length P = k.
  Proof. intros H. rewrite (Permutation_length P_perm), map_length. apply pad_length, H. Qed.
  Lemma P_from p : In p P -> (exists y, In y C /\ p = map Qopp y) \/ (C = [] /\ p = map Qopp ref).
  Proof. intros H. apply (Permutation_in _ P_perm) in H. apply in_map_iff in H as (y & <- & H). apply pad_in in H as [H|[E ->]]; [left; eauto|right; auto]. Qed.
  Lemma P_has y : In y C -> In (map Qopp y) P.
  Proof. intros H. apply (Permutation_in _ (Permutation_sym P_perm)). apply in_map, in_pad, H. Qed.

  Lemma P_len p : In p P -> length p = 2.
  Proof. intros H. apply P_from in H as [(y & Hy & ->)|[_ ->]]; rewrite map_length; [apply (chosen_rect ref Y HR y Hy)|reflexivity]. Qed.
  Lemma P_sorted a b p q : a < b -> nth_error P a = Some p -> nth_error P b = Some q -> (nth 0 p 0 <= nth 0 q 0)%Q.
  Proof.
    unfold sorted_neg. set (N := map (map Qopp) (pad k ref C)). intros L E1 E2. rewrite nth_error_map in E1, E2. destruct (HS (col 0 N)) as [HP HO].
    destruct (nth_error (argsort (col 0 N)) a) as [i|] eqn:F1; [|discriminate]. destruct (nth_error (argsort (col 0 N)) b) as [j|] eqn:F2; [|discriminate].
    cbn [option_map] in E1, E2. injection E1 as <-. injection E2 as <-. specialize (HO a b i j L F1 F2).
    assert (G : forall i k, nth_error (argsort (col 0 N)) k = Some i -> nth i (col 0 N) 0%Q = nth 0 (nth i N []) 0%Q).
    { intros i' k' F. apply nth_error_In in F. apply (Permutation_in _ HP) in F. apply in_seq in F. unfold col in *. rewrite map_length in F.
      rewrite (nth_indep _ 0%Q (nth 0 (@nil Q) 0%Q)) by (rewrite map_length; lia). apply (map_nth (fun r => nth 0 r 0%Q)). }
    rewrite (G i a F1), (G j b F2) in HO. exact HO.
  Qed.
  Lemma P_apart p q : In p P -> In q P -> p = q \/ (~ weakly_better p q /\ ~ weakly_better q p).
  Proof.
    intros Hp Hq. apply P_from in Hp as [(x & Hx & ->)|[E ->]]; apply P_from in Hq as [(y & Hy & ->)|[E' ->]]; try (rewrite E in *; destruct Hy); try (rewrite E' in *; destruct Hx); [|now left].
    assert (G : forall u v, In u C -> In v C -> weakly_better (map Qopp u) (map Qopp v) -> covers u v).
    { intros u v Hu Hv W. assert (Lu := chosen_rect ref Y HR u Hu). assert (Lv := chosen_rect ref Y HR v Hv).
      unfold weakly_better, covers in *. rewrite F2_nth with (da := 0%Q) (db := 0%Q) in W by (rewrite !map_length; congruence).
      rewrite F2_nth with (da := 0%Q) (db := 0%Q) by congruence. rewrite map_length in W.
      intros j Hj. specialize (W j ltac:(lia)). rewrite !opp_nth in W.
      destruct (Nat.ltb_spec j (length u)); [|lia]. destruct (Nat.ltb_spec j (length v)); [|lia]. lra. }
    destruct (ForallOrdPairs_In (chosen_antichain ref Y HR) x y Hx Hy) as [->|[[N1 N2]|[N1 N2]]]; [now left| |]; right; split; intros W; apply G in W; auto.
  Qed.
  Lemma P_below p : In p P -> (nth 0 p 0 <= - r0)%Q /\ (nth 1 p 0 <= - r1)%Q.
  Proof.
    intros H. apply P_from in H as [(y & Hy & ->)|[_ ->]]; [|cbn [map nth]; lra]. destruct (chosen_Y ref Y HR y Hy) as [_ A]. assert (L := chosen_rect ref Y HR y Hy).
    destruct y as [|a [|b [|]]]; try discriminate. inversion A as [|? ? ? ? A1 A2]; subst. inversion A2 as [|? ? ? ? A3 _]; subst. cbn [map nth]. lra.
  Qed.
  Lemma above_pair z0 z1 : strictly_above ref [z0; z1] -> (r0 < z0)%Q /\ (r1 < z1)%Q.
  Proof. intros A. inversion A as [|? ? ? ? A1 A2]; subst. inversion A2 as [|? ? ? ? A3 _]; subst. auto. Qed.
  Lemma P_cov z0 z1 : strictly_above ref [z0; z1] -> (cov2 (pairs P) z0 z1 <-> dominated_by Y [z0; z1]).
  Proof.
    intros A. destruct (above_pair _ _ A) as [A0 A1]. split.
    - intros (x & Hx & C0 & C1). apply in_map_iff in Hx as (p & <- & Hp). cbn [fst snd] in *. apply P_from in Hp as [(y & Hy & ->)|[_ ->]]; [|cbn [map nth] in *; lra].
      destruct (chosen_Y ref Y HR y Hy) as [B _]. exists y. split; [exact B|]. assert (L := HR y B). destruct y as [|a [|b [|]]]; try discriminate. cbn [map nth] in *.
      apply Forall2_cons; [lra|]. apply Forall2_cons; [lra|constructor].
    - intros (y & Hy & Cy). assert (L := HR y Hy). assert (SA : strictly_above ref y).
      { destruct y as [|a [|b [|]]]; try discriminate. inversion Cy as [|? ? ? ? B1 B2]; subst. inversion B2 as [|? ? ? ? B3 _]; subst. apply Forall2_cons; [lra|]. apply Forall2_cons; [lra|constructor]. }
      destruct (chosen_covers ref Y HR y Hy SA) as (x & Hx & Cx). exists ((- nth 0 (map Qopp x) 0)%Q, (- nth 1 (map Qopp x) 0)%Q). split.
      + apply in_map_iff. exists (map Qopp x). split; [reflexivity|]. apply P_has, Hx.
      + assert (Lx := chosen_rect ref Y HR x Hx). destruct x as [|a [|b [|]]]; try discriminate. destruct y as [|c [|d [|]]]; try discriminate.
        inversion Cx as [|? ? ? ? B1 B2]; subst. inversion B2 as [|? ? ? ? B3 _]; subst. inversion Cy as [|? ? ? ? B4 B5]; subst. inversion B5 as [|? ? ? ? B6 _]; subst. cbn [map nth fst snd]. split; lra.
  Qed.

  (** *** the cells *)
  Lemma pad_class : partitions (map (cell_bounds P ref) (partition_space_2d argsort P)) ref Y /\ nothing_below (map (cell_bounds P ref) (partition_space_2d argsort P)) ref.
  Proof. apply (class_padded argsort HS r0 r1 P P_len P_sorted P_apart P_below Y P_cov). Qed.
  Lemma pad_fast : partitions (stairs r0 (rev (pairs P)) r1) ref Y /\ nothing_below (stairs r0 (rev (pairs P)) r1) ref.
  Proof. apply (fast_padded r0 r1 P P_len P_sorted P_apart P_below Y P_cov). Qed.

  (** *** the volumes *)
  Lemma none_volume Gs : grid_for Gs ref Y -> C = [] -> (measure Gs ref Y == 0)%Q.
  Proof.
    intros HG E. apply (measure_none ref Y Gs [] HR HG); [|reflexivity]. intros y Hy SA. destruct (chosen_covers ref Y HR y Hy SA) as (x & Hx & _). change (In x C) in Hx. rewrite E in Hx. destruct Hx.
  Qed.
  Lemma P_outcomes : C <> [] -> from_outcomes ref Y P /\ reaches ref Y P.
  Proof.
    intros NE. split.
    - intros p Hp. apply P_from in Hp as [(y & Hy & ->)|[E _]]; [|congruence]. destruct (chosen_Y ref Y HR y Hy) as [A B]. exists y. auto.
    - intros y Hy SA. destruct (chosen_covers ref Y HR y Hy SA) as (x & Hx & Cx). exists (map Qopp x). split; [apply P_has, Hx|].
      intros l Hl. destruct (chosen_Y ref Y HR x Hx) as [A _]. rewrite !(opp_at' _ 2) by (auto; apply HR; auto). apply (F2_nth Qle 0%Q 0%Q) with (j := l) in Cx; [lra| |rewrite (HR y Hy); exact Hl]. rewrite (HR y Hy), (HR x A). reflexivity.
  Qed.
  Lemma P_nonempty : C <> [] -> P <> [].
  Proof. intros NE E. destruct C as [|c l] eqn:EC; [congruence|]. assert (H := P_has c). rewrite EC in H. specialize (H (or_introl eq_refl)). rewrite E in H. destruct H. Qed.

  Lemma P_flat : C = [] -> forall p, In p P -> p = [- r0; - r1]%Q.
  Proof. intros E p Hp. apply P_from in Hp as [(y & Hy & _)|[_ K]]; [rewrite E in Hy; destruct Hy|exact K]. Qed.
  Lemma pad_index_volume Gs : grid_for Gs ref Y -> (index_hypervolume ref P (partition_space_2d argsort P) == measure Gs ref Y)%Q.
  Proof.
    intros HG. assert (D : C = [] \/ C <> []) by (destruct C; [left; reflexivity|right; discriminate]). destruct D as [E|NE].
    - rewrite (none_volume Gs HG E). apply flat_index; [apply P_flat, E|]. intros c Hc. apply in_map_iff in Hc as (i & <- & _). reflexivity.
    - destruct (P_outcomes NE) as [FO RE]. assert (NP := P_nonempty NE). destruct pad_class as [PA NB].
      apply (index_total ref Y Gs P HR HG FO RE NP); auto.
      + intros c Hc. apply in_map_iff in Hc as (i & <- & _). reflexivity.
      + intros c j lu Hc. apply in_map_iff in Hc as (i & <- & Hi). apply in_seq in Hi.
        destruct j as [|[|j]]; intros F; cbn [nth_error] in F; [| |destruct j; discriminate]; injection F as <-; cbn [fst snd].
        * destruct i as [|i]; [exact (fa_ge ref Y P HR FO RE NP 1 0 ltac:(simpl; lia))|]. cbn [finite_at]. destruct (lt_nth_error P i ltac:(lia)) as (p & Ep). rewrite Ep. assert (Ip : In p P) by (eapply nth_error_In; eauto).
          destruct (nth_error P (S i)) as [q|] eqn:Eq; [exact (P_sorted i (S i) p q ltac:(lia) Ep Eq)|]. assert (K := front_under ref Y P HR FO p 0 Ip ltac:(simpl; lia)). lra.
        * exact (fa_ge ref Y P HR FO RE NP _ 1 ltac:(simpl; lia)).
  Qed.
  Lemma pad_fast_volume Gs : grid_for Gs ref Y -> exists v, cells_hypervolume ref P (stairs r0 (rev (pairs P)) r1) = Some v /\ (v == measure Gs ref Y)%Q.
  Proof.
    intros HG. assert (D : C = [] \/ C <> []) by (destruct C; [left; reflexivity|right; discriminate]). destruct D as [E|NE].
    - destruct (flat_clip r0 r1 P (P_flat E)) as (v & Ev & Hv). exists v. split; [exact Ev|]. rewrite Hv, (none_volume Gs HG E). reflexivity.
    - destruct (P_outcomes NE) as [FO RE]. assert (NP := P_nonempty NE). destruct pad_fast as [PA NB].
      apply (clip_hypervolume ref Y Gs P HR HG FO RE NP _ PA NB).
      destruct (grid_lines ref Y Gs HG) as [_ G]. destruct (G 0 ltac:(simpl; lia)) as (_ & G0 & _). destruct (G 1 ltac:(simpl; lia)) as (_ & G1 & _). cbn [nth] in G0, G1.
      intros c Hc. destruct (stairs_values _ _ _ _ Hc) as (a & b & u & -> & A & B & U). split; [reflexivity|]. split; [reflexivity|].
      assert (PT : forall q, In q (rev (pairs P)) -> on_line (fst q) (nth 0 Gs []) /\ on_line (snd q) (nth 1 Gs [])).
      { intros q Hq. apply in_rev in Hq. apply in_map_iff in Hq as (p & <- & Hp). cbn [fst snd]. split; apply (front_line ref Y Gs _ HR HG FO p); auto; simpl; lia. }
      intros [|[|j]] Hj; [| |simpl in Hj; lia]; cbn [fst snd nth].
      + split; [right; exists a; split; [reflexivity|]; destruct A as [->|(q & Hq & ->)]; [exact G0|apply PT, Hq]|].
        destruct U as [->|(q & Hq & ->)]; [now left|right; exists (fst q); split; [reflexivity|apply PT, Hq]].
      + split; [right; exists b; split; [reflexivity|]; destruct B as [->|(q & Hq & ->)]; [exact G1|apply PT, Hq]|now left].
  Qed.
End Pad.
