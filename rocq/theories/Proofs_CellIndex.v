(** Lemmas about Model_CellVolume.v: the volume of cells given by positions in the front. *)
From Coq Require Import List Bool Arith ZArith QArith Qminmax Lia Lqa Permutation.
From Verif Require Import Lib_List Model_Pareto Spec_Pareto Model_Boxes Spec_Boxes Proofs_Boxes Proofs_BoxFront Proofs_Box2D Proofs_BoxRuns Model_Lacour Proofs_LacourRuns Spec_HV Proofs_HVmeasure Proofs_HVgrid Model_CellVolume Proofs_CellVolume Proofs_CellClip.
Import ListNotations.
Open Scope nat_scope.

Lemma prod_ext {A} (f g : A -> Q) l : (forall a, In a l -> (f a == g a)%Q) -> (prod (map f l) == prod (map g l))%Q.
Proof. induction l as [|a l IH]; intros H; simpl; [reflexivity|]. rewrite (H a) by now left. rewrite IH by (intros; apply H; now right). reflexivity. Qed.
Lemma prod_clamp' {A} (f g h : A -> Q) l : (forall j, In j l -> (h j == clamp (f j) (g j))%Q) -> (prod (map h l) == boxvol (map f l) (map g l))%Q.
Proof. induction l as [|a l IH]; intros H; simpl; [reflexivity|]. rewrite (H a) by now left. rewrite IH by (intros j Hj; apply H; now right). reflexivity. Qed.
Lemma indexed_In {A} (l : list A) jc : In jc (indexed l) -> nth_error l (fst jc) = Some (snd jc) /\ fst jc < length l.
Proof.
  intros H. apply In_nth_error in H as (k & E). rewrite nth_error_indexed in E. destruct (nth_error l k) as [a|] eqn:F; [|discriminate]. injection E as <-. split; [exact F|]. eapply nth_error_lt; eauto.
Qed.

Section Index.
  Variables (ref : vec) (Y : list vec) (Gs : list (list Q)) (P : list vec).
  Notation m := (length ref).
  Hypothesis HR : rectangular m Y.
  Hypothesis HG : grid_for Gs ref Y.
  Hypothesis FO : from_outcomes ref Y P.
  Hypothesis RE : reaches ref Y P.
  Hypothesis NP : P <> [].
  Notation fa := (finite_at m P ref).
  Let best : vec := map (fun j => (- vmin (col j P))%Q) (seq 0 m).

  Lemma front_under p j : In p P -> j < m -> (nth j p 0 < - nth j ref 0)%Q.
  Proof.
    intros Hp Hj. destruct (FO p Hp) as (y & Hy & SA & ->). rewrite (opp_at' y m) by (auto; apply HR, Hy). unfold strictly_above in SA. apply (F2_nth Qlt 0%Q 0%Q) with (j := j) in SA; [lra|symmetry; apply HR, Hy|exact Hj].
  Qed.
  Lemma min_best : is_best ref P best.
  Proof.
    unfold best. split; [now rewrite map_length, seq_length|]. intros j Hj. rewrite nth_seq_map by exact Hj. split.
    - intros p Hp. assert (K : (vmin (col j P) <= nth j p 0)%Q) by (apply vmin_le, in_map_iff; eauto). lra.
    - destruct (vmin_in (col j P)) as (v & Hv & E). { destruct P; [congruence|discriminate]. } apply in_map_iff in Hv as (p & <- & Hp). exists p. split; [exact Hp|]. lra.
  Qed.
  Lemma some_p : exists p, In p P.
  Proof. destruct P as [|p l]; [congruence|]. exists p. now left. Qed.
  Lemma fa_ge i j : j < m -> (vmin (col j P) <= fa i j)%Q.
  Proof.
    intros Hj. destruct i as [|k]; simpl; [lra|]. destruct (nth_error P k) as [p|] eqn:E.
    - apply vmin_le, in_map_iff. exists p. split; [reflexivity|]. eapply nth_error_In; eauto.
    - destruct some_p as (p & Hp). assert (A := front_under p j Hp Hj). assert (K : (vmin (col j P) <= nth j p 0)%Q) by (apply vmin_le, in_map_iff; eauto). lra.
  Qed.
  Lemma fa_line i j : j < m -> on_line (- fa i j)%Q (nth j Gs []).
  Proof.
    intros Hj. destruct i as [|k]; simpl.
    - assert (L := best_lines ref Y Gs P HR HG FO best min_best). destruct L as [_ L]. specialize (L j Hj). unfold best in L. rewrite nth_seq_map in L by exact Hj. exact L.
    - destruct (nth_error P k) as [p|] eqn:E; [apply (front_line ref Y Gs P HR HG FO); [eapply nth_error_In; eauto|exact Hj]|].
      destruct (grid_lines ref Y Gs HG) as [_ G]. destruct (G j Hj) as (_ & K & _). apply (on_line_eq (nth j ref 0%Q)); [lra|exact K].
  Qed.
  Lemma fa_above i j z : (z <= - vmin (col j P))%Q -> (above (eopp (bound_at P ref i j)) z <-> (- fa i j < z)%Q).
  Proof. intros Hz. destruct i as [|k]; simpl; [split; [tauto|lra]|]. destruct (nth_error P k); simpl; reflexivity. Qed.
  Lemma fa_upto i j z : (z <= - vmin (col j P))%Q -> (upto z (eopp (bound_at P ref i j)) <-> (z <= - fa i j)%Q).
  Proof. intros Hz. destruct i as [|k]; simpl; [tauto|]. destruct (nth_error P k); simpl; reflexivity. Qed.

  Theorem index_total cs : (forall c, In c cs -> length c = m) ->
    (forall c j lu, In c cs -> nth_error c j = Some lu -> (fa (fst lu) j <= fa (snd lu) j)%Q) ->
    partitions (map (cell_bounds P ref) cs) ref Y -> nothing_below (map (cell_bounds P ref) cs) ref ->
    (index_hypervolume ref P cs == measure Gs ref Y)%Q.
  Proof.
    intros LC MO PA NB. assert (IB := min_best). assert (LB := best_lines ref Y Gs P HR HG FO best IB).
    set (lo := fun c : list (nat * nat) => map (fun jc => (- fa (snd (snd jc)) (fst jc))%Q) (indexed c)).
    set (hi := fun c : list (nat * nat) => map (fun jc => (- fa (fst (snd jc)) (fst jc))%Q) (indexed c)).
    set (boxes := map (fun c => (lo c, hi c)) cs).
    assert (AT : forall c j lu, nth_error c j = Some lu -> nth j (lo c) 0%Q = (- fa (snd lu) j)%Q /\ nth j (hi c) 0%Q = (- fa (fst lu) j)%Q).
    { intros c j lu E. unfold lo, hi. split; apply nth_error_nth; rewrite nth_error_map, nth_error_indexed, E; reflexivity. }
    assert (LL : forall c, In c cs -> length (lo c) = m /\ length (hi c) = m).
    { intros c Hc. unfold lo, hi. rewrite !map_length, !indexed_len. split; apply LC, Hc. }
    assert (GET : forall c j, In c cs -> j < m -> exists lu, nth_error c j = Some lu) by (intros c j Hc Hj; apply lt_nth_error; rewrite (LC c Hc); exact Hj).
    assert (BN : forall j, j < m -> nth j best 0%Q = (- vmin (col j P))%Q) by (intros j Hj; unfold best; now rewrite nth_seq_map).
    assert (FI : forall c z, In c cs -> within ref best z -> (fin z (lo c, hi c) <-> inside z (cell_bounds P ref c))).
    { intros c z Hc [Lz Wz]. unfold fin, inside, cell_bounds. cbn [fst snd].
      rewrite (F2_nth above NInf 0%Q) by (rewrite map_length, indexed_len, (LC c Hc); auto). rewrite (F2_nth upto 0%Q NInf) by (rewrite map_length, indexed_len, (LC c Hc); auto).
      rewrite map_length, indexed_len, (LC c Hc), Lz.
      assert (E1 : forall j lu, nth_error c j = Some lu -> nth j (map (fun jc => eopp (bound_at P ref (snd (snd jc)) (fst jc))) (indexed c)) NInf = eopp (bound_at P ref (snd lu) j)).
      { intros j lu E. apply nth_error_nth. rewrite nth_error_map, nth_error_indexed, E. reflexivity. }
      assert (E2 : forall j lu, nth_error c j = Some lu -> nth j (map (fun jc => eopp (bound_at P ref (fst (snd jc)) (fst jc))) (indexed c)) NInf = eopp (bound_at P ref (fst lu) j)).
      { intros j lu E. apply nth_error_nth. rewrite nth_error_map, nth_error_indexed, E. reflexivity. }
      split.
      - intros F. split; intros j Hj; destruct (GET c j Hc Hj) as (lu & E); destruct (AT c j lu E) as [A1 A2]; destruct (F j Hj) as [F1 F2]; specialize (Wz j Hj); rewrite BN in Wz by exact Hj.
        + rewrite (E1 j lu E). apply fa_above; [exact Wz|]. rewrite <- A1. exact F1.
        + rewrite (E2 j lu E). apply fa_upto; [exact Wz|]. rewrite <- A2. exact F2.
      - intros [A B] j Hj. destruct (GET c j Hc Hj) as (lu & E); destruct (AT c j lu E) as [A1 A2]; specialize (Wz j Hj); rewrite BN in Wz by exact Hj. specialize (A j Hj). specialize (B j Hj).
        rewrite (E1 j lu E) in A. rewrite (E2 j lu E) in B. rewrite A1, A2. split; [apply (fa_above _ _ _ Wz), A|apply (fa_upto _ _ _ Wz), B]. }
    assert (IN : forall b, In b boxes <-> exists c, b = (lo c, hi c) /\ In c cs).
    { intros b. unfold boxes. rewrite in_map_iff. split; intros (c & E & Hc); exists c; auto. }
    assert (P4 : forall b, In b boxes -> forall k, k < m -> (nth k (snd b) 0 <= nth k best 0)%Q).
    { intros b Hb k Hk. apply IN in Hb as (c & -> & Hc). destruct (GET c k Hc Hk) as (lu & E); destruct (AT c k lu E) as [_ A2]. cbn [snd]. rewrite A2, BN by exact Hk. assert (K := fa_ge (fst lu) k Hk). lra. }
    assert (MAIN : (boxvol ref best - sumQ (map (fun b => boxvol (fst b) (snd b)) boxes) == measure Gs ref Y)%Q).
    { apply outside_volume; auto.
      - apply (best_covers ref Y P HR RE best IB).
      - intros b Hb. apply IN in Hb as (c & -> & Hc). destruct (LL c Hc) as [L1 L2]. cbn [fst snd]. split; (split; [assumption|]); intros k Hk; destruct (GET c k Hc Hk) as (lu & E); destruct (AT c k lu E) as [A1 A2]; rewrite ?A1, ?A2; now apply fa_line.
      - intros z W SA D b Hb F. apply IN in Hb as (c & -> & Hc). apply (FI c z Hc W) in F. destruct (PA z SA) as [A _]. exact (A D _ (in_map (cell_bounds P ref) cs c Hc) F).
      - intros z W SA D. destruct (PA z SA) as [_ A]. destruct (A D) as (l & c & r & E & I & O).
        apply map_eq_app in E as (l' & r'' & -> & <- & E). destruct r'' as [|c' r']; [discriminate|]. cbn [map] in E. injection E as <- <-. rewrite <- map_app in O.
        unfold boxes. rewrite map_app. cbn [map]. do 3 eexists. split; [reflexivity|].
        assert (Hc : In c' (l' ++ c' :: r')) by (apply in_app_iff; simpl; auto). split; [apply FI; auto|]. intros d Hd. rewrite <- map_app in Hd. apply in_map_iff in Hd as (d' & <- & Hd). intros F.
        apply (O (cell_bounds P ref d')); [apply in_map; exact Hd|]. apply FI; auto. apply in_app_iff in Hd. apply in_app_iff. simpl. tauto.
      - intros z Lz NS b Hb F. apply IN in Hb as IC. destruct IC as (c & -> & Hc). assert (W : within ref best z).
        { split; [exact Lz|]. intros k Hk. destruct (F k ltac:(lia)) as [_ K]. assert (T := P4 _ Hb k Hk). lra. }
        apply (FI c z Hc W) in F. exact (NB z Lz NS _ (in_map (cell_bounds P ref) cs c Hc) F). }
    assert (UN : (index_hypervolume ref P cs == prod (map (fun j => - nth j ref 0 - vmin (col j P)) (seq 0 m)) - sumQ (map (index_volume m P ref) cs))%Q).
    { unfold index_hypervolume. destruct P; [congruence|reflexivity]. }
    rewrite UN, <- MAIN. unfold boxes. rewrite map_map. cbn [fst snd]. apply Qplus_comp; [|apply Qopp_comp].
    - rewrite (prod_clamp' (fun j => nth j ref 0%Q) (fun j => nth j best 0%Q)).
      + rewrite map_nth_seq. replace m with (length best) by apply IB. rewrite map_nth_seq. reflexivity.
      + intros j Hj. apply in_seq in Hj. rewrite BN by lia. unfold clamp. destruct (Qle_bool (nth j ref 0%Q) (- vmin (col j P))%Q) eqn:E1; [ring|]. apply Qle_bool_false in E1. exfalso.
        destruct some_p as (p & Hp). assert (A := front_under p j Hp ltac:(lia)). assert (K : (vmin (col j P) <= nth j p 0)%Q) by (apply vmin_le, in_map_iff; eauto). lra.
    - apply sum_ext. intros c Hc. unfold index_volume, lo, hi. apply prod_clamp'. intros jc Hj. apply indexed_In in Hj as [E _]. assert (K := MO c (fst jc) (snd jc) Hc E). unfold clamp.
      destruct (Qle_bool (- fa (snd (snd jc)) (fst jc))%Q (- fa (fst (snd jc)) (fst jc))%Q) eqn:E1; [ring|]. apply Qle_bool_false in E1. lra.
  Qed.
End Index.

(** The cells the loop returns are made of increasing positions. *)
Section Loop.
  Variables (argsort : list Q -> list nat) (argmax : list nat -> nat).
  Hypothesis HS : sorts argsort.
  Hypothesis HM : finds_max argmax.
  Variables (m : nat) (P : list vec).
  Lemma loop_valid alpha : forall fuel stack acc res, (forall c, In c stack -> valid m P c) ->
    (forall d, In d acc -> exists c, valid m P c /\ d = cell_idx argsort P c) ->
    bp_loop argsort argmax fuel m alpha P stack acc = Some res -> forall d, In d res -> exists c, valid m P c /\ d = cell_idx argsort P c.
  Proof.
    induction fuel as [|fuel IH]; intros [|c stack] acc res HV HA; cbn [bp_loop]; try discriminate.
    - intros E. injection E as <-. exact HA.
    - intros E. injection E as <-. exact HA.
    - assert (HV' : forall c, In c stack -> valid m P c) by (intros d Hd; apply HV; now right). assert (Vc := HV c (or_introl eq_refl)).
      destruct (forallb _ P); [|destruct (forallb _ P); [destruct (existsb (fun d => 1 <? d) (map (fun lu => snd lu - fst lu) c)) eqn:E3; cbn [andb]; [destruct (Qltb _ _)|]|]]; intros E.
      + refine (IH _ _ _ HV' _ E). intros d Hd. apply in_app_or in Hd as [Hd|[<-|[]]]; eauto.
      + refine (IH _ _ _ _ HA E). fold (dist c) in *. set (k := argmax (dist c)) in *.
        assert (NE : dist c <> []) by (destruct (dist c); [discriminate|congruence]).
        destruct (HM (dist c) NE) as [M1 M2]. fold k in M1, M2.
        apply existsb_exists in E3. destruct E3 as (d & Hd & Ed). apply Nat.ltb_lt in Ed. specialize (M2 d Hd).
        destruct (lt_nth_error _ _ M1) as (dk & Dk). rewrite (nth_error_nth _ _ 0 Dk) in *.
        assert (Dk' := Dk). rewrite dist_nth in Dk'. destruct (nth_error c k) as [[lo hi]|] eqn:F; [|discriminate].
        cbn [option_map fst snd] in Dk'. injection Dk' as Dk'.
        destruct Vc as (L & V). assert (Vk := V k _ F). cbn [fst snd] in Vk.
        destruct (half_bounds dk ltac:(lia)) as [B1 B2].
        assert (U : forall f, (fst (f (lo, hi)) < snd (f (lo, hi)) <= S (length P)) -> valid m P (update_nth k f c)).
        { intros f Hf. split; [rewrite update_length; exact L|]. intros j lu Ej. rewrite nth_error_update in Ej. destruct (nth_error c j) as [lu'|] eqn:G; [|discriminate].
          cbn [option_map] in Ej. injection Ej as <-. destruct (Nat.eqb_spec j k) as [->|N]; [|apply (V j), G]. rewrite F in G. injection G as <-. exact Hf. }
        intros e [<-|[<-|He]]; [apply U; cbn [fst snd]; lia|apply U; cbn [fst snd]; lia|auto].
      + refine (IH _ _ _ HV' HA E).
      + refine (IH _ _ _ HV' HA E).
      + refine (IH _ _ _ HV' HA E).
  Qed.
End Loop.

Section Whole.
  Variables (argsort : list Q -> list nat) (argmax : list nat -> nat).
  Hypothesis HS : sorts argsort.
  Hypothesis HM : finds_max argmax.
  Variables (ref : vec) (Y : list vec) (Gs : list (list Q)).
  Notation m := (length ref).
  Hypothesis HR : rectangular m Y.
  Hypothesis HG : grid_for Gs ref Y.
  Notation P := (neg_front argsort true ref Y).

  Lemma sorted_front : from_outcomes ref Y P /\ reaches ref Y P.
  Proof.
    split.
    - intros p Hp. destruct (front_in argsort HS ref Y HR p Hp) as (y & Hy & ->). destruct (chosen_Y ref Y HR y Hy) as [A B]. exists y. auto.
    - intros y Hy SA. destruct (chosen_covers ref Y HR y Hy SA) as (x & Hx & C). exists (map Qopp x). split; [apply (in_front argsort HS ref Y HR x Hx)|].
      intros l Hl. destruct (chosen_Y ref Y HR x Hx) as [A _]. rewrite !(opp_at' _ m) by (auto; apply HR; auto). apply (F2_nth Qle 0%Q 0%Q) with (j := l) in C; [lra| |rewrite (HR y Hy); exact Hl]. rewrite (HR y Hy), (HR x A). reflexivity.
  Qed.
  Hypothesis NP : P <> [].
  Lemma pos_mono j a b : j < m -> a <= b -> b <= S (length P) -> (finite_at m P ref (at_pos argsort P j a) j <= finite_at m P ref (at_pos argsort P j b) j)%Q.
  Proof.
    intros Hj L H. destruct sorted_front as [FO RE]. destruct (Nat.eq_dec a b) as [->|N]; [lra|]. destruct a as [|a]; [exact (fa_ge ref Y P HR FO RE NP (at_pos argsort P j b) j Hj)|]. destruct b as [|b]; [lia|].
    destruct (atp_mid argsort HS P j a) as (i & Ei & Fi); [lia|]. assert (Hi := sort_lt argsort HS P j a i Ei). destruct (lt_nth_error _ _ Hi) as (p & Ep).
    assert (Ip : In p P) by (eapply nth_error_In; eauto). rewrite Fi. cbn [finite_at]. rewrite Ep.
    destruct (Nat.eq_dec b (length P)) as [->|Nb].
    - rewrite (atp_top argsort HS P j). cbn [finite_at]. destruct (nth_error P (length P)) eqn:E; [apply nth_error_lt in E; lia|]. assert (K := front_under ref Y P HR FO p j Ip Hj). lra.
    - destruct (atp_mid argsort HS P j b) as (i' & Ei' & Fi'); [lia|]. assert (Hi' := sort_lt argsort HS P j b i' Ei'). destruct (lt_nth_error _ _ Hi') as (q & Eq). rewrite Fi'. cbn [finite_at]. rewrite Eq.
      destruct (HS (col j P)) as [_ K]. specialize (K a b i i' ltac:(lia) Ei Ei'). rewrite (col_nth P j i p Ep), (col_nth P j i' q Eq) in K. exact K.
  Qed.

  Lemma cell_idx_mono c : valid m P c -> length (cell_idx argsort P c) = m /\
    forall j lu, nth_error (cell_idx argsort P c) j = Some lu -> (finite_at m P ref (fst lu) j <= finite_at m P ref (snd lu) j)%Q.
  Proof.
    intros [L V]. split; [unfold cell_idx; now rewrite map_length, indexed_len|]. intros j lu E. rewrite cell_idx_nth in E. destruct (nth_error c j) as [lu'|] eqn:F; [|discriminate].
    injection E as <-. cbn [fst snd]. specialize (V j lu' F). apply pos_mono; [rewrite <- L; eapply nth_error_lt; eauto|lia|lia].
  Qed.
  Lemma space_mono alpha fuel cs : partition_space argsort argmax fuel m alpha P = Some cs -> forall c, In c cs -> length c = m /\
    forall j lu, nth_error c j = Some lu -> (finite_at m P ref (fst lu) j <= finite_at m P ref (snd lu) j)%Q.
  Proof.
    intros E c Hc. assert (V0 : valid m P (repeat (0, S (length P)) m)).
    { split; [apply repeat_length|]. intros j lu F. rewrite repeat_nth_error in F. destruct (j <? m); [|discriminate]. injection F as <-. cbn [fst snd]. lia. }
    assert (X : exists d, valid m P d /\ c = cell_idx argsort P d).
    { unfold partition_space in E. destruct P as [|p0 P0] eqn:EP; [congruence|]. rewrite <- EP in *. refine (loop_valid argsort argmax HM m P alpha _ _ _ _ _ _ E c Hc); [intros d [<-|[]]; exact V0|intros d []]. }
    destruct X as (d & V & ->). apply cell_idx_mono, V.
  Qed.
End Whole.

Section WholeTwo.
  Variables (argsort : list Q -> list nat).
  Hypothesis HS : sorts argsort.
  Variables (r0 r1 : Q) (Y : list vec).
  Notation ref := [r0; r1].
  Hypothesis HR : rectangular 2 Y.
  Notation P := (neg_front argsort true ref Y).
  Hypothesis NP : P <> [].
  Lemma two_mono c : In c (partition_space_2d argsort P) -> length c = 2 /\
    forall j lu, nth_error c j = Some lu -> (finite_at 2 P ref (fst lu) j <= finite_at 2 P ref (snd lu) j)%Q.
  Proof.
    intros Hc. destruct (sorted_front argsort HS ref Y HR) as [FO RE]. apply in_map_iff in Hc as (i & <- & Hi). apply in_seq in Hi. split; [reflexivity|].
    intros [|[|j]] lu E; cbn [nth_error] in E; [| |destruct j; discriminate]; injection E as <-; cbn [fst snd].
    - destruct i as [|i]; [exact (fa_ge ref Y P HR FO RE NP 1 0 ltac:(simpl; lia))|]. cbn [finite_at]. destruct (lt_nth_error P i ltac:(lia)) as (p & Ep). rewrite Ep. assert (Ip : In p P) by (eapply nth_error_In; eauto).
      destruct (nth_error P (S i)) as [q|] eqn:Eq.
      + exact (front_sorted_0 argsort HS r0 r1 Y HR i (S i) p q ltac:(lia) Ep Eq).
      + assert (K := front_under ref Y P HR FO p 0 Ip ltac:(simpl; lia)). lra.
    - exact (fa_ge ref Y P HR FO RE NP _ 1 ltac:(simpl; lia)).
  Qed.
End WholeTwo.

(** The measure depends only on what the outcomes dominate. *)
Lemma measure_same ref Y Y' Gs : rectangular (length ref) Y -> rectangular (length ref) Y' -> grid_for Gs ref Y -> grid_for Gs ref Y' ->
  (forall z, strictly_above ref z -> (dominated_by Y z <-> dominated_by Y' z)) -> (measure Gs ref Y == measure Gs ref Y')%Q.
Proof.
  intros R R' G G' H. unfold measure. apply sum_ext. intros c Hc.
  assert (DOM : forall Y, rectangular (length ref) Y -> grid_for Gs ref Y -> (existsb (fun y => between ref y c) Y = true <-> strictly_above ref (map snd c) /\ dominated_by Y (map snd c))).
  { clear - Hc. intros Y HR HG. assert (ZL := z_len ref Y Gs HG c Hc). rewrite existsb_exists. split.
    - intros (y & Hy & B). apply (between_fin ref Y Gs HG c Hc ref y (lines_ref ref Y Gs HG) (lines_y ref Y Gs HR HG y Hy)) in B. split; [apply (fin_above ref Y Gs HG c Hc y B)|]. exists y. split; [exact Hy|]. unfold covers.
      apply (F2_nth Qle 0%Q 0%Q); [rewrite ZL; symmetry; apply HR, Hy|]. intros k Hk. apply (B k Hk).
    - intros (SA & y & Hy & C). exists y. split; [exact Hy|]. apply (between_fin ref Y Gs HG c Hc ref y (lines_ref ref Y Gs HG) (lines_y ref Y Gs HR HG y Hy)). intros k Hk. cbn [fst snd]. rewrite ZL in Hk.
      split; [apply (above_nth ref Y Gs HG c Hc k SA Hk)|]. apply (F2_nth Qle 0%Q 0%Q) with (j := k) in C; [exact C|rewrite ZL; symmetry; apply HR, Hy|rewrite ZL; exact Hk]. }
  assert (E : existsb (fun y => between ref y c) Y = existsb (fun y => between ref y c) Y'); [|rewrite E; reflexivity].
  apply eq_true_iff_eq. rewrite (DOM Y R G), (DOM Y' R' G'). split; intros [A B]; split; auto; apply (H _ A); auto.
Qed.
Lemma grid_sub Gs ref Y Y' : incl Y' Y -> grid_for Gs ref Y -> grid_for Gs ref Y'.
Proof. intros I [L H]. split; [exact L|]. intros k G E. destruct (H k G E) as (A & B & C). split; [exact A|]. split; [exact B|]. intros y Hy. apply C, I, Hy. Qed.

(** The cells of the constructor. *)
Lemma cells_of_volume argsort argmax alpha ref Y Gs cs : sorts argsort -> finds_max argmax -> (alpha <= 0)%Q -> rectangular (length ref) Y -> grid_for Gs ref Y ->
  cells_of argsort argmax alpha ref (neg_front argsort true ref Y) = Some cs -> (index_hypervolume ref (neg_front argsort true ref Y) cs == measure Gs ref Y)%Q.
Proof.
  intros HS HM HA HR HG E. destruct (sorted_front argsort HS ref Y HR) as [FO RE].
  assert (DP : neg_front argsort true ref Y = [] \/ neg_front argsort true ref Y <> []) by (destruct (neg_front argsort true ref Y); [left; reflexivity|right; discriminate]).
  destruct DP as [EP|NP]; [rewrite EP; rewrite (measure_none ref Y Gs _ HR HG RE EP); reflexivity|].
  destruct (cells_of_spec argsort argmax HS HM alpha ref Y HA HR) as (cs' & E' & PA & NB). assert (cs' = cs) by congruence. subst cs'. clear E'.
  assert (MO : forall c, In c cs -> length c = length ref /\ forall j lu, nth_error c j = Some lu ->
    (finite_at (length ref) (neg_front argsort true ref Y) ref (fst lu) j <= finite_at (length ref) (neg_front argsort true ref Y) ref (snd lu) j)%Q).
  { intros c Hc. unfold cells_of in E. destruct (Nat.eqb_spec (length ref) 2) as [E2|E2].
    - destruct ref as [|r0 [|r1 [|]]]; try discriminate. injection E as <-. exact (two_mono argsort HS r0 r1 Y HR NP c Hc).
    - exact (space_mono argsort argmax HS HM ref Y HR NP alpha _ cs E c Hc). }
  apply (index_total ref Y Gs (neg_front argsort true ref Y) HR HG FO RE NP cs); auto.
  - intros c Hc. apply (MO c Hc).
  - intros c j lu Hc F. apply (MO c Hc), F.
Qed.
