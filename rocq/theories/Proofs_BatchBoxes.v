(** Lemmas about Model_BatchBoxes.v: batches and sequences of updates. *)
From Coq Require Import List Bool Arith ZArith QArith Permutation Lia Lqa.
From Verif Require Import Lib_List Model_Pareto Spec_Pareto Proofs_Pareto Model_Boxes Spec_Boxes Proofs_Boxes Proofs_BoxFront Proofs_Box2D Proofs_BoxRuns Model_Lacour Proofs_LacourRuns Spec_HV Proofs_HVmeasure Proofs_HVgrid Model_CellVolume Proofs_CellVolume Proofs_CellClip Proofs_CellIndex Proofs_CellFast Model_BatchBoxes Spec_BatchBoxes Proofs_BatchFront Proofs_BatchPad.
Import ListNotations.
Open Scope nat_scope.

Lemma nth_map' {A B} (f : A -> B) dA dB l i : i < length l -> nth i (map f l) dB = f (nth i l dA).
Proof. intros H. rewrite (nth_indep _ dB (f dA)) by (now rewrite map_length). apply map_nth. Qed.
Lemma nth_map_combine {A B C} (f : A * B -> C) dA dB dC l m i : length l = length m -> i < length l ->
  nth i (map f (combine l m)) dC = f (nth i l dA, nth i m dB).
Proof. intros E H. rewrite (nth_map' f (dA, dB)) by (rewrite combine_length; lia). now rewrite combine_nth. Qed.
Lemma list_max_ge (l : list nat) i d : i < length l -> nth i l d <= list_max l.
Proof. intros H. assert (K := proj1 (list_max_le l (list_max l)) (le_n _)). rewrite Forall_forall in K. apply K, nth_In, H. Qed.
Lemma all_some_nth {A} (d : A) : forall l, (forall i, i < length l -> exists a, nth i l None = Some a) ->
  exists r, all_some l = Some r /\ length r = length l /\ forall i, i < length l -> nth i l None = Some (nth i r d).
Proof.
  induction l as [|a l IH]; intros H; [exists []; split; [reflexivity|]; split; [reflexivity|]; intros i Hi; simpl in Hi; lia|].
  destruct (H 0 ltac:(simpl; lia)) as (x & Ex). cbn [nth] in Ex. subst a.
  destruct IH as (r & Er & Lr & Nr); [intros i Hi; apply (H (S i)); simpl; lia|]. exists (x :: r). cbn [all_some]. rewrite Er. split; [reflexivity|]. split; [simpl; lia|].
  intros [|i] Hi; [reflexivity|]. cbn [nth]. apply Nr. simpl in Hi. lia.
Qed.

Definition joined (Ys Zs : list (list vec)) : list (list vec) := map (fun p => fst p ++ snd p) (combine Ys Zs).
Lemma joined_length Ys Zs : length Ys = length Zs -> length (joined Ys Zs) = length Ys.
Proof. intros E. unfold joined. rewrite map_length, combine_length. lia. Qed.
Lemma joined_nth Ys Zs i : length Ys = length Zs -> i < length Ys -> nth i (joined Ys Zs) [] = nth i Ys [] ++ nth i Zs [].
Proof. intros E H. unfold joined. rewrite (nth_map_combine _ [] []) by auto. reflexivity. Qed.
Lemma tensor_nth b B i : tensor b B -> i < b -> rectangular 2 (nth i B []).
Proof. intros (L & _ & R) Hi y Hy. apply (R (nth i B []) y); auto. apply nth_In. lia. Qed.
Lemma tensor_joined b Ys Zs : tensor b Ys -> tensor b Zs -> tensor b (joined Ys Zs).
Proof.
  intros TY TZ. assert (LY := proj1 TY). assert (LZ := proj1 TZ). assert (E : length Ys = length Zs) by congruence.
  assert (AT : forall Y, In Y (joined Ys Zs) -> exists i, i < b /\ Y = nth i Ys [] ++ nth i Zs []).
  { intros Y HY. apply (In_nth _ _ []) in HY as (i & Hi & <-). rewrite joined_length in Hi by exact E. exists i. split; [lia|]. apply joined_nth; auto. }
  destruct TY as (_ & (n & Hn) & RY), TZ as (_ & (n' & Hn') & RZ). split; [rewrite joined_length; auto|]. split.
  - exists (n + n'). intros Y HY. destruct (AT Y HY) as (i & Hi & ->). rewrite app_length, (Hn (nth i Ys [])), (Hn' (nth i Zs [])); auto; apply nth_In; lia.
  - intros Y y HY Hy. destruct (AT Y HY) as (i & Hi & ->). apply in_app_iff in Hy as [Hy|Hy]; [apply (RY (nth i Ys []) y)|apply (RZ (nth i Zs []) y)]; auto; apply nth_In; lia.
Qed.

Section Batches.
  Variable argsort : list Q -> list nat.
  Hypothesis HS : sorts argsort.
  Variables (r : refs) (b : nat) (rs : list vec).
  Hypothesis Hb : 0 < b.
  Hypothesis HE : expand b r = Some rs.
  Hypothesis H2 : forall p, In p rs -> length p = 2.
  Hypothesis HL : length rs = b.
  Notation rf i := (nth i rs []).

  Lemma rf2 i : i < b -> exists r0 r1, rf i = [r0; r1].
  Proof. intros Hi. assert (L := H2 (rf i) ltac:(apply nth_In; lia)). destruct (rf i) as [|a [|c [|]]]; try discriminate. eauto. Qed.

  Definition made (k : nat) (Ys Ps : list (list vec)) : Prop := length Ps = b /\ forall i, i < b ->
    length (front_points (rf i) (nth i Ys [])) <= k /\ nth i Ps [] = sorted_neg argsort (pad k (rf i) (front_points (rf i) (nth i Ys []))).

  Lemma fronts_made Ys : tensor b Ys -> exists k Ps, batch_fronts argsort r Ys = Some Ps /\ made k Ys Ps.
  Proof.
    intros (L & (n & Hn) & R). unfold batch_fronts. destruct Ys as [|[|y Y] Ys'] eqn:EY.
    - simpl in L. lia.
    - exists 0. eexists. split; [reflexivity|]. split; [now rewrite map_length|]. intros i Hi. rewrite (nth_map' _ []) by lia. assert (E0 : n = 0) by (symmetry; apply (Hn []); now left). subst n.
      assert (EN : nth i ([] :: Ys') [] = []) by (apply length_zero_iff_nil, Hn, nth_In; lia). rewrite EN. cbn [front_points]. unfold front_points, sorted_neg. cbn [combine filter map length pad repeat is_non_dominated].
      split; [lia|]. destruct (HS []) as [K _]. cbn [length seq] in K. unfold col. cbn [map]. apply Permutation_sym, Permutation_nil in K. rewrite K. reflexivity.
    - rewrite <- EY in *. clear EY y Y Ys'. rewrite L, HE. eexists. eexists. split; [reflexivity|]. set (Ps := map (fun ry => front_points (fst ry) (snd ry)) (combine rs Ys)).
      assert (LP : length Ps = b) by (unfold Ps; rewrite map_length, combine_length; lia).
      split; [rewrite map_length, combine_length; lia|]. intros i Hi.
      assert (EP : nth i Ps [] = front_points (rf i) (nth i Ys [])) by (unfold Ps; rewrite (nth_map_combine _ [] []) by lia; reflexivity). split.
      + rewrite <- EP. assert (K := list_max_ge (map (@length vec) Ps) i 0 ltac:(rewrite map_length; lia)). rewrite (nth_map' _ []) in K by lia. exact K.
      + rewrite (nth_map_combine _ [] []) by lia. cbn [fst snd]. rewrite EP. reflexivity.
  Qed.
  Lemma made_length k Ys Ps i : made k Ys Ps -> i < b -> length (nth i Ps []) = k.
  Proof. intros [_ M] Hi. destruct (M i Hi) as [A ->]. destruct (rf2 i Hi) as (r0 & r1 & E). rewrite E in *. now apply P_length. Qed.

  (** the same fronts come from outcomes that dominate the same points *)
  Lemma same_cov : forall P P' z0 z1, same_front P P' = true -> (cov2 (pairs P) z0 z1 <-> cov2 (pairs P') z0 z1).
  Proof.
    assert (G : forall P P', same_front P P' = true -> forall z0 z1, cov2 (pairs P) z0 z1 -> cov2 (pairs P') z0 z1).
    { induction P as [|p P IH]; intros [|p' P'] H z0 z1 (x & Hx & C); try discriminate; [destruct Hx|]. cbn [same_front] in H. apply andb_true_iff in H as [H H3]. apply andb_true_iff in H as [H1 H2'].
      apply Nat.eqb_eq in H1. apply all2_iff in H2'; [|exact H1]. assert (EQ : forall j, (nth j p 0 == nth j p' 0)%Q).
      { intros j. destruct (Nat.lt_ge_cases j (length p)) as [Hj|Hj]; [|rewrite !nth_overflow by lia; reflexivity]. rewrite F2_nth with (da := 0%Q) (db := 0%Q) in H2' by exact H1. apply Qeq_bool_iff, H2', Hj. }
      destruct Hx as [<-|Hx].
      - exists ((- nth 0 p' 0)%Q, (- nth 1 p' 0)%Q). split; [now left|]. assert (E0 := EQ 0). assert (E1 := EQ 1). cbn [fst snd] in *. lra.
      - destruct (IH P' H3 z0 z1) as (y & Hy & Cy); [exists x; auto|]. exists y. split; [now right|exact Cy]. }
    assert (S : forall P P', same_front P P' = true -> same_front P' P = true).
    { induction P as [|p P IH]; intros [|p' P'] H; try discriminate; [reflexivity|]. cbn [same_front] in *. apply andb_true_iff in H as [H H3]. apply andb_true_iff in H as [H1 H2'].
      apply Nat.eqb_eq in H1. rewrite (IH P' H3), H1, Nat.eqb_refl. cbn [andb]. rewrite andb_true_r. apply all2_iff; [congruence|]. apply all2_iff in H2'; [|exact H1]. apply Forall2_flip in H2'. eapply Forall2_iff; [|exact H2'].
      intros a c. cbv beta. rewrite !Qeq_bool_iff. split; intros; lra. }
    intros P P' z0 z1 H. split; apply G; auto.
  Qed.
  Lemma same_fronts_nth : forall Ps Ps' i, same_fronts Ps Ps' = true -> i < length Ps -> same_front (nth i Ps []) (nth i Ps' []) = true.
  Proof.
    induction Ps as [|P Ps IH]; intros [|P' Ps'] i H Hi; try discriminate; simpl in Hi; [lia|]. cbn [same_fronts] in H. apply andb_true_iff in H as [A B]. destruct i as [|i]; [exact A|]. cbn [nth]. apply IH; auto. lia.
  Qed.

  Variables (C : Type) (dC : C) (partition : list (list vec) -> option (list C)) (cell_of : vec -> list vec -> C) (K : list (list vec) -> Prop).
  Hypothesis KM : forall Ys Zs, length Ys = b -> length Zs = b -> K Ys -> K (joined Ys Zs).
  Hypothesis PO : forall Ys k Ps, K Ys -> tensor b Ys -> made k Ys Ps -> exists cs, partition Ps = Some cs /\ length cs = b /\ forall i, i < b -> nth i cs dC = cell_of (rf i) (nth i Ps []).

  Definition kept (d : batch C) : Prop := tensor b (b_Y d) /\ K (b_Y d) /\ exists k Y0, tensor b Y0 /\ made k Y0 (b_front d) /\
    (forall i, i < b -> incl (nth i Y0 []) (nth i (b_Y d) []) /\ forall z, strictly_above (rf i) z -> (dominated_by (nth i Y0 []) z <-> dominated_by (nth i (b_Y d) []) z)) /\
    length (b_cells d) = b /\ forall i, i < b -> nth i (b_cells d) dC = cell_of (rf i) (nth i (b_front d) []).

  Lemma fresh Ys : tensor b Ys -> K Ys -> exists d, batch_reset argsort partition r Ys None = Some d /\ kept d /\ b_Y d = Ys.
  Proof.
    intros T HK. destruct (fronts_made Ys T) as (k & Ps & E & M). destruct (PO Ys k Ps HK T M) as (cs & Ec & Lc & Nc). unfold batch_reset. rewrite E, Ec. cbn [option_map].
    eexists. split; [reflexivity|]. split; [|reflexivity]. split; [exact T|]. split; [exact HK|]. exists k, Ys. split; [exact T|]. split; [exact M|]. split; [|split; auto]. intros i Hi. split; [apply incl_refl|tauto].
  Qed.
  Lemma step Ys d : kept d -> tensor b Ys -> exists d', batch_update argsort partition r (Some d) Ys = Some d' /\ kept d' /\ b_Y d' = joined (b_Y d) Ys.
  Proof.
    intros (T & HK & k0 & Y0 & T0 & M0 & D0 & Lc & Nc) TY. assert (L1 := proj1 T). assert (L2 := proj1 TY). cbn [batch_update]. rewrite L1, L2, Nat.eqb_refl. fold (joined (b_Y d) Ys).
    assert (TJ := tensor_joined b _ _ T TY). assert (KJ := KM _ _ L1 L2 HK). destruct (fronts_made _ TJ) as (k & Ps & E & M). unfold batch_reset. rewrite E. destruct (same_fronts Ps (b_front d)) eqn:ES.
    - eexists. split; [reflexivity|]. split; [|reflexivity]. split; [exact TJ|]. split; [exact KJ|]. exists k0, Y0. cbn [b_Y b_front b_cells]. split; [exact T0|]. split; [exact M0|]. split; [|split; assumption].
      intros i Hi. rewrite joined_nth by lia. destruct (D0 i Hi) as [I0 Q0]. split; [intros y Hy; apply in_app_iff; left; apply I0, Hy|]. intros z Hz. destruct (rf2 i Hi) as (r0 & r1 & Er).
      assert (SF := same_fronts_nth _ _ i ES ltac:(rewrite (proj1 M); exact Hi)). destruct (proj2 M i Hi) as [_ EM], (proj2 M0 i Hi) as [_ EM0]. rewrite EM, EM0 in SF. rewrite Er in *.
      assert (RJ := tensor_nth b _ i TJ Hi). assert (R0 := tensor_nth b _ i T0 Hi). destruct (above2 r0 r1 z (len2 r0 r1 z Hz)) as (z0 & z1 & -> & _).
      rewrite <- (P_cov argsort HS r0 r1 (nth i Y0 []) k0 R0 z0 z1 Hz). rewrite <- (same_cov _ _ z0 z1 SF). rewrite (P_cov argsort HS r0 r1 _ k RJ z0 z1 Hz). rewrite joined_nth by lia. reflexivity.
    - destruct (PO _ k Ps KJ TJ M) as (cs & Ec & Lc' & Nc'). rewrite Ec. cbn [option_map]. eexists. split; [reflexivity|]. split; [|reflexivity]. split; [exact TJ|]. split; [exact KJ|].
      exists k, (joined (b_Y d) Ys). split; [exact TJ|]. split; [exact M|]. split; [|split; auto]. intros i Hi. split; [apply incl_refl|tauto].
  Qed.
  Lemma steps : forall Bs d, kept d -> (forall B, In B Bs -> tensor b B) -> exists d', batch_updates argsort partition r d Bs = Some d' /\ kept d' /\
    forall i, i < b -> nth i (b_Y d') [] = nth i (b_Y d) [] ++ outcomes i Bs.
  Proof.
    induction Bs as [|B Bs IH]; intros d HK HT; [exists d; split; [reflexivity|]; split; [exact HK|]; intros; cbn; now rewrite app_nil_r|].
    destruct (step B d HK (HT B (or_introl eq_refl))) as (d1 & E1 & K1 & Y1). destruct (IH d1 K1 (fun B' I => HT B' (or_intror I))) as (d2 & E2 & K2 & Y2). exists d2. cbn [batch_updates]. rewrite E1. split; [exact E2|]. split; [exact K2|].
    intros i Hi. rewrite (Y2 i Hi), Y1. destruct HK as (T & _). assert (LT := proj1 T). assert (LB := proj1 (HT B (or_introl eq_refl))). rewrite joined_nth by lia. unfold outcomes. cbn [map concat]. now rewrite app_assoc.
  Qed.
  Lemma runs B Bs : (forall B', In B' (B :: Bs) -> tensor b B') -> K B -> exists d, batch_run argsort partition r (B :: Bs) = Some d /\ kept d /\ forall i, i < b -> nth i (b_Y d) [] = outcomes i (B :: Bs).
  Proof.
    intros HT HK. destruct (fresh B (HT B (or_introl eq_refl)) HK) as (d & E & KD & YD). destruct (steps Bs d KD (fun B' I => HT B' (or_intror I))) as (d' & E' & K' & Y'). exists d'. cbn [batch_run batch_update]. rewrite E. split; [exact E'|]. split; [exact K'|].
    intros i Hi. rewrite (Y' i Hi), YD. reflexivity.
  Qed.
End Batches.
