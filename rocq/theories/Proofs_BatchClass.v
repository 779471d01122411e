(** Both classes of decompositions of batches: cells and volumes. *)
From Coq Require Import List Bool Arith ZArith QArith Lia Lqa.
From Verif Require Import Lib_List Model_Pareto Spec_Pareto Proofs_Pareto Model_Boxes Spec_Boxes Spec_HV Proofs_HVgrid Model_CellVolume Model_BatchBoxes Spec_BatchBoxes.
From Verif Require Import Proofs_Boxes Proofs_BoxFront Proofs_Box2D Proofs_CellIndex Proofs_LacourRuns Proofs_BatchFront Proofs_BatchPad Proofs_BatchBoxes.
Import ListNotations.
Open Scope nat_scope.

Section Classes.
Variable argsort : list Q -> list nat.
Hypothesis HS : sorts argsort.
Variables (r : refs) (b : nat) (rs : list (list Q)).
Hypothesis Hb : 0 < b.
Hypothesis HE : expand b r = Some rs.
Hypothesis H2 : forall p, In p rs -> length p = 2.
Hypothesis HL : length rs = b.

Lemma index_ok : forall Ys k Ps, True -> tensor b Ys -> made argsort b rs k Ys Ps -> exists cs, index_cells argsort Ps = Some cs /\ length cs = b /\
  forall i, i < b -> nth i cs [] = partition_space_2d argsort (nth i Ps []).
Proof.
  intros Ys k Ps _ T [L M]. eexists. split; [reflexivity|]. split; [now rewrite map_length|]. intros i Hi. now rewrite (nth_map' _ []) by lia.
Qed.

Lemma index_batch Bs : Bs <> [] -> (forall B, In B Bs -> tensor b B) ->
  exists d cells hv, batch_run argsort (index_cells argsort) r Bs = Some d /\ index_bounds r d = Some cells /\ index_volumes r d = Some hv /\
    length cells = b /\ length hv = b /\ (exists n, forall c, In c cells -> length c = n) /\ forall i, i < b ->
      partitions (nth i cells []) (nth i rs []) (outcomes i Bs) /\ nothing_below (nth i cells []) (nth i rs []) /\
      forall Gs, grid_for Gs (nth i rs []) (outcomes i Bs) -> (nth i hv 0 == measure Gs (nth i rs []) (outcomes i Bs))%Q.
Proof.
  intros NE HT. destruct Bs as [|B Bs]; [congruence|].
  destruct (runs argsort HS r b rs Hb HE H2 HL _ [] (index_cells argsort) (fun _ P => partition_space_2d argsort P) (fun _ => True) (fun _ _ _ _ _ => I) index_ok B Bs HT I) as (d & E & (T & _ & k & Y0 & T0 & M & D & Lc & Nc) & EY).
  assert (LY := proj1 T). assert (LF := proj1 M).
  set (cells := map (fun rpc => map (cell_bounds (snd (fst rpc)) (fst (fst rpc))) (snd rpc)) (combine (combine rs (b_front d)) (b_cells d))).
  set (hv := map (fun rpc => index_hypervolume (fst (fst rpc)) (snd (fst rpc)) (snd rpc)) (combine (combine rs (b_front d)) (b_cells d))).
  assert (LC : length cells = b) by (unfold cells; rewrite map_length, !combine_length; lia).
  assert (LH : length hv = b) by (unfold hv; rewrite map_length, !combine_length; lia).
  assert (NC : forall i, i < b -> nth i cells [] = map (cell_bounds (nth i (b_front d) []) (nth i rs [])) (partition_space_2d argsort (nth i (b_front d) []))).
  { intros i Hi. unfold cells. rewrite (nth_map_combine _ ([], []) []) by (rewrite ?combine_length; lia). rewrite combine_nth by lia. cbn [fst snd]. now rewrite Nc. }
  assert (NH : forall i, i < b -> nth i hv 0%Q = index_hypervolume (nth i rs []) (nth i (b_front d) []) (partition_space_2d argsort (nth i (b_front d) []))).
  { intros i Hi. unfold hv. rewrite (nth_map_combine _ ([], []) []) by (rewrite ?combine_length; lia). rewrite combine_nth by lia. cbn [fst snd]. now rewrite Nc. }
  assert (EV : exists hv', index_volumes r d = Some hv' /\ length hv' = b /\ forall i, i < b -> nth i hv' 0%Q = nth i hv 0%Q).
  { unfold index_volumes. rewrite LY, HE. cbn [option_map]. fold hv. destruct (b_front d) as [|[|p P0] F0] eqn:EF; [exists hv; auto| |exists hv; auto].
    eexists. split; [reflexivity|]. split; [rewrite map_length; exact LF|]. intros i Hi. rewrite (nth_map' _ []) by (rewrite LF; exact Hi). rewrite NH by exact Hi.
    assert (K0 := made_length argsort HS b rs Hb H2 HL k Y0 _ 0 M Hb). cbn [nth length] in K0. assert (KI := made_length argsort HS b rs Hb H2 HL k Y0 _ i M Hi). rewrite <- K0 in KI. apply length_zero_iff_nil in KI. rewrite KI. reflexivity. }
  destruct EV as (hv' & EV & LV & NV). exists d, cells, hv'. split; [exact E|]. split; [unfold index_bounds; rewrite LY, HE; reflexivity|]. split; [exact EV|]. split; [exact LC|]. split; [exact LV|]. split.
  { exists (S k). intros c Hc. apply (In_nth _ _ []) in Hc as (i & Hi & <-). rewrite LC in Hi. rewrite NC by exact Hi. unfold partition_space_2d. rewrite !map_length, seq_length. f_equal. exact (made_length argsort HS b rs Hb H2 HL k Y0 _ i M Hi). }
  intros i Hi. rewrite NC, NV, NH by exact Hi. destruct (rf2 b rs Hb H2 HL i Hi) as (r0 & r1 & Er). destruct (proj2 M i Hi) as [_ EP]. rewrite EP. rewrite Er in *. destruct (D i Hi) as [IN EQ]. rewrite EY, ?Er in * by exact Hi.
  assert (R0 := tensor_nth b _ i T0 Hi). destruct (pad_class argsort HS r0 r1 (nth i Y0 []) k R0) as [PA NB]. split; [|split; [exact NB|]].
  - intros z Hz. rewrite <- (EQ z Hz). apply PA, Hz.
  - intros Gs HG. rewrite (pad_index_volume argsort HS r0 r1 (nth i Y0 []) k R0 Gs (grid_sub _ _ _ _ IN HG)). apply measure_same; auto; [|exact (grid_sub _ _ _ _ IN HG)].
    rewrite <- EY by exact Hi. exact (tensor_nth b _ i T Hi).
Qed.

Lemma fast_batch Bs (K : list (list (list Q)) -> Prop) : Bs <> [] -> (forall B, In B Bs -> tensor b B) -> K (hd [] Bs) ->
  (forall Ys Zs, length Ys = b -> length Zs = b -> K Ys -> K (joined Ys Zs)) ->
  (forall Ys k Ps, K Ys -> tensor b Ys -> made argsort b rs k Ys Ps -> k = 0 -> fast_cells r Ps = Some (map (fun p => [(map Val p, map (fun _ => PInf) p)]) rs)) ->
  exists d hv, batch_run argsort (fast_cells r) r Bs = Some d /\ fast_volumes r d = Some hv /\
    length (b_cells d) = b /\ length hv = b /\ (exists n, forall c, In c (b_cells d) -> length c = n) /\ forall i, i < b ->
      partitions (nth i (b_cells d) []) (nth i rs []) (outcomes i Bs) /\ nothing_below (nth i (b_cells d) []) (nth i rs []) /\
      forall Gs, grid_for Gs (nth i rs []) (outcomes i Bs) -> (nth i hv 0 == measure Gs (nth i rs []) (outcomes i Bs))%Q.
Proof.
  intros NE HT HK KM HZ. destruct Bs as [|B Bs]; [congruence|]. cbn [hd] in HK.
  set (cell_of := fun (p : list Q) P => stairs (nth 0 p 0%Q) (rev (pairs P)) (nth 1 p 0%Q)).
  assert (PO : forall Ys k Ps, K Ys -> tensor b Ys -> made argsort b rs k Ys Ps -> exists cs, fast_cells r Ps = Some cs /\ length cs = b /\ forall i, i < b -> nth i cs [] = cell_of (nth i rs []) (nth i Ps [])).
  { intros Ys k Ps KY T M. destruct (Nat.eq_dec k 0) as [Ek|Nk].
    - rewrite (HZ Ys k Ps KY T M Ek). eexists. split; [reflexivity|]. split; [now rewrite map_length|]. intros i Hi. rewrite (nth_map' _ []) by lia.
      assert (KI := made_length argsort HS b rs Hb H2 HL k Ys _ i M Hi). rewrite Ek in KI. apply length_zero_iff_nil in KI. rewrite KI. destruct (rf2 b rs Hb H2 HL i Hi) as (r0 & r1 & ->). reflexivity.
    - assert (LP := proj1 M). assert (NP : forall i, i < b -> nth i Ps [] <> []).
      { intros i Hi EP. assert (KI := made_length argsort HS b rs Hb H2 HL k Ys _ i M Hi). rewrite EP in KI. simpl in KI. congruence. }
      set (l := map (fun rp => nd_cells_2d (rev (map (fun p => ((- nth 0 p 0)%Q, (- nth 1 p 0)%Q)) (snd rp))) (nth 0 (fst rp) 0%Q, nth 1 (fst rp) 0%Q)) (combine rs Ps)).
      assert (LL : length l = b) by (unfold l; rewrite map_length, combine_length; lia).
      assert (NL : forall i, i < b -> nth i l None = Some (cell_of (nth i rs []) (nth i Ps []))).
      { intros i Hi. unfold l. rewrite (nth_map_combine _ [] []) by lia. cbn [fst snd]. rewrite nd_cells_stairs; [reflexivity|]. intros EP. apply (NP i Hi). apply (f_equal (@length _)) in EP. rewrite rev_length, map_length in EP. simpl in EP. now apply length_zero_iff_nil. }
      destruct (all_some_nth [] l) as (cs & Ec & Lc & Nc); [intros i Hi; rewrite LL in Hi; rewrite NL by exact Hi; eauto|]. exists cs. split.
      + unfold fast_cells. rewrite LP, HE. fold l. destruct Ps as [|[|p P0] Ps0]; [exact Ec|destruct (NP 0 Hb); reflexivity|exact Ec].
      + split; [congruence|]. intros i Hi. assert (X := Nc i ltac:(lia)). rewrite NL in X by exact Hi. congruence. }
  destruct (runs argsort HS r b rs Hb HE H2 HL _ [] (fast_cells r) cell_of K KM PO B Bs HT HK) as (d & E & (T & _ & k & Y0 & T0 & M & D & Lc & Nc) & EY).
  assert (LY := proj1 T). assert (LF := proj1 M).
  set (l := map (fun rpc => cells_hypervolume (fst (fst rpc)) (snd (fst rpc)) (snd rpc)) (combine (combine rs (b_front d)) (b_cells d))).
  assert (LL : length l = b) by (unfold l; rewrite map_length, !combine_length; lia).
  assert (NL : forall i, i < b -> nth i l None = cells_hypervolume (nth i rs []) (nth i (b_front d) []) (cell_of (nth i rs []) (nth i (b_front d) []))).
  { intros i Hi. unfold l. rewrite (nth_map_combine _ ([], []) []) by (rewrite ?combine_length; lia). rewrite combine_nth by lia. cbn [fst snd]. now rewrite Nc. }
  assert (VO : forall i Gs, i < b -> grid_for Gs (nth i rs []) (outcomes i (B :: Bs)) -> exists v, nth i l None = Some v /\ (v == measure Gs (nth i rs []) (outcomes i (B :: Bs)))%Q).
  { intros i Gs Hi HG. rewrite NL by exact Hi. destruct (rf2 b rs Hb H2 HL i Hi) as (r0 & r1 & Er). destruct (proj2 M i Hi) as [_ EP]. rewrite EP. destruct (D i Hi) as [IN EQ]. rewrite EY in IN, EQ by exact Hi. rewrite Er in *.
    assert (R0 := tensor_nth b _ i T0 Hi). destruct (pad_fast_volume argsort HS r0 r1 (nth i Y0 []) k R0 Gs (grid_sub _ _ _ _ IN HG)) as (v & Ev & Hv). exists v. split; [exact Ev|]. rewrite Hv.
    apply measure_same; auto; [|exact (grid_sub _ _ _ _ IN HG)]. rewrite <- EY by exact Hi. exact (tensor_nth b _ i T Hi). }
  destruct (all_some_nth 0%Q l) as (hv & Eh & Lh & Nh). { intros i Hi. rewrite LL in Hi. destruct (grid_exists (nth i rs []) (outcomes i (B :: Bs))) as (Gs & HG). destruct (VO i Gs Hi HG) as (v & Ev & _). eauto. }
  exists d, hv. split; [exact E|]. split; [unfold fast_volumes; rewrite LY, HE; exact Eh|]. split; [exact Lc|]. split; [congruence|]. split.
  { exists (S k). intros c Hc. apply (In_nth _ _ []) in Hc as (i & Hi & <-). rewrite Lc in Hi. rewrite Nc by exact Hi. unfold cell_of. 
    assert (SL : forall ps l r1, length (stairs l ps r1) = S (length ps)) by (induction ps as [|p ps IH]; intros; simpl; [reflexivity|now rewrite IH]).
    rewrite SL, rev_length. unfold pairs. rewrite map_length. f_equal. exact (made_length argsort HS b rs Hb H2 HL k Y0 _ i M Hi). }
  intros i Hi. rewrite Nc by exact Hi. destruct (rf2 b rs Hb H2 HL i Hi) as (r0 & r1 & Er). destruct (proj2 M i Hi) as [_ EP]. destruct (D i Hi) as [IN EQ]. rewrite EY in IN, EQ by exact Hi.
  assert (VI : forall Gs, grid_for Gs (nth i rs []) (outcomes i (B :: Bs)) -> (nth i hv 0 == measure Gs (nth i rs []) (outcomes i (B :: Bs)))%Q).
  { intros Gs HG. destruct (VO i Gs Hi HG) as (v & Ev & Hv). rewrite Nh in Ev by lia. injection Ev as <-. exact Hv. }
  rewrite EP. rewrite Er in *. assert (R0 := tensor_nth b _ i T0 Hi). destruct (pad_fast argsort HS r0 r1 (nth i Y0 []) k R0) as [PA NB]. split; [|split; [exact NB|exact VI]].
  intros z Hz. rewrite <- (EQ z Hz). apply PA, Hz.
Qed.

(** without outcomes better than the reference points, the fronts are empty *)
Lemma made_none Ys Ps : made argsort b rs 0 Ys Ps -> Ps = repeat [] b.
Proof.
  intros M. apply nth_ext with (d := []) (d' := []); [rewrite repeat_length; exact (proj1 M)|]. intros i Hi. rewrite (proj1 M) in Hi. rewrite nth_repeat' by exact Hi.
  apply length_zero_iff_nil. exact (made_length argsort HS b rs Hb H2 HL 0 Ys Ps i M Hi).
Qed.
Lemma better_some Ys Ps k : tensor b Ys -> made argsort b rs k Ys Ps -> some_better b (fun i => nth i rs []) Ys -> k <> 0.
Proof.
  intros T M (i & y & Hi & Hy & A) ->. assert (E := made_none Ys Ps M). destruct (proj2 M i Hi) as [_ EP]. rewrite E, nth_repeat' in EP by exact Hi.
  destruct (rf2 b rs Hb H2 HL i Hi) as (r0 & r1 & Er). rewrite Er in *. assert (R := tensor_nth b _ i T Hi). assert (Ly := R y Hy). destruct y as [|z0 [|z1 [|]]]; try discriminate.
  destruct (proj2 (P_cov argsort HS r0 r1 (nth i Ys []) 0 R z0 z1 A)) as (x & Hx & _).
  - exists [z0; z1]. split; [exact Hy|]. repeat constructor; apply Qle_refl.
  - rewrite <- EP in Hx. destruct Hx.
Qed.
End Classes.

(** *** no better outcome at all *)
Lemma none_points ref Y : (forall y, In y Y -> length y = length ref /\ ~ strictly_above ref y) -> front_points ref Y = [].
Proof.
  intros H. unfold front_points. apply map_eq_nil with (f := fun x : vec => x). rewrite map_map.
  assert (F : forall l, (forall yb, In yb l -> In (fst yb) Y) -> filter (fun yb : vec * bool => snd yb && all2 (fun a r => Qltb r a) (fst yb) ref) l = []).
  { induction l as [|[y c] l IH]; intros I; [reflexivity|]. cbn [filter fst snd]. rewrite IH by (intros; apply I; now right). destruct (c && all2 (fun a r => Qltb r a) y ref) eqn:E; [exfalso|reflexivity].
    apply andb_true_iff in E as [_ E]. destruct (H y (I (y, c) (or_introl eq_refl))) as [L N]. apply N. clear - L E. revert ref L E. induction y as [|a y IH]; intros [|q ref] L E; try discriminate; [constructor|].
    cbn [all2] in E. apply andb_true_iff in E as [E1 E2]. constructor; [now apply Proofs_Pareto.Qltb_iff|]. apply IH; [simpl in L; lia|exact E2]. }
  rewrite F; [reflexivity|]. intros [y c] I. exact (in_combine_l _ _ _ _ I).
Qed.
