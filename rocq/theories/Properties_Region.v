(** Property C288: the expected hypervolume improvement depends on the outcomes only, and falls as outcomes are added.  The binary class
    for properties C285 and C287. *)
From Coq Require Import Reals List Bool Arith ZArith QArith Qreals Lia Lra.
From Verif Require Import Lib_List Model_Pareto Spec_Pareto Proofs_Pareto Model_Boxes Spec_Boxes Proofs_Boxes Proofs_BoxFront Proofs_Box2D Proofs_BoxRuns Model_Lacour Proofs_LacourRuns
  Spec_HV Proofs_HVgrid Properties_Boxes Spec_Improve Proofs_Improve Properties_Improve
  Spec_Expect Proofs_Expect Proofs_ExpectCells Model_EHVI Properties_EHVI Proofs_ExpectPos Model_Fast2 Proofs_Fast2 Proofs_Region Proofs_IndexProper Spec_Decompose.
Import ListNotations.
Open Scope nat_scope.

Lemma decomposed ref batches big cs : batches <> [] -> (forall B, In B batches -> rectangular (length ref) B) -> below_cut big ref -> (forall y, In y (concat batches) -> below_cut big y) ->
  decomposition ref batches cs -> partitions cs ref (concat batches) /\ nothing_below cs ref /\ proper_cells big (length ref) cs.
Proof.
  intros NE R HC HY [o Hm E|argsort o Hm HS E|argsort argmax alpha d cs' HS HM HA E Eb].
  - destruct batches as [|Y Ys]; [congruence|]. assert (Hm2 : 2 <= length ref) by lia. destruct (inv_reset ref Hm2 Y None) as (o1 & E1 & I1 & Y1); [apply R; now left|discriminate|].
    destruct (inv_updates ref Hm2 Ys o1 I1) as (o2 & E2 & I2 & Y2); [intros B HB; apply R; now right|]. assert (EY : f_Y o2 = concat (Y :: Ys)) by (rewrite Y2, Y1; reflexivity).
    assert (o2 = o) by (cbn [fast_updates fast_update] in E; rewrite E1 in E; congruence). subst o2. destruct (inv_partitions ref Hm2 o I2) as [PA NB]. rewrite EY in PA. split; [exact PA|]. split; [exact NB|].
    refine (inv_proper ref o big Hm2 I2 HC _). rewrite EY. exact HY.
  - destruct batches as [|Y Ys]; [congruence|]. destruct ref as [|r0 [|r1 [|]]]; try discriminate. destruct (history2 argsort HS r0 r1 Y Ys R) as (o2 & E2 & G & EY). assert (o2 = o) by congruence. subst o2.
    destruct (good2_partitions argsort HS r0 r1 o G) as [PA NB]. rewrite EY in PA. split; [exact PA|]. split; [exact NB|]. refine (good2_proper argsort HS r0 r1 o big G HC _). rewrite EY. exact HY.
  - destruct (updates_good argsort argmax HS alpha ref batches R NE) as (d2 & E2 & G & EY). assert (d2 = d) by congruence. subst d2.
    destruct (good_proper argsort argmax alpha ref d big HS HM HA G HC ltac:(rewrite EY; exact HY)) as (bs & B & PA & NB & PR). assert (bs = cs') by congruence. subst bs. rewrite EY in PA. auto.
Qed.
Lemma covers_trans : forall x y z : list Q, covers x y -> covers y z -> covers x z.
Proof.
  unfold covers. intros x y z H. revert z. induction H as [|a b l l' Hab H IH]; intros z K; inversion K; subst; constructor; auto. eapply Qle_trans; eassumption.
Qed.
Lemma covers_refl : forall y : list Q, covers y y.
Proof. unfold covers. induction y; constructor; auto. apply Qle_refl. Qed.

(** C288.  Let two sequences of batches of outcomes be given to decompositions of any class, and let every outcome of the second be
    matched or dominated by one of the first.  Then the acquisition function is at every prediction at most as large over the cells of the
    first as over those of the second. *)
Theorem C288_fewer_outcomes_more_to_gain :
  forall ref batches1 batches2 cs1 cs2 cells1 cells2 big pred, batches1 <> [] -> batches2 <> [] ->
    (forall B, In B (batches1 ++ batches2) -> rectangular (length ref) B) -> length pred = length ref ->
    below_cut big ref -> (forall y, In y (concat (batches1 ++ batches2)) -> below_cut big y) ->
    decomposition ref batches1 cs1 -> decomposition ref batches2 cs2 -> real_cells cs1 = Some cells1 -> real_cells cs2 = Some cells2 ->
    (forall y, In y (concat batches2) -> dominated_by (concat batches1) y) ->
    (forward big cells1 pred <= forward big cells2 pred)%R.
Proof.
  intros ref b1 b2 cs1 cs2 cells1 cells2 big pred N1 N2 R L HC HY D1 D2 E1 E2 H. rewrite concat_app in HY.
  destruct (decomposed ref b1 big cs1 N1) as (PA1 & NB1 & PR1); auto; [intros B HB; apply R, in_app_iff; now left|intros y Hy; apply HY, in_app_iff; now left|].
  destruct (decomposed ref b2 big cs2 N2) as (PA2 & NB2 & PR2); auto; [intros B HB; apply R, in_app_iff; now right|intros y Hy; apply HY, in_app_iff; now right|].
  apply (region_le big pred ref cs1 cs2 (concat b1) (concat b2)); auto. intros z _ (y & Hy & C). destruct (H y Hy) as (x & Hx & C'). exists x. split; [exact Hx|]. now apply covers_trans with y.
Qed.
Print Assumptions C288_fewer_outcomes_more_to_gain.

(** In particular the value depends neither on the class, nor on how the outcomes were batched and ordered, nor on repeated outcomes. *)
Theorem C288_same_outcomes_same_value :
  forall ref batches1 batches2 cs1 cs2 cells1 cells2 big pred, batches1 <> [] -> batches2 <> [] ->
    (forall B, In B (batches1 ++ batches2) -> rectangular (length ref) B) -> length pred = length ref ->
    below_cut big ref -> (forall y, In y (concat (batches1 ++ batches2)) -> below_cut big y) ->
    decomposition ref batches1 cs1 -> decomposition ref batches2 cs2 -> real_cells cs1 = Some cells1 -> real_cells cs2 = Some cells2 ->
    (forall y, In y (concat batches1) <-> In y (concat batches2)) ->
    forward big cells1 pred = forward big cells2 pred.
Proof.
  intros ref b1 b2 cs1 cs2 cells1 cells2 big pred N1 N2 R L HC HY D1 D2 E1 E2 H. apply Rle_antisym.
  - apply (C288_fewer_outcomes_more_to_gain ref b1 b2 cs1 cs2); auto. intros y Hy. exists y. split; [now apply H|apply covers_refl].
  - apply (C288_fewer_outcomes_more_to_gain ref b2 b1 cs2 cs1); auto.
    + intros B HB. apply R, in_app_iff. apply in_app_iff in HB. tauto.
    + intros y Hy. apply HY. rewrite concat_app in *. apply in_app_iff. apply in_app_iff in Hy. tauto.
    + intros y Hy. exists y. split; [now apply H|apply covers_refl].
Qed.
Print Assumptions C288_same_outcomes_same_value.

(** And a further update never increases it. *)
Theorem C288_updates_decrease :
  forall ref batches more cs1 cs2 cells1 cells2 big pred, batches <> [] ->
    (forall B, In B (batches ++ more) -> rectangular (length ref) B) -> length pred = length ref ->
    below_cut big ref -> (forall y, In y (concat (batches ++ more)) -> below_cut big y) ->
    decomposition ref batches cs1 -> decomposition ref (batches ++ more) cs2 -> real_cells cs1 = Some cells1 -> real_cells cs2 = Some cells2 ->
    (forward big cells2 pred <= forward big cells1 pred)%R.
Proof.
  intros ref b1 more cs1 cs2 cells1 cells2 big pred N R L HC HY D1 D2 E1 E2. apply (C288_fewer_outcomes_more_to_gain ref (b1 ++ more) b1 cs2 cs1); auto.
  - destruct b1; [congruence|discriminate].
  - intros B HB. apply R. apply in_app_iff in HB as [HB|HB]; [exact HB|]. apply in_app_iff. now left.
  - intros y Hy. apply HY. rewrite concat_app in Hy. apply in_app_iff in Hy as [Hy|Hy]; [exact Hy|]. rewrite concat_app. apply in_app_iff. now left.
  - intros y Hy. exists y. split; [rewrite concat_app; apply in_app_iff; now left|apply covers_refl].
Qed.
Print Assumptions C288_updates_decrease.

(** Every class returns cells with real bounds, after every sequence of batches, so the statements above are about every history. *)
Theorem C288_all_classes_return :
  forall ref batches argsort argmax alpha, 2 <= length ref -> batches <> [] -> (forall B, In B batches -> rectangular (length ref) B) ->
    sorts argsort -> finds_max argmax -> (alpha <= 0)%Q ->
    (exists d cs cells, updates argsort argmax alpha ref batches = Some d /\ bounds_of ref d = Some cs /\ real_cells cs = Some cells) /\
    (3 <= length ref -> exists o cells, fast_updates ref None batches = Some o /\ real_cells (f_cells o) = Some cells) /\
    (length ref = 2 -> exists o cells, fast2_updates argsort ref None batches = Some o /\ real_cells (g_cells o) = Some cells).
Proof.
  intros ref batches argsort argmax alpha Hm NE R HS HM HA.
  assert (CUT : exists big, below_cut big ref /\ forall y, In y (concat batches) -> below_cut big y).
  { assert (X : forall l : list Q, exists big, below_cut big l). { induction l as [|q l (b & Hb)]; [exists 0%R; intros q []|]. exists (Rmax (Q2R q) b). intros r [<-|Hr]; [apply Rmax_l|]. apply Rle_trans with b; [now apply Hb|apply Rmax_r]. }
    destruct (X (ref ++ concat (concat batches))) as (big & Hb). exists big. split; [intros q Hq; apply Hb, in_app_iff; now left|]. intros y Hy q Hq. apply Hb, in_app_iff. right. apply in_concat. exists y. auto. }
  destruct CUT as (big & HC & HY).
  assert (RC : forall cs, decomposition ref batches cs -> exists cells, real_cells cs = Some cells).
  { intros cs D. destruct (decomposed ref batches big cs NE R HC HY D) as (_ & _ & PR). destruct (real_cells_ok big (length ref) cs (repeat (0, 0)%R (length ref)) PR (repeat_length _ _)) as (cells & E & _). now exists cells. }
  split; [|split].
  - destruct (updates_good argsort argmax HS alpha ref batches R NE) as (d & E & G & EY). destruct (good_partitions argsort argmax HS HM alpha ref d HA G) as (cs & B & _).
    destruct (RC cs) as (cells & Ec); [now apply (with_binary ref batches argsort argmax alpha d)|]. exists d, cs, cells. auto.
  - intros H3. destruct batches as [|Y Ys]; [congruence|]. destruct (inv_reset ref Hm Y None) as (o1 & E1 & I1 & Y1); [apply R; now left|discriminate|].
    destruct (inv_updates ref Hm Ys o1 I1) as (o2 & E2 & I2 & Y2); [intros B HB; apply R; now right|]. assert (E : fast_updates ref None (Y :: Ys) = Some o2) by (cbn [fast_updates fast_update]; rewrite E1; exact E2).
    destruct (RC (f_cells o2)) as (cells & Ec); [now apply with_fast|]. exists o2, cells. auto.
  - intros H2. destruct batches as [|Y Ys]; [congruence|]. destruct ref as [|r0 [|r1 [|]]]; try discriminate. destruct (history2 argsort HS r0 r1 Y Ys R) as (o & E & G & EY).
    destruct (RC (g_cells o)) as (cells & Ec); [now apply (with_fast_two [r0; r1] (Y :: Ys) argsort)|]. exists o, cells. auto.
Qed.
Print Assumptions C288_all_classes_return.

(** C285 for every class, in particular the binary one that the multi-objective optimizer uses: the value is the expectation of a function
    of the outcome that is the increase of the measure of the dominated region at every outcome up to the cut. *)
Theorem C285_binary :
  forall argsort argmax alpha ref batches big pred Gs, sorts argsort -> finds_max argmax -> (alpha <= 0)%Q ->
    (forall B, In B batches -> rectangular (length ref) B) -> batches <> [] -> length pred = length ref ->
    below_cut big ref -> (forall y, In y (concat batches) -> below_cut big y) ->
    exists d cs cells, updates argsort argmax alpha ref batches = Some d /\ bounds_of ref d = Some cs /\ real_cells cs = Some cells /\
      expectation (map (fun p => (fst p, sqrt (Rmax (snd p) (/ 1000000000)))) pred) (covered_total big cells) (forward big cells pred) /\
      (forall y : vec, length y = length ref -> below_cut big y -> grid_for Gs ref (y :: concat batches) ->
         covered_total big cells (map Q2R y) = Q2R (measure Gs ref (y :: concat batches) - measure Gs ref (concat batches))) /\
      (forall ys ys', Forall2 Rle ys ys' -> (0 <= covered_total big cells ys <= covered_total big cells ys')%R).
Proof.
  intros argsort argmax alpha ref batches big pred Gs HS HM HA R NE L HC HY. destruct (updates_good argsort argmax HS alpha ref batches R NE) as (d & E & G & EY).
  destruct (good_proper argsort argmax alpha ref d big HS HM HA G HC ltac:(rewrite EY; exact HY)) as (cs & B & PA & NB & PR). destruct (real_cells_ok big (length ref) cs pred PR L) as (cells & Ec & OK).
  exists d, cs, cells. split; [exact E|]. split; [exact B|]. split; [exact Ec|]. split; [exact (forward_expectation big cells pred OK)|]. split.
  - intros y Ly Cy HG. destruct (C284_binary_improvement argsort argmax alpha ref batches y Gs HS HM HA R NE Ly HG) as (d' & cs' & s & F1 & F2 & F3 & F4). assert (d' = d) by congruence. subst d'. assert (cs' = cs) by congruence. subst cs'.
    rewrite (rational_total big cs y cells s Ec F3 Cy). apply Qeq_eqR, F4.
  - intros ys ys' H. now apply total_mono.
Qed.
Print Assumptions C285_binary.

(** C287 for every class. *)
Theorem C287_positive_all_classes :
  forall ref batches cs cells big pred z, batches <> [] -> (forall B, In B batches -> rectangular (length ref) B) -> length pred = length ref ->
    below_cut big ref -> (forall y, In y (concat batches) -> below_cut big y) ->
    decomposition ref batches cs -> real_cells cs = Some cells ->
    below_cut big z -> strictly_above ref z -> ~ dominated_by (concat batches) z -> (0 < forward big cells pred)%R.
Proof.
  intros ref batches cs cells big pred z NE R L HC HY D Ec HZ SA ND. destruct (decomposed ref batches big cs NE R HC HY D) as (PA & _ & PR).
  destruct (real_cells_ok big (length ref) cs pred PR L) as (cells' & E' & OK). assert (cells' = cells) by congruence. subst cells'. destruct (PA z SA) as [_ A]. destruct (A ND) as (l & c & r & E & I & _).
  apply (forward_pos big cs cells pred z c Ec OK); auto. rewrite E. apply in_app_iff. right. now left.
Qed.
Print Assumptions C287_positive_all_classes.

(** The two classes cut the same region into eight and thirteen cells. *)
Example C288_case :
  let H := [[[1; 5; 2]]; [[4; 1; 2]; [-1; 1; 1]]; []; [[2; 3; 3]; [1; 5; 2]]]%Q in let ref := [0; 0; 0]%Q in
  (exists cs, decomposition ref H cs /\ length cs = 8) /\ (exists cs, decomposition ref H cs /\ length cs = 13) /\
  (forall B, In B H -> rectangular 3 B) /\ (forall y, In y (concat H) -> below_cut 100 y).
Proof.
  cbv zeta. split; [|split; [|split]].
  - destruct (fast_updates [0; 0; 0]%Q None [[[1; 5; 2]]; [[4; 1; 2]; [-1; 1; 1]]; []; [[2; 3; 3]; [1; 5; 2]]]%Q) as [o|] eqn:E; [|vm_compute in E; discriminate]. exists (f_cells o). split; [apply with_fast; [cbn; lia|exact E]|].
    vm_compute in E. injection E as <-. reflexivity.
  - destruct (updates argsort_stable first_max 0 [0; 0; 0]%Q [[[1; 5; 2]]; [[4; 1; 2]; [-1; 1; 1]]; []; [[2; 3; 3]; [1; 5; 2]]]%Q) as [d|] eqn:E; [|vm_compute in E; discriminate].
    destruct (bounds_of [0; 0; 0]%Q d) as [cs|] eqn:B; [|vm_compute in E; injection E as <-; vm_compute in B; discriminate]. exists cs. split.
    + apply (with_binary _ _ argsort_stable first_max 0%Q d cs); auto; [apply argsort_stable_sorts|apply first_max_finds|apply Qle_refl].
    + vm_compute in E. injection E as <-. vm_compute in B. injection B as <-. reflexivity.
  - intros B HB p Hp. simpl in HB. intuition (subst; simpl in Hp; intuition (subst; reflexivity)).
  - assert (Z : forall n, (n <= 100)%Z -> (Q2R (n # 1) <= 100)%R) by (intros n Hn; unfold Q2R; cbn; rewrite Rinv_1, Rmult_1_r; now apply IZR_le).
    intros y Hy q Hq. simpl in Hy. intuition (subst; simpl in Hq; intuition (subst; apply Z; lia)).
Qed.
