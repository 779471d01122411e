(** Property C292: two thresholds of the binary partitioning. *)
From Coq Require Import Reals List Bool Arith ZArith QArith Qreals Lia Lra.
From Verif Require Import Lib_List Model_Pareto Spec_Pareto Proofs_Pareto Model_Boxes Spec_Boxes Proofs_Boxes Proofs_BoxFront Proofs_Box2D Proofs_BoxRuns Model_Lacour Proofs_LacourRuns
  Proofs_CellIndex Properties_Boxes Spec_Improve Spec_Expect Proofs_Expect Proofs_ExpectCells Model_EHVI Properties_EHVI Proofs_ExpectPos Proofs_Region Proofs_IndexProper Spec_Decompose Properties_Region Properties_Threshold.
Import ListNotations.
Open Scope nat_scope.

(** The first list is the second with some entries left out. *)
Inductive leaves_out {A} : list A -> list A -> Prop :=
| lo_nil : leaves_out [] []
| lo_keep a l l' : leaves_out l l' -> leaves_out (a :: l) (a :: l')
| lo_skip a l l' : leaves_out l l' -> leaves_out l (a :: l').

Lemma lo_refl {A} (l : list A) : leaves_out l l.
Proof. induction l; constructor; auto. Qed.
Lemma lo_app {A} (a a' b b' : list A) : leaves_out a a' -> leaves_out b b' -> leaves_out (a ++ b) (a' ++ b').
Proof. induction 1; intros H0; cbn; auto; constructor; auto. Qed.
Lemma lo_more {A} (a a' : list A) x : leaves_out a a' -> leaves_out a (a' ++ [x]).
Proof. intros H. rewrite <- (app_nil_r a). apply lo_app; [exact H|]. apply lo_skip, lo_nil. Qed.
Lemma lo_map {A B} (f : A -> B) l l' : leaves_out l l' -> leaves_out (map f l) (map f l').
Proof. induction 1; cbn; constructor; auto. Qed.
Lemma lo_in {A} (l l' : list A) x : leaves_out l l' -> In x l -> In x l'.
Proof. induction 1; cbn; intuition. Qed.

Lemma Qltb_lower a b x : (a <= b)%Q -> Qltb b x = true -> Qltb a x = true.
Proof.
  unfold Qltb. intros H E. apply negb_true_iff in E. apply negb_true_iff. destruct (Qle_bool x a) eqn:F; [|reflexivity].
  apply Qle_bool_iff in F. assert (K : Qle_bool x b = true) by (apply Qle_bool_iff; apply Qle_trans with a; assumption). congruence.
Qed.

(** The loop with the larger threshold visits, and keeps, fewer cells. *)
Lemma loop_alpha argsort argmax m P a b : (a <= b)%Q -> forall fa fb sa sb acca accb ra rb, leaves_out sb sa -> leaves_out accb acca ->
  bp_loop argsort argmax fa m a P sa acca = Some ra -> bp_loop argsort argmax fb m b P sb accb = Some rb -> leaves_out rb ra.
Proof.
  intros LE. induction fa as [|fa IH]; intros fb sa sb acca accb ra rb S0 A EA EB.
  - destruct sa; [|discriminate]. inversion S0; subst. destruct fb; cbn in EA, EB; injection EA as <-; injection EB as <-; exact A.
  - destruct S0 as [|c sb sa S0|c sb sa S0].
    + destruct fb; cbn in EA, EB; injection EA as <-; injection EB as <-; exact A.
    + destruct fb as [|fb]; [discriminate|]. cbn [bp_loop] in EA, EB.
      destruct (forallb _ P); [exact (IH fb sa sb _ _ ra rb S0 (lo_app _ _ _ _ A (lo_refl _)) EA EB)|].
      destruct (forallb _ P); [|exact (IH fb sa sb _ _ ra rb S0 A EA EB)].
      destruct (existsb _ _); cbn [andb] in EA, EB; [|exact (IH fb sa sb _ _ ra rb S0 A EA EB)].
      destruct (Qltb b _) eqn:B in EB; [rewrite (Qltb_lower a b _ LE B) in EA|destruct (Qltb a _) in EA].
      * refine (IH fb _ _ _ _ ra rb _ A EA EB). do 2 apply lo_keep. exact S0.
      * refine (IH fb _ _ _ _ ra rb _ A EA EB). do 2 apply lo_skip. exact S0.
      * exact (IH fb sa sb _ _ ra rb S0 A EA EB).
    + cbn [bp_loop] in EA. destruct (forallb _ P); [exact (IH fb sa sb _ _ ra rb S0 (lo_more _ _ _ A) EA EB)|].
      destruct (forallb _ P); [|exact (IH fb sa sb _ _ ra rb S0 A EA EB)].
      destruct (existsb _ _ && _); [|exact (IH fb sa sb _ _ ra rb S0 A EA EB)].
      refine (IH fb _ _ _ _ ra rb _ A EA EB). do 2 apply lo_skip. exact S0.
Qed.
Lemma cells_alpha argsort argmax a b ref P ca cb : (a <= b)%Q -> cells_of argsort argmax a ref P = Some ca -> cells_of argsort argmax b ref P = Some cb -> leaves_out cb ca.
Proof.
  intros LE. unfold cells_of, partition_space. destruct (length ref =? 2); [intros EA EB; injection EA as <-; injection EB as <-; apply lo_refl|].
  destruct P as [|p P]; [intros EA EB; injection EA as <-; injection EB as <-; apply lo_refl|].
  intros EA EB. exact (loop_alpha argsort argmax _ _ a b LE _ _ _ _ _ _ _ _ (lo_refl _) lo_nil EA EB).
Qed.

(** The outcomes and the front do not depend on the threshold. *)
Lemma updates_alpha argsort argmax a b ref batches da db : updates argsort argmax a ref batches = Some da -> updates argsort argmax b ref batches = Some db ->
  d_front da = d_front db /\ d_cells da = cells_of argsort argmax a ref (d_front da) /\ d_cells db = cells_of argsort argmax b ref (d_front db).
Proof.
  unfold updates.
  assert (G : forall bs oa ob, match oa, ob with
      | Some x, Some y => d_Y x = d_Y y /\ d_front x = d_front y /\ d_cells x = cells_of argsort argmax a ref (d_front x) /\ d_cells y = cells_of argsort argmax b ref (d_front y)
      | None, None => True | _, _ => False end ->
    match fold_left (fun o Y => Some (update argsort argmax a ref o Y)) bs oa, fold_left (fun o Y => Some (update argsort argmax b ref o Y)) bs ob with
      | Some x, Some y => d_Y x = d_Y y /\ d_front x = d_front y /\ d_cells x = cells_of argsort argmax a ref (d_front x) /\ d_cells y = cells_of argsort argmax b ref (d_front y)
      | None, None => True | _, _ => False end).
  { induction bs as [|Y bs IH]; intros oa ob H; cbn [fold_left]; [exact H|]. apply IH. destruct oa as [x|], ob as [y|]; try contradiction; unfold update, reset.
    - destruct H as (E1 & E2 & E3 & E4). rewrite <- E1, <- E2. destruct (same_front _ _); cbn [d_Y d_front d_cells]; repeat split; auto. rewrite E4, E2. reflexivity.
    - cbn [d_Y d_front d_cells]. repeat split. }
  intros EA EB. specialize (G batches None None I). rewrite EA, EB in G. tauto.
Qed.

Lemma forward_leaves_out big pred : forall cs' cs, leaves_out cs' cs -> forall cells' cells, real_cells cs = Some cells -> real_cells cs' = Some cells' -> List.Forall (cell_ok big pred) cells ->
  leaves_out cells' cells.
Proof.
  induction 1 as [|c l l' H IH|c l l' H IH]; intros cells' cells E E' OK; cbn [real_cells] in E, E'.
  - injection E as <-. injection E' as <-. constructor.
  - destruct (real_cell (fst c) (snd c)); [|discriminate]. destruct (real_cells l) eqn:F; [|discriminate]. destruct (real_cells l') eqn:F'; [|discriminate]. injection E as <-. injection E' as <-.
    inversion OK; subst. apply lo_keep. apply IH; auto.
  - destruct (real_cell (fst c) (snd c)); [|discriminate]. destruct (real_cells l') eqn:F'; [|discriminate]. injection E as <-. inversion OK; subst. apply lo_skip. apply IH; auto.
Qed.
Lemma sum_leaves_out big pred cells' cells : leaves_out cells' cells -> List.Forall (cell_ok big pred) cells ->
  (sum (map (cell_value big pred) cells') <= sum (map (cell_value big pred) cells))%R.
Proof.
  unfold sum. induction 1 as [|c l l' H IH|c l l' H IH]; intros OK; cbn [map fold_right]; [apply Rle_refl|inversion OK; subst; apply Rplus_le_compat_l, IH; auto|].
  inversion OK; subst. assert (K : (0 <= cell_value big pred c)%R) by (apply (cell_mono big c pred pred (at_least_refl pred)); assumption). pose proof (IH H3). lra.
Qed.

(** C292.  Raising the threshold leaves out cells and changes none, and the acquisition function over the cells never grows. *)
Theorem C292_threshold_monotone :
  forall argsort argmax a b ref batches big pred, sorts argsort -> finds_max argmax -> (a <= b)%Q ->
    (forall B, In B batches -> rectangular (length ref) B) -> batches <> [] -> length pred = length ref ->
    below_cut big ref -> (forall y, In y (concat batches) -> below_cut big y) ->
    exists da db csa csb cellsa cellsb,
      updates argsort argmax a ref batches = Some da /\ bounds_of ref da = Some csa /\ real_cells csa = Some cellsa /\
      updates argsort argmax b ref batches = Some db /\ bounds_of ref db = Some csb /\ real_cells csb = Some cellsb /\
      leaves_out csb csa /\ (forward big cellsb pred <= forward big cellsa pred)%R.
Proof.
  intros argsort argmax a b ref batches big pred HS HM LE R NE L HC HY.
  destruct (threshold_cells argsort argmax a ref batches big HS HM R NE HC HY) as (da & csa & EA & Ba & PRa & _ & _).
  destruct (threshold_cells argsort argmax b ref batches big HS HM R NE HC HY) as (db & csb & EB & Bb & PRb & _ & _).
  destruct (real_cells_ok big (length ref) csa pred PRa L) as (cellsa & Ra & OKa). destruct (real_cells_ok big (length ref) csb pred PRb L) as (cellsb & Rb & OKb).
  assert (LO : leaves_out csb csa).
  { destruct (updates_alpha argsort argmax a b ref batches da db EA EB) as (F & Ca & Cb). unfold bounds_of in Ba, Bb. rewrite Ca in Ba. rewrite Cb, <- F in Bb.
    destruct (cells_of argsort argmax a ref (d_front da)) as [ca|] eqn:Ea; [|discriminate]. destruct (cells_of argsort argmax b ref (d_front da)) as [cb|] eqn:Eb; [|discriminate].
    cbn [option_map] in Ba, Bb. injection Ba as <-. injection Bb as <-. apply lo_map. exact (cells_alpha argsort argmax a b ref _ ca cb LE Ea Eb). }
  exists da, db, csa, csb, cellsa, cellsb. repeat (split; [assumption|]). rewrite (forward_values big cellsa pred OKa), (forward_values big cellsb pred OKb).
  apply sum_leaves_out; [|exact OKa]. exact (forward_leaves_out big pred csb csa LO cellsb cellsa Ra Rb OKa).
Qed.
Print Assumptions C292_threshold_monotone.

(** Thresholds zero, one tenth, one fifth and one: 13, 3, 2 and no cells, and an outcome that adds 11 is credited with 11, 5, 4 and 0. *)
Example C292_case :
  let H := [[[1; 5; 2]]; [[4; 1; 2]; [-1; 1; 1]]; []; [[2; 3; 3]; [1; 5; 2]]]%Q in let ref := [0; 0; 0]%Q in
  (forall B, In B H -> rectangular 3 B) /\
  map (fun alpha => option_map (fun d => option_map (fun cs => (length cs, option_map Qred (total_gain cs [3; 4; 5 # 2]%Q))) (bounds_of ref d)) (updates argsort_stable first_max alpha ref H)) [0; 1 # 10; 1 # 5; 1]%Q =
    [Some (Some (13, Some 11%Q)); Some (Some (3, Some 5%Q)); Some (Some (2, Some 4%Q)); Some (Some (0, Some 0%Q))].
Proof. cbv zeta. split; [intros B HB p Hp; simpl in HB; intuition (subst; simpl in Hp; intuition (subst; reflexivity))|vm_compute; reflexivity]. Qed.
