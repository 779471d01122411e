(** Lemmas: the expected hypervolume improvement as an expectation. *)
From Coq Require Import Reals List QArith Qreals Qminmax Lra Lia Psatz.
From Coquelicot Require Import Coquelicot.
From Verif Require Import Lib_Normal Model_Boxes Spec_Improve Spec_Expect Model_EHVI Properties_EHVI.
Import ListNotations.
Open Scope R_scope.

Lemma whole_ext f g v : (forall y, f y = g y) -> whole_integral f v -> whole_integral g v.
Proof.
  intros E [A B]. split.
  - intros a b. apply ex_RInt_ext with f; auto.
  - intros e He. destruct (B e He) as (M & H). exists M. intros a b Ha Hb. rewrite <- (RInt_ext f g) by auto. auto.
Qed.
Lemma whole_scal c f v : whole_integral f v -> whole_integral (fun y => c * f y) (c * v).
Proof.
  intros [A B]. split.
  - intros a b. apply (ex_RInt_scal f). apply A.
  - intros e He. destruct (B (e / (Rabs c + 1))) as (M & H); [apply Rdiv_lt_0_compat; auto; pose proof (Rabs_pos c); lra|]. exists M. intros a b Ha Hb.
    assert (E : RInt (fun y => c * f y) a b = c * RInt f a b) by (apply (RInt_scal f a b c); apply A). rewrite E. specialize (H a b Ha Hb).
    replace (c * RInt f a b - c * v) with (c * (RInt f a b - v)) by ring. rewrite Rabs_mult. pose proof (Rabs_pos c) as P. pose proof (Rabs_pos (RInt f a b - v)) as P'.
    assert (K : (Rabs c + 1) * (e / (Rabs c + 1)) = e) by (field; lra). set (q := e / (Rabs c + 1)) in *. nra.
Qed.
Lemma whole_plus f g v w : whole_integral f v -> whole_integral g w -> whole_integral (fun y => f y + g y) (v + w).
Proof.
  intros [A B] [A' B']. split.
  - intros a b. apply (ex_RInt_plus f g); auto.
  - intros e He. destruct (B (e / 2)) as (M & H); [lra|]. destruct (B' (e / 2)) as (M' & H'); [lra|]. exists (Rmax M M'). intros a b Ha Hb.
    pose proof (Rmax_l M M'). pose proof (Rmax_r M M').
    assert (E : RInt (fun y => f y + g y) a b = RInt f a b + RInt g a b) by (apply (RInt_plus f g); auto). rewrite E.
    specialize (H a b ltac:(lra) ltac:(lra)). specialize (H' a b ltac:(lra) ltac:(lra)).
    replace (RInt f a b + RInt g a b - (v + w)) with ((RInt f a b - v) + (RInt g a b - w)) by ring. eapply Rle_lt_trans; [apply Rabs_triang|]. lra.
Qed.
Lemma whole_zero : whole_integral (fun _ => 0) 0.
Proof.
  split.
  - intros a b. apply ex_RInt_const.
  - intros e He. exists 0. intros a b _ _. assert (E : RInt (fun _ => 0) a b = (b - a) * 0) by (apply (RInt_const a b 0)). rewrite E, Rmult_0_r, Rminus_0_r, Rabs_R0. exact He.
Qed.
Lemma whole_unique f v w : whole_integral f v -> whole_integral f w -> v = w.
Proof.
  intros [_ B] [_ B']. destruct (Req_dec v w) as [E|N]; [exact E|exfalso]. assert (P : 0 < Rabs (v - w)) by (apply Rabs_pos_lt; lra).
  destruct (B (Rabs (v - w) / 2)) as (M & H); [lra|]. destruct (B' (Rabs (v - w) / 2)) as (M' & H'); [lra|].
  pose proof (Rmax_l M M') as L1. pose proof (Rmax_r M M') as L2. set (K := Rmax M M') in *. specialize (H (- K - 1) (K + 1) ltac:(lra) ltac:(lra)). specialize (H' (- K - 1) (K + 1) ltac:(lra) ltac:(lra)).
  set (I := RInt f (- K - 1) (K + 1)) in *. assert (T : Rabs (v - w) <= Rabs (I - v) + Rabs (I - w)).
  { replace (v - w) with (- (I - v) + (I - w)) by ring. eapply Rle_trans; [apply Rabs_triang|]. rewrite Rabs_Ropp. lra. }
  lra.
Qed.

Lemma expectation_ext os : forall f g v, (forall ys, f ys = g ys) -> expectation os f v -> expectation os g v.
Proof.
  induction os as [|[m sd] os IH]; intros f g v E; cbn [expectation]; [intros ->; apply E|]. intros (h & H1 & H2). exists h. split; [|exact H2].
  intros y. apply (IH (fun ys => f (y :: ys))); auto.
Qed.
Lemma expectation_scal os : forall c f v, expectation os f v -> expectation os (fun ys => c * f ys) (c * v).
Proof.
  induction os as [|[m sd] os IH]; intros c f v; cbn [expectation]; [intros ->; reflexivity|]. intros (h & H1 & H2). exists (fun y => c * h y). split; [intros y; apply (IH c (fun ys => f (y :: ys))), H1|].
  apply (whole_ext (fun y => c * (h y * normal_density m sd y))); [intros; ring|]. now apply whole_scal.
Qed.
Lemma expectation_plus os : forall f g v w, expectation os f v -> expectation os g w -> expectation os (fun ys => f ys + g ys) (v + w).
Proof.
  induction os as [|[m sd] os IH]; intros f g v w; cbn [expectation]; [intros -> ->; reflexivity|]. intros (h & H1 & H2) (h' & H1' & H2'). exists (fun y => h y + h' y).
  split; [intros y; apply (IH (fun ys => f (y :: ys)) (fun ys => g (y :: ys))); auto|].
  apply (whole_ext (fun y => h y * normal_density m sd y + h' y * normal_density m sd y)); [intros; ring|]. now apply whole_plus.
Qed.
Lemma expectation_zero os : expectation os (fun _ => 0) 0.
Proof.
  induction os as [|[m sd] os IH]; cbn [expectation]; [reflexivity|]. exists (fun _ => 0). split; [intros; exact IH|]. apply (whole_ext (fun _ => 0)); [intros; ring|]. apply whole_zero.
Qed.
Lemma expectation_unique os : forall f v w, expectation os f v -> expectation os f w -> v = w.
Proof.
  induction os as [|[m sd] os IH]; intros f v w; cbn [expectation]; [intros -> ->; reflexivity|]. intros (h & H1 & H2) (h' & H1' & H2').
  apply (whole_unique (fun y => h y * normal_density m sd y)); [exact H2|]. apply (whole_ext (fun y => h' y * normal_density m sd y)); [|exact H2']. intros y. f_equal. exact (IH _ _ _ (H1' y) (H1 y)).
Qed.

(** One objective. *)
Lemma one_side l u m sd e : l <= u -> expected_gain l u m sd e -> whole_integral (fun y => Rmax 0 (Rmin y u - l) * normal_density m sd y) e.
Proof.
  intros L [A B]. set (g := fun y => Rmax 0 (Rmin y u - l) * normal_density m sd y). set (f := fun y => (Rmin y u - l) * density m sd y) in *.
  assert (Z : forall a, a <= l -> is_RInt g a l 0).
  { intros a Ha. apply is_RInt_ext with (fun _ => 0).
    - intros y [_ Hy]. rewrite Rmax_right in Hy by lra. unfold g. rewrite Rmax_left; [symmetry; apply Rmult_0_l|]. pose proof (Rmin_l y u). lra.
    - evar_last; [apply (is_RInt_const a l 0)|]. exact (Rmult_0_r (l - a)). }
  assert (P : forall b, l <= b -> is_RInt g l b (RInt f l b)).
  { intros b Hb. apply is_RInt_ext with f; [|exact (@RInt_correct R_CompleteNormedModule f l b (A b))]. intros y [Hy _]. rewrite Rmin_left in Hy by lra. unfold f, g, density, normal_density. rewrite (Rmax_right 0); [reflexivity|].
    assert (l <= Rmin y u) by (apply Rmin_glb; lra). lra. }
  assert (X : forall b, ex_RInt g l b).
  { intros b. destruct (Rle_dec l b) as [Hb|Hb]; [eexists; now apply P|]. apply ex_RInt_swap. eexists. apply Z. lra. }
  split.
  - intros a b. apply (ex_RInt_Chasles g a l b); [apply ex_RInt_swap|]; apply X.
  - intros ep He. destruct (B ep He) as (M & H). exists (Rmax M (Rabs l)). intros a b Ha Hb. pose proof (Rmax_l M (Rabs l)). pose proof (Rmax_r M (Rabs l)). pose proof (Rle_abs l). pose proof (Rle_abs (- l)) as K. rewrite Rabs_Ropp in K.
    assert (E : RInt g a b = RInt f l b).
    { rewrite <- (RInt_Chasles g a l b); [|eexists; apply Z; lra|apply X]. rewrite (is_RInt_unique _ _ _ _ (Z a ltac:(lra))), (is_RInt_unique _ _ _ _ (P b ltac:(lra))). unfold plus; cbn. ring. }
    fold g. rewrite E. apply H. lra.
Qed.

Definition deviations (pred : list (R * R)) : list (R * R) := map (fun p => (fst p, sigma_of (snd p))) pred.
Lemma cell_expectation big cell pred es : cell_ok big pred cell -> gains big cell pred es -> expectation (deviations pred) (covered big cell) (prod es).
Proof.
  intros [_ F] G. induction G as [|l u cell mu mse pred e es EG G IH]; [reflexivity|]. inversion F as [|? ? F1 F2]; subst. cbn [fst snd] in F1. cbn [deviations map expectation fst snd]. fold (deviations pred).
  exists (fun y => Rmax 0 (Rmin y (match u with Some u => Rmin u big | None => big end) - l) * prod es). split.
  - intros y. cbn [covered]. apply expectation_scal, IH, F2.
  - unfold prod. cbn [fold_right]. fold (prod es). apply (one_side _ _ _ _ _ F1) in EG. apply (whole_scal (prod es)) in EG. rewrite Rmult_comm. eapply whole_ext; [|exact EG]. intros y. cbv beta. unfold sigma_of. ring.
Qed.
Lemma forward_expectation big cells pred : List.Forall (cell_ok big pred) cells -> expectation (deviations pred) (covered_total big cells) (forward big cells pred).
Proof.
  intros H. destruct (C60_ehvi_is_sum_of_products_of_expected_gains big cells pred H) as (ess & G & ->). clear - H G. induction G as [|cell es cells ess G _ IH]; [apply expectation_zero|].
  inversion H; subst. unfold covered_total, sum in *. cbn [map fold_right]. apply expectation_plus; [now apply cell_expectation|]. apply IH. assumption.
Qed.

(** Rational outcomes. *)
Lemma Q2R_max a b : Q2R (Qmax a b) = Rmax (Q2R a) (Q2R b).
Proof.
  destruct (Q.max_spec a b) as [[L E]|[L E]]; rewrite (Qeq_eqR _ _ E); symmetry; [apply Rmax_right, Qle_Rle, Qlt_le_weak, L|apply Rmax_left, Qle_Rle, L].
Qed.
Lemma Q2R_min a b : Q2R (Qmin a b) = Rmin (Q2R a) (Q2R b).
Proof.
  destruct (Q.min_spec a b) as [[L E]|[L E]]; rewrite (Qeq_eqR _ _ E); symmetry; [apply Rmin_left, Qle_Rle, Qlt_le_weak, L|apply Rmin_right, Qle_Rle, L].
Qed.
Lemma Q2R_zero : Q2R 0 = 0.
Proof. unfold Q2R. cbn. lra. Qed.
Lemma Q2R_one : Q2R 1 = 1.
Proof. unfold Q2R. cbn. lra. Qed.
Lemma min_cut y u big : y <= big -> Rmin y (Rmin u big) = Rmin y u.
Proof. intros H. unfold Rmin. destruct (Rle_dec u big), (Rle_dec y u), (Rle_dec y big), (Rle_dec y (if Rle_dec u big then u else big)); try lra; destruct (Rle_dec y u); lra. Qed.
Lemma rational_cell big : forall lo hi (y : list Q) cell g, real_cell lo hi = Some cell -> cell_gain lo hi y = Some g -> (forall q, In q y -> Q2R q <= big) ->
  covered big cell (map Q2R y) = Q2R g.
Proof.
  induction lo as [|a lo IH]; intros [|b hi] y cell g.
  - intros E1 E2 _. injection E1 as <-. destruct y; [|discriminate]. injection E2 as <-. symmetry. apply Q2R_one.
  - discriminate.
  - destruct a; discriminate.
  - cbn [real_cell cell_gain]. destruct a as [|a|]; try discriminate. destruct y as [|v y]; [discriminate|]. intros E1 E2 HB.
    assert (HB' : forall q, In q y -> Q2R q <= big) by (intros q Hq; apply HB; now right). assert (Hv := HB v (or_introl eq_refl)).
    destruct b as [|b|]; try discriminate; destruct (real_cell lo hi) as [c|] eqn:EC; try discriminate; injection E1 as <-; cbn [side_gain] in E2; destruct (cell_gain lo hi y) as [p|] eqn:EP; try discriminate;
      injection E2 as <-; cbn [map covered]; rewrite (IH hi y c p EC EP HB'), Q2R_mult, Q2R_max, Q2R_zero, Q2R_minus, ?Q2R_min.
    + rewrite min_cut by exact Hv. reflexivity.
    + rewrite (Rmin_left (Q2R v) big) by exact Hv. reflexivity.
Qed.
Lemma rational_total big : forall cs (y : list Q) cells s, real_cells cs = Some cells -> total_gain cs y = Some s -> (forall q, In q y -> Q2R q <= big) ->
  covered_total big cells (map Q2R y) = Q2R s.
Proof.
  induction cs as [|c cs IH]; intros y cells s; cbn [real_cells total_gain].
  - intros E1 E2 _. injection E1 as <-. injection E2 as <-. symmetry. apply Q2R_zero.
  - destruct (real_cell (fst c) (snd c)) as [r|] eqn:E1; [|discriminate]. destruct (real_cells cs) as [rs|] eqn:E2; [|discriminate]. intros E. injection E as <-.
    destruct (cell_gain (fst c) (snd c) y) as [g|] eqn:E3; [|discriminate]. destruct (total_gain cs y) as [t|] eqn:E4; [|discriminate]. intros E. injection E as <-. intros HB.
    unfold covered_total in *. cbn [map fold_right]. rewrite (IH y rs t eq_refl E4 HB), (rational_cell big _ _ y r g E1 E3 HB), Q2R_plus. reflexivity.
Qed.

(** A larger outcome covers at least as much. *)
Lemma covered_mono big : forall cell ys ys', Forall2 Rle ys ys' -> 0 <= covered big cell ys <= covered big cell ys'.
Proof.
  induction cell as [|[l u] cell IH]; intros ys ys' H; [cbn; lra|]. destruct H as [|y y' ys ys' H0 H]; [cbn; lra|]. cbn [covered]. destruct (IH ys ys' H) as [I1 I2].
  set (c := match u with Some u => Rmin u big | None => big end). assert (M : Rmin y c <= Rmin y' c) by (apply Rle_min_compat_r; exact H0).
  assert (N : 0 <= Rmax 0 (Rmin y c - l) <= Rmax 0 (Rmin y' c - l)). { split; [apply Rmax_l|]. apply Rle_max_compat_l. lra. }
  split; [apply Rmult_le_pos; lra|apply Rmult_le_compat; lra].
Qed.
Lemma total_mono big cells ys ys' : Forall2 Rle ys ys' -> 0 <= covered_total big cells ys <= covered_total big cells ys'.
Proof.
  intros H. unfold covered_total. induction cells as [|c cells IH]; cbn [map fold_right]; [lra|]. pose proof (covered_mono big c ys ys' H). lra.
Qed.

(** Proper cells have real bounds. *)
Definition proper_sides (big : R) (lo hi : list ext) : Prop :=
  Forall2 (fun a b => exists q, a = Val q /\ Q2R q <= big /\ (b = PInf \/ exists r, b = Val r /\ (q <= r)%Q)) lo hi.
Lemma real_cell_ok big lo hi pred : proper_sides big lo hi -> length lo = length pred -> exists cell, real_cell lo hi = Some cell /\ cell_ok big pred cell.
Proof.
  intros P. revert pred. induction P as [|a b lo hi (q & -> & Hq & Hb) P IH]; intros [|p pred] L; cbn in L; try lia.
  - exists []. split; [reflexivity|]. split; [reflexivity|constructor].
  - destruct (IH pred ltac:(lia)) as (cell & E & [L' F]). destruct Hb as [->|(r & -> & Hr)]; cbn [real_cell]; rewrite E; eexists; (split; [reflexivity|]); (split; [cbn; lia|]); constructor; auto; cbn [fst snd].
    apply Rmin_glb; [now apply Qle_Rle|exact Hq].
Qed.
Lemma real_cells_ok big m cs pred : (forall c, In c cs -> length (fst c) = m /\ proper_sides big (fst c) (snd c)) -> length pred = m ->
  exists cells, real_cells cs = Some cells /\ List.Forall (cell_ok big pred) cells.
Proof.
  intros H L. induction cs as [|c cs IH]; [exists []; split; [reflexivity|constructor]|]. destruct IH as (rs & E & F); [intros d Hd; apply H; now right|]. destruct (H c (or_introl eq_refl)) as [Lc P].
  destruct (real_cell_ok big _ _ pred P) as (r & Er & K); [congruence|]. exists (r :: rs). cbn [real_cells]. rewrite Er, E. split; [reflexivity|]. now constructor.
Qed.
