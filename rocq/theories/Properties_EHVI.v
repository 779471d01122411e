(** Properties of the expected hypervolume improvement (C60 and C127). *)
From Coq Require Import Reals List Bool Lra Lia Psatz.
From Coquelicot Require Import Coquelicot.
From Verif Require Import Lib_Normal Model_EHVI.
Import ListNotations.
Open Scope R_scope.

(** ** Specification *)
(** Normal density, and the integral of [f] from [a] upwards. *)
Definition density (m sd y : R) : R := pdf ((y - m) / sd) / sd.
Definition integral_from (f : R -> R) (a v : R) : Prop :=
  (forall b, ex_RInt f a b) /\ forall e, 0 < e -> exists M, forall b, M < b -> Rabs (RInt f a b - v) < e.
(** The expected length, along one objective, that a normally distributed value adds inside of the
    interval from [l] to [u]. *)
Definition expected_gain (l u m sd e : R) : Prop := integral_from (fun y => (Rmin y u - l) * density m sd y) l e.
(** One gain per objective of the cell, with upper bounds cut at [big]. *)
Inductive gains (big : R) : list side -> list (R * R) -> list R -> Prop :=
| gains_nil : gains big [] [] []
| gains_cons l u cell mu mse pred e es :
    expected_gain l (match u with Some v => Rmin v big | None => big end) mu (sqrt (Rmax mse (/ 1000000000))) e ->
    gains big cell pred es -> gains big ((l, u) :: cell) ((mu, mse) :: pred) (e :: es).
Definition prod (l : list R) : R := fold_right Rmult 1 l.

(** ** Lemmas *)
Lemma cdf_sym z : cdf (- z) = 1 - cdf z.
Proof.
  enough (E : cdf (- z) + cdf z = cdf (- 0) + cdf 0) by (rewrite Ropp_0, cdf_zero in E; lra).
  apply (const_derive (fun z => cdf (- z) + cdf z)). intros u. evar_last.
  - apply (is_derive_plus (fun z => cdf (- z)) cdf); [|apply cdf_derive]. apply (is_derive_comp cdf Ropp); [apply cdf_derive|]. instantiate (1 := -1). auto_derive; auto; lra.
  - unfold plus, scal; cbn; unfold mult; cbn. unfold pdf, gauss. replace (- u * - u) with (u * u) by ring. ring.
Qed.
Lemma pdf_even z : pdf (- z) = pdf z.
Proof. unfold pdf, gauss. now replace (- z * - z) with (z * z) by ring. Qed.
Lemma sigma_pos mse : 0 < sqrt (Rmax mse (/ 1000000000)).
Proof. apply sqrt_lt_R0. eapply Rlt_le_trans; [|apply Rmax_r]. lra. Qed.

(** The closed form of one factor. *)
Definition gain (l u m sd : R) : R := sd * psi ((m - l) / sd) - sd * psi ((m - u) / sd).
Lemma factors_gain big l u m sd : 0 < sd ->
  fst (factors big (l, u) m sd) + snd (factors big (l, u) m sd) = gain l (clamp big u) m sd.
Proof.
  intros P. unfold factors, psi_fun, nu_fun, gain, psi. cbn. set (v := clamp big u).
  replace ((m - l) / sd) with (- ((l - m) / sd)) by (field; lra). replace ((m - v) / sd) with (- ((v - m) / sd)) by (field; lra). rewrite !cdf_sym, !pdf_even.
  set (a := cdf _). set (b := cdf _). set (c := pdf _). set (d := pdf _). clearbody a b c d. field. lra.
Qed.
Lemma std_d m sd y : 0 < sd -> is_derive (fun y => (y - m) / sd) y (/ sd).
Proof. intros. auto_derive; [lra|]. field. lra. Qed.
Lemma gain_is_expectation l u m sd : 0 < sd -> l <= u -> expected_gain l u m sd (gain l u m sd).
Proof.
  intros P L. set (f := fun y => (Rmin y u - l) * density m sd y).
  set (F1 := fun y => (m - l) * cdf ((y - m) / sd) - sd * pdf ((y - m) / sd)).
  set (F2 := fun y => (u - l) * cdf ((y - m) / sd)).
  assert (D1 : forall y, is_derive F1 y ((y - l) * density m sd y)).
  { intros y. unfold F1, density. evar_last.
    - apply (is_derive_minus (fun y => (m - l) * cdf ((y - m) / sd)) (fun y => sd * pdf ((y - m) / sd))); apply is_derive_scal.
      + apply (is_derive_comp cdf (fun y => (y - m) / sd)); [apply cdf_derive|now apply std_d].
      + apply (is_derive_comp pdf (fun y => (y - m) / sd)); [apply pdf_derive|now apply std_d].
    - unfold minus, plus, opp, scal; cbn; unfold mult; cbn. set (q := pdf _). clearbody q. field. lra. }
  assert (D2 : forall y, is_derive F2 y ((u - l) * density m sd y)).
  { intros y. unfold F2, density. evar_last.
    - apply is_derive_scal. apply (is_derive_comp cdf (fun y => (y - m) / sd)); [apply cdf_derive|now apply std_d].
    - unfold scal; cbn; unfold mult; cbn. set (q := pdf _). clearbody q. field. lra. }
  assert (Dd : forall y, continuous (density m sd) y).
  { intros y. apply ex_derive_continuous with (f := density m sd). unfold density. eexists.
    apply is_derive_ext with (fun y => scal (/ sd) (pdf ((y - m) / sd))); [intros; unfold scal; cbn; unfold mult; cbn; unfold Rdiv; ring|].
    apply is_derive_scal. apply (is_derive_comp pdf (fun y => (y - m) / sd)); [apply pdf_derive|now apply std_d]. }
  assert (C1 : forall y, continuous (fun y => (y - l) * density m sd y) y).
  { intros y. apply (continuous_mult (fun y => y - l) (density m sd)); auto. apply ex_derive_continuous with (f := fun y => y - l). auto_derive. auto. }
  assert (C2 : forall y, continuous (fun y => (u - l) * density m sd y) y).
  { intros y. apply (continuous_mult (fun y => u - l) (density m sd)); auto. apply continuous_const. }
  assert (I1 : forall b, b <= u -> is_RInt f l b (F1 b - F1 l)).
  { intros b Hb. apply is_RInt_ext with (fun y => (y - l) * density m sd y).
    - intros y Hy. unfold f. rewrite Rmin_left; auto. destruct Hy as [_ Hy]. apply Rlt_le in Hy. eapply Rle_trans; [exact Hy|]. apply Rmax_lub; auto.
    - apply (is_RInt_derive F1); intros; auto. }
  assert (I2 : forall b, u <= b -> is_RInt f u b (F2 b - F2 u)).
  { intros b Hb. apply is_RInt_ext with (fun y => (u - l) * density m sd y).
    - intros y Hy. unfold f. rewrite Rmin_right; auto. destruct Hy as [Hy _]. rewrite Rmin_left in Hy by auto. lra.
    - apply (is_RInt_derive F2); intros; auto. }
  assert (V : forall b, u <= b -> RInt f l b = gain l u m sd - (u - l) * (1 - cdf ((b - m) / sd))).
  { intros b Hb. rewrite <- (RInt_Chasles f l u b); [|eexists; apply I1; lra|eexists; now apply I2].
    rewrite (is_RInt_unique _ _ _ _ (I1 u (Rle_refl u))), (is_RInt_unique _ _ _ _ (I2 b Hb)). unfold plus; cbn. unfold F1, F2, gain, psi.
    replace ((m - l) / sd) with (- ((l - m) / sd)) by (field; lra). replace ((m - u) / sd) with (- ((u - m) / sd)) by (field; lra). rewrite !cdf_sym, !pdf_even.
    set (a := cdf ((l - m) / sd)). set (a2 := cdf ((u - m) / sd)). set (a3 := cdf ((b - m) / sd)). set (c := pdf ((l - m) / sd)). set (d := pdf _). clearbody a a2 a3 c d. field. lra. }
  split.
  - intros b. destruct (Rle_dec b u) as [Hb|Hb]; [eexists; now apply I1|]. apply (ex_RInt_Chasles f l u b); [eexists; apply I1; lra|eexists; apply I2; lra].
  - intros e He. destruct (cdf_lim_plus (e / (u - l + 1))) as [M HM]; [apply Rdiv_lt_0_compat; lra|].
    exists (Rmax u (m + sd * M)). intros b Hb. pose proof (Rmax_l u (m + sd * M)). pose proof (Rmax_r u (m + sd * M)). fold f. rewrite V by lra.
    assert (Z : M < (b - m) / sd). { apply Rmult_lt_reg_r with sd; auto. unfold Rdiv. rewrite Rmult_assoc, Rinv_l by lra. lra. }
    specialize (HM _ Z). pose proof (cdf_bounds ((b - m) / sd)) as B. set (c := cdf ((b - m) / sd)) in *. replace (gain l u m sd - (u - l) * (1 - c) - gain l u m sd) with (- ((u - l) * (1 - c))) by ring.
    rewrite Rabs_Ropp, Rabs_right by nra. assert (E : (u - l + 1) * (e / (u - l + 1)) = e) by (field; lra). set (q := e / (u - l + 1)) in *. nra.
Qed.

Lemma sum_app a b : sum (a ++ b) = sum a + sum b.
Proof. unfold sum. induction a as [|x a IH]; cbn; [ring|]. rewrite IH. ring. Qed.
Lemma sum_scal {A} c (f : A -> R) l : sum (map (fun x => c * f x) l) = c * sum (map f l).
Proof. unfold sum. induction l as [|x l IH]; cbn; [ring|]. rewrite IH. ring. Qed.
(** The sum over all choices is the product of the sums. *)
Lemma choices_prod fs : sum (map (term fs) (choices (length fs))) = prod (map (fun f => fst f + snd f) fs).
Proof.
  induction fs as [|[p n] fs IH]; [unfold sum, prod; cbn; ring|]. cbn [length choices map]. rewrite map_app, sum_app, !map_map. cbn [term].
  rewrite (sum_scal p (term fs)), (sum_scal n (term fs)), IH. unfold prod. cbn. ring.
Qed.
Lemma cell_factors_length big cell pred : length cell = length pred -> length (cell_factors big cell pred) = length pred.
Proof. revert pred; induction cell as [|s cell IH]; destruct pred as [|[mu mse] pred]; cbn; intros; auto; try discriminate. Qed.

(** Cells that fit the predictions: one interval per objective, not empty after the cut. *)
Definition cell_ok (big : R) (pred : list (R * R)) (cell : list side) : Prop :=
  length cell = length pred /\ List.Forall (fun s : side => fst s <= match snd s with Some v => Rmin v big | None => big end) cell.
Lemma cell_gains big cell pred : cell_ok big pred cell -> exists es, gains big cell pred es /\ map (fun f => fst f + snd f) (cell_factors big cell pred) = es.
Proof.
  revert pred; induction cell as [|[l u] cell IH]; intros [|[mu mse] pred] [L F]; try discriminate; cbn in *.
  - exists []. split; [constructor|reflexivity].
  - inversion F; subst. cbn in *. destruct (IH pred) as (es & G & E); [split; [lia|auto]|]. eexists. split; [|reflexivity]. rewrite E.
    constructor; auto. pose proof (sigma_pos mse) as P. pose proof (factors_gain big l u mu (sigma_of mse) P) as Q. unfold factors in Q. cbn [fst snd] in Q. rewrite Q. apply gain_is_expectation; auto.
Qed.

(** C60: whatever the number of objectives and of cells, the returned value is the sum over the
    cells of the product over the objectives of the expected gains inside of the cell. *)
Theorem C60_ehvi_is_sum_of_products_of_expected_gains :
  forall big cells pred, List.Forall (cell_ok big pred) cells ->
    exists ess, Forall2 (fun cell es => gains big cell pred es) cells ess /\ forward big cells pred = sum (map prod ess).
Proof.
  intros big cells pred H. induction H as [|cell cells Hc H IH]; [exists []; split; [constructor|reflexivity]|].
  destruct IH as (ess & F & E). destruct (cell_gains big cell pred Hc) as (es & G & Q). exists (es :: ess). split; [now constructor|].
  unfold forward in *. cbn [map sum fold_right] in *. fold (sum (map prod ess)). rewrite <- E. unfold sum at 1. cbn [fold_right]. fold (sum). f_equal.
  rewrite <- (cell_factors_length big cell pred) by apply Hc. rewrite choices_prod, Q. reflexivity.
Qed.
Print Assumptions C60_ehvi_is_sum_of_products_of_expected_gains.
Example C60_nonvacuous : List.Forall (cell_ok 100 [(0, 1); (1, 4)]) [[(0, Some 2); (1, None)]; [(2, None); (0, None)]] .
Proof.
  repeat match goal with |- List.Forall _ [] => apply List.Forall_nil | |- List.Forall _ (_ :: _) => apply List.Forall_cons | |- cell_ok _ _ _ => split; [reflexivity|] end;
    cbn; try lra; apply Rmin_glb; lra.
Qed.

(** ** C127: better predictions *)
Lemma gain_mono l u m m' sd : 0 < sd -> l <= u -> m <= m' -> 0 <= gain l u m sd <= gain l u m' sd.
Proof.
  intros P L [M| ->].
  2:{ split; [|lra]. unfold gain. assert (psi ((m' - u) / sd) <= psi ((m' - l) / sd)); [|nra]. destruct L as [L| ->]; [|lra]. left. apply psi_incr. unfold Rdiv. apply Rmult_lt_compat_r; [now apply Rinv_0_lt_compat|lra]. }
  split.
  - unfold gain. assert (psi ((m - u) / sd) <= psi ((m - l) / sd)); [|nra]. destruct L as [L| ->]; [|lra]. left. apply psi_incr. unfold Rdiv. apply Rmult_lt_compat_r; [now apply Rinv_0_lt_compat|lra].
  - assert (D : forall w, is_derive (fun w => gain l u w sd) w (cdf ((w - l) / sd) - cdf ((w - u) / sd))).
    { intros w. unfold gain. evar_last.
      - apply (is_derive_minus (fun w => sd * psi ((w - l) / sd)) (fun w => sd * psi ((w - u) / sd))); apply is_derive_scal; (apply (is_derive_comp psi (fun w => (w - _) / sd)); [apply psi_derive|now apply std_d]).
      - unfold minus, plus, opp, scal; cbn; unfold mult; cbn. set (a := cdf ((w - l) / sd)). set (b := cdf _). clearbody a b. field. lra. }
    destruct (MVT_gen (fun w => gain l u w sd) m m' (fun w => cdf ((w - l) / sd) - cdf ((w - u) / sd))) as (c & _ & E).
    + intros; apply D.
    + intros. apply derivable_continuous_pt. apply ex_derive_Reals_0. eexists. apply D.
    + cbv beta in E. assert (cdf ((c - u) / sd) <= cdf ((c - l) / sd)); [|nra]. apply cdf_incr_le. unfold Rdiv. apply Rmult_le_compat_r; [left; now apply Rinv_0_lt_compat|lra].
Qed.
(** [pred'] predicts at least the means of [pred], with the same uncertainty. *)
Definition at_least (pred pred' : list (R * R)) : Prop := Forall2 (fun p p' : R * R => fst p <= fst p' /\ snd p = snd p') pred pred'.
Lemma cell_mono big cell pred pred' : at_least pred pred' -> cell_ok big pred cell ->
  0 <= prod (map (fun f => fst f + snd f) (cell_factors big cell pred)) <= prod (map (fun f => fst f + snd f) (cell_factors big cell pred')).
Proof.
  intros A. revert cell. induction A as [|[m v] [m' v'] pred pred' [L E] A IH]; intros [|[l u] cell] [Len F]; try discriminate; cbn [fst snd] in *; [cbn; lra|].
  subst v'. inversion F; subst. cbn [fst snd] in *. cbn [cell_factors map prod fold_right]. rewrite !factors_gain by apply sigma_pos.
  destruct (IH cell) as [I1 I2]; [split; [cbn in *; lia|auto]|]. pose proof (gain_mono l (clamp big u) m m' (sigma_of v) (sigma_pos v) H1 L) as [G1 G2]. unfold prod in *. split; [now apply Rmult_le_pos|apply Rmult_le_compat; auto].
Qed.
(** The value is never negative, and predicting better means for any of the objectives never lowers
    it. *)
Theorem C127_ehvi_prefers_better_means :
  forall big cells pred pred', at_least pred pred' -> List.Forall (cell_ok big pred) cells ->
    0 <= forward big cells pred <= forward big cells pred'.
Proof.
  intros big cells pred pred' A H. assert (Ln : length pred = length pred') by (clear - A; induction A; cbn; auto).
  induction H as [|cell cells Hc H IH]; [unfold forward, sum; cbn; lra|]. unfold forward, sum in *. cbn [map fold_right].
  pose proof (cell_mono big cell pred pred' A Hc) as M. destruct Hc as [Lc _].
  pose proof (choices_prod (cell_factors big cell pred)) as Q1. pose proof (choices_prod (cell_factors big cell pred')) as Q2.
  rewrite cell_factors_length in Q1, Q2 by lia. unfold sum in Q1, Q2. rewrite Q1, Q2. lra.
Qed.
Print Assumptions C127_ehvi_prefers_better_means.
Example C127_nonvacuous : at_least [(0, 1); (1, 4)] [(1, 1); (1, 4)] /\ List.Forall (cell_ok 100 [(0, 1); (1, 4)]) [[(0, Some 2); (1, None)]].
Proof.
  split; [repeat (apply Forall2_cons; [cbn; lra|]); apply Forall2_nil|].
  repeat match goal with |- List.Forall _ [] => apply List.Forall_nil | |- List.Forall _ (_ :: _) => apply List.Forall_cons | |- cell_ok _ _ _ => split; [reflexivity|] end;
    cbn; try lra; apply Rmin_glb; lra.
Qed.
