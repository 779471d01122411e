(** Lemmas: the expected hypervolume improvement is positive. *)
From Coq Require Import Reals List Bool Arith ZArith QArith Qreals Lia Lra.
From Coquelicot Require Import Coquelicot.
From Verif Require Import Lib_Normal Lib_List Model_Boxes Spec_Boxes Spec_Expect Proofs_Expect Model_EHVI Properties_EHVI.
Import ListNotations.
Open Scope R_scope.

Lemma gain_pos l u m sd : 0 < sd -> l < u -> 0 < gain l u m sd.
Proof.
  intros P L. unfold gain. assert (psi ((m - u) / sd) < psi ((m - l) / sd)); [|nra]. apply psi_incr. unfold Rdiv. apply Rmult_lt_compat_r; [now apply Rinv_0_lt_compat|lra].
Qed.
Definition cell_value (big : R) (pred : list (R * R)) (cell : list side) : R := prod (map (fun f => fst f + snd f) (cell_factors big cell pred)).
Lemma forward_values big cells pred : List.Forall (cell_ok big pred) cells -> forward big cells pred = sum (map (cell_value big pred) cells).
Proof.
  intros H. unfold forward. f_equal. apply map_ext_in. intros cell Hc. rewrite List.Forall_forall in H. destruct (H cell Hc) as [L _]. unfold cell_value.
  rewrite <- choices_prod. rewrite (cell_factors_length big cell pred L). reflexivity.
Qed.
Lemma at_least_refl pred : at_least pred pred.
Proof. unfold at_least. induction pred as [|p pred IH]; constructor; auto; split; [lra|reflexivity]. Qed.
Lemma sum_pos l x : (forall y, In y l -> 0 <= y) -> In x l -> x <= sum l.
Proof.
  unfold sum. induction l as [|a l IH]; intros H Hx; [destruct Hx|]. cbn [fold_right].
  assert (N : 0 <= fold_right Rplus 0 l). { clear - H. induction l as [|b l IH]; cbn [fold_right]; [lra|]. assert (0 <= b) by (apply H; right; now left). assert (0 <= fold_right Rplus 0 l); [|lra]. apply IH. intros y [<-|Hy]; apply H; [now left|right; now right]. }
  destruct Hx as [<-|Hx]; [lra|]. assert (0 <= a) by (apply H; now left). assert (x <= fold_right Rplus 0 l); [|lra]. apply IH; auto. intros y Hy. apply H. now right.
Qed.
(** A cell with room below the cut. *)
Lemma open_cell big : forall lo hi (z : list Q) cell pred, real_cell lo hi = Some cell -> length pred = length cell -> Forall2 above lo z -> Forall2 upto z hi -> below_cut big z -> 0 < cell_value big pred cell.
Proof.
  unfold cell_value. induction lo as [|a lo IH]; intros [|b hi] z cell pred.
  - intros E _ _ _ _. injection E as <-. destruct pred; cbn; lra.
  - discriminate.
  - destruct a; discriminate.
  - cbn [real_cell]. destruct a as [|a|]; try discriminate. intros E Lp A U B. inversion A as [|? v ? z' A1 A2]; subst. inversion U as [|? ? ? ? U1 U2]; subst.
    assert (Hv := B v (or_introl eq_refl)). assert (B' : below_cut big z') by (intros q Hq; apply B; now right). cbn in A1.
    assert (Q : Q2R a < Q2R v) by now apply Qlt_Rlt.
    assert (GO : forall u c, real_cell lo hi = Some c -> cell = (Q2R a, u) :: c -> Q2R a < clamp big u -> 0 < prod (map (fun f => fst f + snd f) (cell_factors big cell pred))).
    { intros u c Ec -> K. cbn in Lp. destruct pred as [|[mu mse] pred]; [discriminate|]. cbn [cell_factors map prod fold_right]. rewrite factors_gain by apply sigma_pos.
      apply Rmult_lt_0_compat; [apply gain_pos; [apply sigma_pos|exact K]|]. apply (IH hi z' c pred Ec); auto. }
    destruct b as [|b|]; try discriminate; destruct (real_cell lo hi) as [c|] eqn:EC; try discriminate; injection E as <-.
    + apply (GO (Some (Q2R b)) c); auto. cbn [clamp]. cbn in U1. apply Qle_Rle in U1. apply Rmin_glb_lt; lra.
    + apply (GO None c); auto. cbn [clamp]. lra.
Qed.
Lemma real_cells_in cs : forall cells c, real_cells cs = Some cells -> In c cs -> exists cell, real_cell (fst c) (snd c) = Some cell /\ In cell cells.
Proof.
  induction cs as [|d cs IH]; intros cells c E Hc; [destruct Hc|]. cbn [real_cells] in E. destruct (real_cell (fst d) (snd d)) as [r|] eqn:E1; [|discriminate]. destruct (real_cells cs) as [rs|] eqn:E2; [|discriminate]. injection E as <-.
  destruct Hc as [<-|Hc]; [exists r; split; [exact E1|now left]|]. destruct (IH rs c eq_refl Hc) as (cell & K1 & K2). exists cell. split; [exact K1|now right].
Qed.
Lemma forward_pos big cs cells pred (z : list Q) c : real_cells cs = Some cells -> List.Forall (cell_ok big pred) cells -> In c cs -> inside z c -> below_cut big z -> 0 < forward big cells pred.
Proof.
  intros E OK Hc [A U] B. destruct (real_cells_in cs cells c E Hc) as (cell & E1 & I). rewrite (forward_values big cells pred OK). assert (OK' := OK). rewrite List.Forall_forall in OK'. destruct (OK' cell I) as [L _].
  apply Rlt_le_trans with (cell_value big pred cell); [apply (open_cell big (fst c) (snd c) z cell pred E1); auto|].
  apply sum_pos; [|apply in_map, I]. intros y Hy. apply in_map_iff in Hy as (d & <- & Hd). apply (cell_mono big d pred pred (at_least_refl pred) (OK' d Hd)).
Qed.
