(** Properties C37 (scales) and C84 (bounds of a real variable); over Coq's real numbers. *)
From Coq Require Import Reals Lra.
From Verif Require Import Model_Scale Proofs_Scale.
Open Scope R_scope.

(** Where a scale is meaningful: positive numbers for the logarithms, the open unit interval for
    logit, everything else for linear and bilog. *)
Definition meaningful (s : scale) (x : R) : Prop :=
  match s with
  | Linear | Bilog => True
  | Log | Log10 => 0 < x
  | Logit => 0 < x /\ x < 1
  end.

(** C37: both round trips and strict monotonicity. *)
Theorem C37_scale_round_trip :
  forall s,
    (forall x, meaningful s x -> inv_trans s (trans s x) = x) /\
    (forall y, meaningful s (inv_trans s y) /\ trans s (inv_trans s y) = y) /\
    (forall x y, meaningful s x -> meaningful s y -> (x < y <-> trans s x < trans s y)) /\
    (forall x y, x < y <-> inv_trans s x < inv_trans s y).
Proof.
  intro s. change (meaningful s) with (sdom s). split; [exact (inv_trans_trans s)|]. split.
  { intro y. split; [apply inv_dom|apply trans_inv_trans]. }
  assert (A : forall x y, sdom s x -> sdom s y -> (x < y <-> trans s x < trans s y)).
  { intros x y Dx Dy. split; [apply trans_increasing; assumption|]. intro H.
    rewrite <- (inv_trans_trans s x Dx), <- (inv_trans_trans s y Dy). apply inv_increasing. exact H. }
  split; [exact A|]. intros x y. split; [apply inv_increasing|]. intro H.
  apply A in H; try apply inv_dom. rewrite !trans_inv_trans in H. exact H.
Qed.
Print Assumptions C37_scale_round_trip.

(** C37, bounds to bounds: the sampled values fill exactly the interval between the bounds. *)
Theorem C37_samples_fill_bounds :
  forall s lb ub, meaningful s lb -> meaningful s ub -> lb < ub ->
    (forall u, 0 <= u <= 1 -> lb <= sample_real s (lb, ub) u <= ub) /\
    (forall x, lb <= x <= ub -> exists u, 0 <= u <= 1 /\ sample_real s (lb, ub) u = x).
Proof.
  intros s lb ub D1 D2 L. split.
  - intros u Hu. apply (sample_between s (lb, ub) u D1 D2); simpl; lra.
  - intros x Hx. apply (sample_onto s (lb, ub) x D1 D2); simpl; lra.
Qed.
Print Assumptions C37_samples_fill_bounds.

Example C37_example :
  trans Log10 100 = 2 /\ inv_trans Bilog (trans Bilog (-3)) = -3 /\
  sample_real Logit (1/4, 3/4) (1/2) = 1/2.
Proof.
  split; [|split].
  - unfold trans. replace 100 with (10 * 10) by ring. rewrite ln_mult by lra. field. pose proof ln10_pos. lra.
  - apply inv_trans_trans. exact I.
  - unfold sample_real. cbn [trans fst snd].
    replace (3 / 4 / (1 - 3 / 4)) with 3 by field. replace (1 / 4 / (1 - 1 / 4)) with (/ 3) by field.
    rewrite ln_Rinv by lra. replace ((ln 3 - - ln 3) * (1 / 2) + - ln 3) with 0 by field.
    unfold inv_trans. rewrite Ropp_0, exp_0. field.
Qed.

(** C84: refuted.  The two bounds can coincide after construction: Real((1, 2), scale="logit"). *)
Theorem C84_real_bounds_refuted :
  exists s lb ub b, make_real s lb ub = Some b /\ lb < ub /\ fst b = snd b.
Proof.
  exists Logit, 1, 2, (1, 1). pose proof tiny_small. unfold make_real, fix_lower, fix_upper. simpl.
  destruct (Rlt_dec 1 2); [|lra]. destruct (Rlt_dec 1 tiny); [lra|]. destruct (Rlt_dec 1 1); [lra|].
  destruct (Rlt_dec 2 tiny); [lra|]. destruct (Rlt_dec 1 2); [|lra]. repeat split; lra.
Qed.
Print Assumptions C84_real_bounds_refuted.

(** Also, bounds outside the range are not moved to the nearest admissible value: a lower bound
    above the range becomes its lower end, so the variable may accept values outside the given
    bounds (Real((2, 3), scale="logit") accepts 1e-300). *)
Theorem C84_real_bounds_widened_refuted :
  exists s lb ub b x, make_real s lb ub = Some b /\ fst b <= x <= snd b /\ ~ (lb <= x <= ub).
Proof.
  exists Logit, 2, 3, (tiny, 1), (tiny). pose proof tiny_small. unfold make_real, fix_lower, fix_upper. simpl.
  destruct (Rlt_dec 2 3); [|lra]. destruct (Rlt_dec 2 tiny); [lra|]. destruct (Rlt_dec 1 2); [|lra].
  destruct (Rlt_dec 3 tiny); [lra|]. destruct (Rlt_dec 1 3); [|lra]. repeat split; lra.
Qed.
Print Assumptions C84_real_bounds_widened_refuted.

(** What holds: construction fails unless lb < ub; the bounds end up ordered and inside the range
    of the scale; a bound inside the range is kept. *)
Theorem C84_real_bounds_partial :
  forall s lb ub,
    (make_real s lb ub = None <-> ~ lb < ub) /\
    forall b, make_real s lb ub = Some b ->
      let r := working_range s in
      fst r <= fst b /\ fst b <= snd b /\ snd b <= snd r /\
      (fst r <= lb <= snd r -> fst b = lb) /\ (fst r <= ub <= snd r -> snd b = ub) /\
      (fst r <= lb -> ub <= snd r -> b = (lb, ub) /\ fst b < snd b).
Proof.
  intros s lb ub. split.
  - unfold make_real. destruct (Rlt_dec lb ub); split; intro; try discriminate; try tauto.
  - intros b H r. destruct (make_real_range s lb ub b H) as (A&B&C&D&E&F). fold r in B, C, E, F.
    repeat split; try lra; auto. rewrite (surjective_pairing b), E, F by lra. reflexivity.
Qed.
Print Assumptions C84_real_bounds_partial.

Example C84_example : make_real Log 1 2 = Some (1, 2).
Proof.
  pose proof tiny_small. pose proof MAX_big. unfold make_real, fix_lower, fix_upper. simpl.
  destruct (Rlt_dec 1 2); [|lra]. destruct (Rlt_dec 1 tiny); [lra|]. destruct (Rlt_dec MAX 1); [lra|].
  destruct (Rlt_dec 2 tiny); [lra|]. destruct (Rlt_dec MAX 2); [lra|]. reflexivity.
Qed.
