(** Lemmas about Model_Scale.v. *)
From Coq Require Import Reals Lra.
From Verif Require Import Model_Scale.
Open Scope R_scope.

(** Where the transformation is defined. *)
Definition sdom (s : scale) (x : R) : Prop :=
  match s with Linear | Bilog => True | Log | Log10 => 0 < x | Logit => 0 < x < 1 end.

Lemma ln10_pos : 0 < ln 10.
Proof. rewrite <- ln_1. apply ln_increasing; lra. Qed.

Lemma ln_ge_0 x : 1 <= x -> 0 <= ln x.
Proof. intros [H| <-]; [|rewrite ln_1; lra]. rewrite <- ln_1. left. apply ln_increasing; lra. Qed.
Lemma ln_gt_0 x : 1 < x -> 0 < ln x.
Proof. intro H. rewrite <- ln_1. apply ln_increasing; lra. Qed.
Lemma exp_gt_1 x : 0 < x -> 1 < exp x.
Proof. intro H. rewrite <- exp_0. apply exp_increasing. exact H. Qed.

Lemma rsign_pos x : 0 < x -> rsign x = 1.
Proof. intro H. unfold rsign. destruct (Rlt_dec x 0); [lra|]. destruct (Rlt_dec 0 x); lra. Qed.
Lemma rsign_neg x : x < 0 -> rsign x = -1.
Proof. intro H. unfold rsign. destruct (Rlt_dec x 0); lra. Qed.
Lemma rsign_0 : rsign 0 = 0.
Proof. unfold rsign. destruct (Rlt_dec 0 0); [lra|]. destruct (Rlt_dec 0 0); lra. Qed.

Lemma logit_dom x : 0 < x < 1 -> 0 < x / (1 - x).
Proof. intros [H1 H2]. apply Rdiv_lt_0_compat; lra. Qed.

Lemma inv_dom s y : sdom s (inv_trans s y).
Proof.
  destruct s; simpl; auto.
  - apply exp_pos.
  - apply exp_pos.
  - pose proof (exp_pos (- y)). split.
    + apply Rdiv_lt_0_compat; lra.
    + apply (Rmult_lt_reg_r (1 + exp (- y))); [lra|]. unfold Rdiv. rewrite Rmult_assoc, Rinv_l by lra. lra.
Qed.

Lemma inv_trans_trans s x : sdom s x -> inv_trans s (trans s x) = x.
Proof.
  intro D. destruct s; simpl in *; auto.
  - apply exp_ln. exact D.
  - unfold Rpower. replace (ln x / ln 10 * ln 10) with (ln x); [apply exp_ln; exact D|].
    field. pose proof ln10_pos. lra.
  - rewrite exp_Ropp, exp_ln by (apply logit_dom; exact D). field. lra.
  - destruct (Rtotal_order x 0) as [H|[H|H]].
    + rewrite (rsign_neg x H). rewrite (Rabs_left x H).
      assert (L : 0 < ln (1 + - x)) by (apply ln_gt_0; lra).
      rewrite rsign_neg by lra. rewrite Rabs_left by lra.
      replace (- (-1 * ln (1 + - x))) with (ln (1 + - x)) by ring. rewrite exp_ln by lra. ring.
    + subst. rewrite rsign_0, Rmult_0_l, rsign_0. ring.
    + rewrite (rsign_pos x H). rewrite (Rabs_right x) by lra.
      assert (L : 0 < ln (1 + x)) by (apply ln_gt_0; lra).
      rewrite rsign_pos by lra. rewrite Rabs_right by lra. rewrite !Rmult_1_l, exp_ln by lra. ring.
Qed.

Lemma trans_inv_trans s y : trans s (inv_trans s y) = y.
Proof.
  destruct s; simpl; auto.
  - apply ln_exp.
  - unfold Rpower. rewrite ln_exp. field. pose proof ln10_pos. lra.
  - pose proof (exp_pos (- y)).
    replace (1 / (1 + exp (- y)) / (1 - 1 / (1 + exp (- y)))) with (/ exp (- y)) by (field; lra).
    rewrite <- exp_Ropp, ln_exp. ring.
  - destruct (Rtotal_order y 0) as [H|[H|H]].
    + rewrite (rsign_neg y H), (Rabs_left y H).
      assert (L : 1 < exp (- y)) by (apply exp_gt_1; lra).
      rewrite rsign_neg by lra. rewrite Rabs_left by lra.
      replace (1 + - (-1 * (exp (- y) - 1))) with (exp (- y)) by ring. rewrite ln_exp. ring.
    + subst. rewrite rsign_0, Rmult_0_l, rsign_0. ring.
    + rewrite (rsign_pos y H), (Rabs_right y) by lra.
      assert (L : 1 < exp y) by (apply exp_gt_1; lra).
      rewrite rsign_pos by lra. rewrite Rabs_right by lra.
      replace (1 + 1 * (exp y - 1)) with (exp y) by ring. rewrite ln_exp. ring.
Qed.

Lemma trans_increasing s x y : sdom s x -> sdom s y -> x < y -> trans s x < trans s y.
Proof.
  intros Dx Dy H. destruct s; simpl in *; auto.
  - apply ln_increasing; assumption.
  - apply Rmult_lt_compat_r; [apply Rinv_0_lt_compat, ln10_pos|]. apply ln_increasing; assumption.
  - apply ln_increasing; [apply logit_dom; exact Dx|].
    apply (Rmult_lt_reg_r ((1 - x) * (1 - y))); [apply Rmult_lt_0_compat; lra|].
    replace (x / (1 - x) * ((1 - x) * (1 - y))) with (x * (1 - y)) by (field; lra).
    replace (y / (1 - y) * ((1 - x) * (1 - y))) with (y * (1 - x)) by (field; lra). lra.
  - assert (N : forall z, z < 0 -> rsign z * ln (1 + Rabs z) < 0).
    { intros z Hz. rewrite rsign_neg, Rabs_left by exact Hz. assert (0 < ln (1 + - z)) by (apply ln_gt_0; lra). lra. }
    assert (P : forall z, 0 < z -> 0 < rsign z * ln (1 + Rabs z)).
    { intros z Hz. rewrite rsign_pos, Rabs_right by lra. assert (0 < ln (1 + z)) by (apply ln_gt_0; lra). lra. }
    assert (Z : rsign 0 * ln (1 + Rabs 0) = 0) by (rewrite rsign_0; ring).
    destruct (Rtotal_order x 0) as [Hx|[Hx|Hx]], (Rtotal_order y 0) as [Hy|[Hy|Hy]]; subst; try lra.
    + rewrite !rsign_neg, !Rabs_left by lra. assert (ln (1 + - y) < ln (1 + - x)) by (apply ln_increasing; lra). lra.
    + rewrite Z. apply N, Hx.
    + specialize (N x Hx). specialize (P y Hy). lra.
    + rewrite Z. apply P, Hy.
    + rewrite !rsign_pos, !Rabs_right by lra. assert (ln (1 + x) < ln (1 + y)) by (apply ln_increasing; lra). lra.
Qed.

Lemma inv_increasing s x y : x < y -> inv_trans s x < inv_trans s y.
Proof.
  intro H. destruct (Rtotal_order (inv_trans s x) (inv_trans s y)) as [L|[E|G]]; auto; exfalso.
  - assert (trans s (inv_trans s x) = trans s (inv_trans s y)) by (f_equal; exact E). rewrite !trans_inv_trans in H0. lra.
  - assert (trans s (inv_trans s y) < trans s (inv_trans s x)) by (apply trans_increasing; auto using inv_dom).
    rewrite !trans_inv_trans in H0. lra.
Qed.
Lemma inv_le s x y : x <= y -> inv_trans s x <= inv_trans s y.
Proof. intros [H| ->]; [left; apply inv_increasing; exact H|right; reflexivity]. Qed.

Lemma sample_between s b u : sdom s (fst b) -> sdom s (snd b) -> fst b <= snd b -> 0 <= u <= 1 ->
  fst b <= sample_real s b u <= snd b.
Proof.
  intros D1 D2 L [U1 U2]. unfold sample_real.
  rewrite <- (inv_trans_trans s (fst b) D1) at 1. rewrite <- (inv_trans_trans s (snd b) D2) at 3.
  assert (T : trans s (fst b) <= trans s (snd b)).
  { destruct L as [L|E]; [left; apply trans_increasing; assumption|rewrite E; lra]. }
  set (p := trans s (fst b)) in *. set (q := trans s (snd b)) in *.
  assert (0 <= (q - p) * u) by (apply Rmult_le_pos; lra).
  assert (0 <= (q - p) * (1 - u)) by (apply Rmult_le_pos; lra).
  split; apply inv_le; lra.
Qed.

Lemma sample_onto s b x : sdom s (fst b) -> sdom s (snd b) -> fst b < snd b -> fst b <= x <= snd b ->
  exists u, 0 <= u <= 1 /\ sample_real s b u = x.
Proof.
  intros D1 D2 L [H1 H2].
  assert (Dx : sdom s x) by (destruct s; simpl in *; auto; lra).
  assert (T : trans s (fst b) < trans s (snd b)) by (apply trans_increasing; assumption).
  assert (T1 : trans s (fst b) <= trans s x).
  { destruct H1 as [H1| <-]; [left; apply trans_increasing; assumption|lra]. }
  assert (T2 : trans s x <= trans s (snd b)).
  { destruct H2 as [H2| ->]; [left; apply trans_increasing; assumption|lra]. }
  set (p := trans s (fst b)) in *. set (q := trans s (snd b)) in *.
  exists ((trans s x - p) / (q - p)). split.
  - split.
    + apply Rmult_le_pos; [lra|]. left. apply Rinv_0_lt_compat. lra.
    + apply (Rmult_le_reg_r (q - p)); [lra|]. unfold Rdiv. rewrite Rmult_assoc, Rinv_l by lra. lra.
  - unfold sample_real. fold p q. replace ((q - p) * ((trans s x - p) / (q - p)) + p) with (trans s x) by (field; lra).
    apply inv_trans_trans. exact Dx.
Qed.

Lemma MAX_big : 2 < MAX.
Proof.
  unfold MAX. assert (H1 : 4 <= 2 ^ 1023) by (replace 4 with (2 ^ 2) by ring; apply Rle_pow; [lra|repeat constructor]).
  assert (H2 : / 2 ^ 52 <= / 2).
  { apply Rinv_le_contravar; [lra|]. rewrite <- (pow_1 2) at 1. apply Rle_pow; [lra|repeat constructor]. }
  assert (1 * 4 <= (2 - / 2 ^ 52) * 2 ^ 1023); [|lra]. apply Rmult_le_compat; lra.
Qed.
Lemma tiny_small : 0 < tiny < 1.
Proof.
  unfold tiny. assert (1 < 10 ^ 300).
  { rewrite <- (pow_O 10). apply Rlt_pow; [lra|repeat constructor]. }
  split; [apply Rinv_0_lt_compat; lra|]. rewrite <- Rinv_1. apply Rinv_lt_contravar; lra.
Qed.
Lemma range_proper s : fst (working_range s) < snd (working_range s).
Proof. pose proof MAX_big. pose proof tiny_small. destruct s; simpl; lra. Qed.

Lemma make_real_range s lb ub b : make_real s lb ub = Some b ->
  let r := working_range s in
  lb < ub /\ fst r <= fst b <= snd r /\ fst r <= snd b <= snd r /\ fst b <= snd b /\
  (fst r <= lb <= snd r -> fst b = lb) /\ (fst r <= ub <= snd r -> snd b = ub).
Proof.
  intros H r. unfold make_real in H. destruct (Rlt_dec lb ub) as [L|]; [|discriminate]. injection H as <-.
  pose proof (range_proper s). fold r. fold r in H. unfold fix_lower, fix_upper. simpl.
  destruct (Rlt_dec lb (fst r)), (Rlt_dec (snd r) lb), (Rlt_dec ub (fst r)), (Rlt_dec (snd r) ub); repeat split; intros; try lra.
Qed.
