(** Properties of the acquisition functions (C57, C58, C59 and C114 to C121). *)
From Coq Require Import Reals List Bool Lra Lia Psatz.
From Coquelicot Require Import Coquelicot.
From Verif Require Import Lib_Normal Model_Acquisition.
Import ListNotations.
Open Scope R_scope.

(** ** Specification *)

(** The point with the coordinate [j] replaced. *)
Definition set_coord (x : list R) (j : nat) (t : R) : list R := firstn j x ++ t :: skipn (Datatypes.S j) x.
(** [g] is the gradient of the partial function [f] at [x]: along every coordinate [f] is, near [x],
    a differentiable function with the entry of [g] for derivative. *)
Definition has_gradient (f : list R -> option R) (x g : list R) : Prop :=
  length g = length x /\
  forall j, (j < length x)%nat ->
    exists h : R -> R, is_derive h (nth j x 0) (nth j g 0) /\
      locally (nth j x 0) (fun t => f (set_coord x j t) = Some (h t)).
(** The surrogate's gradient function is right at [x]. *)
Definition differentiable (s : surrogate) (x : list R) : Prop :=
  has_gradient (fun z => Some (fst (s_predict s z))) x (fst (s_gradient s x)) /\
  has_gradient (fun z => Some (snd (s_predict s z))) x (snd (s_gradient s x)).
(** The predicted standard deviation, and the prediction as the optimizer sees it. *)
Definition deviation (s : surrogate) (x : list R) : R := sqrt (snd (s_predict s x)).
Definition mean (minimize : bool) (s : surrogate) (x : list R) : R := if minimize then fst (s_predict s x) else - fst (s_predict s x).
(** The deviation under which EI returns zero. *)
Definition EI_cutoff (s : surrogate) : R :=
  match s_sigma2 s with Some v => sqrt v / 1000000 | None => / 10000000000 end.
(** The exponent of MGFI. *)
Definition MGFI_exponent (t p m sd : R) : R := t * (p - m - 1) + t * t * (sd * sd) / 2.
(** The points where the acquisition function is not at a kink, a cut-off or an overflow. *)
Definition regular (exp_max : R) (a : acquisition) (minimize : bool) (s : surrogate) (x : list R) : Prop :=
  0 < deviation s x /\
  match a with
  | AUCB _ => True
  | AEI _ => deviation s x <> EI_cutoff s
  | AEpsilonPI _ p => p = None \/ mean minimize s x <> 0
  | AMGFI t p => deviation s x <> / 100000000 /\
                 match p with None => True | Some p => MGFI_exponent t p (mean minimize s x) (deviation s x) <> exp_max end
  end.

(** ** Lemmas *)
Lemma rltb_spec a b : reflect (a < b) (rltb a b).
Proof. unfold rltb. destruct (Rlt_dec a b); constructor; lra. Qed.
Lemma rleb_spec a b : reflect (a <= b) (rleb a b).
Proof. unfold rleb. destruct (Rle_dec a b); constructor; lra. Qed.
Lemma reqb_spec a b : reflect (a = b) (reqb a b).
Proof. unfold reqb. destruct (Req_EM_T a b); constructor; lra. Qed.
Lemma map2_length f a b : length a = length b -> length (map2 f a b) = length a.
Proof. revert b; induction a; destruct b; cbn; intros; auto; try discriminate. Qed.
Lemma map2_nth f a b j : (j < length a)%nat -> length a = length b -> nth j (map2 f a b) 0 = f (nth j a 0) (nth j b 0).
Proof. revert b j; induction a; destruct b; cbn; intros; try lia. destruct j; auto. apply IHa; lia. Qed.
Lemma nth_zeros (x : list R) j : nth j (map (fun _ => 0) x) 0 = 0.
Proof. revert j; induction x; destruct j; cbn; auto. Qed.
Lemma set_coord_same x j : (j < length x)%nat -> set_coord x j (nth j x 0) = x.
Proof. intros H. unfold set_coord. revert j H. induction x; cbn; intros; [lia|]. destruct j; cbn; auto. f_equal. apply IHx. lia. Qed.
Lemma predict_eq mi s x : predict mi s x = (mean mi s x, deviation s x).
Proof. unfold predict, mean, deviation. destruct (s_predict s x). destruct mi; cbn; f_equal; lra. Qed.
Lemma loc_eq (h h' : R -> R) t0 d : is_derive h t0 d -> locally t0 (fun t => h' t = h t) -> is_derive h' t0 d.
Proof. intros D L. apply is_derive_ext_loc with h; auto. apply filter_imp with (2 := L). auto. Qed.
Lemma cont_of (h : R -> R) t0 d : is_derive h t0 d -> continuous h t0.
Proof. intros D. apply ex_derive_continuous with (f := h). eexists; eauto. Qed.
Lemma loc_neq_r (h : R -> R) t0 c : continuous h t0 -> h t0 <> c -> (h t0 < c -> locally t0 (fun t => h t < c)) /\ (c < h t0 -> locally t0 (fun t => c < h t)).
Proof.
  intros C N. split; intros L.
  - apply (C (fun y => y < c)). apply (open_lt c). auto.
  - apply (C (fun y => c < y)). apply (open_gt c). auto.
Qed.

(** The two functions of a coordinate that the surrogate gives, with their derivatives. *)
Lemma along s x j mi : differentiable s x -> (j < length x)%nat -> 0 < deviation s x ->
  let m := fun t => mean mi s (set_coord x j t) in let sd := fun t => deviation s (set_coord x j t) in let t0 := nth j x 0 in
  m t0 = mean mi s x /\ sd t0 = deviation s x /\
  is_derive m t0 (nth j (fst (gradient mi s x)) 0) /\ is_derive sd t0 (nth j (snd (gradient mi s x)) 0 / (2 * deviation s x)).
Proof.
  intros [[L1 D1] [L2 D2]] Hj P m sd t0. destruct (D1 j Hj) as (h1 & A1 & B1). destruct (D2 j Hj) as (h2 & A2 & B2). fold t0 in A1, B1, A2, B2.
  assert (E1 : is_derive (fun t => fst (s_predict s (set_coord x j t))) t0 (nth j (fst (s_gradient s x)) 0)).
  { apply loc_eq with h1; auto. apply filter_imp with (2 := B1). intros t Ht. now injection Ht. }
  assert (E2 : is_derive (fun t => snd (s_predict s (set_coord x j t))) t0 (nth j (snd (s_gradient s x)) 0)).
  { apply loc_eq with h2; auto. apply filter_imp with (2 := B2). intros t Ht. now injection Ht. }
  split; [unfold m, t0; now rewrite set_coord_same|]. split; [unfold sd, t0; now rewrite set_coord_same|]. split.
  - unfold m, mean, gradient. destruct (s_gradient s x) as [gy gs] eqn:G. cbn in *. destruct mi; auto.
    evar_last; [apply (is_derive_opp (fun t => fst (s_predict s (set_coord x j t)))); apply E1|].
    unfold opp; cbn. replace 0 with (-1 * 0) at 2 by lra. rewrite map_nth. lra.
  - assert (Sn : snd (gradient mi s x) = snd (s_gradient s x)) by (unfold gradient; destruct (s_gradient s x); auto). rewrite Sn.
    assert (V : 0 < snd (s_predict s x)).
    { unfold deviation in P. apply Rnot_le_lt. intros C. rewrite sqrt_neg_0 in P; auto. lra. }
    assert (V' : snd (s_predict s (set_coord x j t0)) = snd (s_predict s x)) by (unfold t0; now rewrite set_coord_same).
    unfold sd, deviation. evar_last. { apply (is_derive_comp sqrt (fun t => snd (s_predict s (set_coord x j t)))); [|apply E2].
      rewrite V'. apply is_derive_Reals. apply derivable_pt_lim_sqrt. exact V. }
    unfold scal; cbn; unfold mult; cbn. unfold deviation in P. rewrite ?V'. set (g := nth j (snd (s_gradient s x)) 0). set (q := sqrt (snd (s_predict s x))) in *. field. lra.
Qed.
Lemma grads_len s x mi : differentiable s x -> length (fst (gradient mi s x)) = length x /\ length (snd (gradient mi s x)) = length x.
Proof.
  intros [[L1 _] [L2 _]]. unfold gradient. destruct (s_gradient s x); cbn in *. destruct mi; rewrite ?map_length; auto.
Qed.

Lemma EI_small_below s sd : 0 < sd -> sd < EI_cutoff s -> EI_small s sd = true.
Proof.
  intros P. unfold EI_small, EI_cutoff. destruct (s_sigma2 s) as [v|].
  - intros H. destruct (reqb_spec (sqrt v) 0) as [E|E]; [rewrite E in H; unfold Rdiv in H; lra|].
    assert (0 < sqrt v) by (pose proof (sqrt_pos v); lra). destruct (rltb_spec (sd / sqrt v) (/ 1000000)) as [|N]; auto. exfalso. apply N.
    apply Rmult_lt_reg_r with (sqrt v); auto. unfold Rdiv. rewrite Rmult_assoc, Rinv_l by lra. unfold Rdiv in H. lra.
  - intros H. destruct (rltb_spec sd (/ 10000000000)); auto; lra.
Qed.
Lemma EI_small_above s sd : EI_cutoff s <= sd -> EI_small s sd = false.
Proof.
  unfold EI_small, EI_cutoff. destruct (s_sigma2 s) as [v|].
  - intros H. destruct (reqb_spec (sqrt v) 0) as [E|E]; auto.
    assert (0 < sqrt v) by (pose proof (sqrt_pos v); lra). destruct (rltb_spec (sd / sqrt v) (/ 1000000)) as [N|]; auto. exfalso.
    apply Rmult_lt_compat_r with (r := sqrt v) in N; auto. unfold Rdiv in N. rewrite Rmult_assoc, Rinv_l in N by lra. unfold Rdiv in H. lra.
  - intros H. destruct (rltb_spec sd (/ 10000000000)); auto; lra.
Qed.
Lemma EI_cutoff_nonneg s : 0 <= EI_cutoff s.
Proof. unfold EI_cutoff. destruct (s_sigma2 s); [|lra]. pose proof (sqrt_pos r). lra. Qed.

(** ** The derivatives of the formulas *)
Lemma ucb_d al (m sd : R -> R) t0 dm ds : is_derive m t0 dm -> is_derive sd t0 ds -> is_derive (fun t => m t + al * sd t) t0 (dm + al * ds).
Proof.
  intros A B. auto_derive; [repeat split; eexists; eauto|]. replace (Derive (fun u => m u) t0) with dm by (symmetry; now apply (is_derive_unique m)). replace (Derive (fun u => sd u) t0) with ds by (symmetry; now apply (is_derive_unique sd)). ring.
Qed.
Lemma xcr_d p c (m sd : R -> R) t0 dm ds : is_derive m t0 dm -> is_derive sd t0 ds -> 0 < sd t0 ->
  is_derive (fun t => (p - c * m t) / sd t) t0 (- (c * dm + (p - c * m t0) / sd t0 * ds) / sd t0).
Proof.
  intros A B P. auto_derive; [repeat split; try (eexists; eauto); lra|]. replace (Derive (fun u => m u) t0) with dm by (symmetry; now apply (is_derive_unique m)). replace (Derive (fun u => sd u) t0) with ds by (symmetry; now apply (is_derive_unique sd)). field. lra.
Qed.
Lemma ei_d p (m sd : R -> R) t0 dm ds : is_derive m t0 dm -> is_derive sd t0 ds -> 0 < sd t0 ->
  let z := (p - m t0) / sd t0 in
  is_derive (fun t => (p - m t) * cdf ((p - m t) / sd t) + sd t * pdf ((p - m t) / sd t)) t0 (- dm * cdf z + ds * pdf z).
Proof.
  intros A B P z. pose proof (xcr_d p 1 m sd t0 dm ds A B P) as X. assert (X' : is_derive (fun t => (p - m t) / sd t) t0 (- (dm + z * ds) / sd t0)).
  { apply is_derive_ext with (fun t => (p - 1 * m t) / sd t); [intros; now rewrite Rmult_1_l|]. rewrite !Rmult_1_l in X. exact X. }
  pose proof (is_derive_comp cdf _ t0 _ _ (cdf_derive _) X') as C. pose proof (is_derive_comp pdf _ t0 _ _ (pdf_derive _) X') as D.
  fold z in C, D. evar_last.
  { apply (is_derive_plus (fun t => (p - m t) * cdf ((p - m t) / sd t)) (fun t => sd t * pdf ((p - m t) / sd t))).
    - apply (is_derive_mult (fun t => p - m t) (fun t => cdf ((p - m t) / sd t))); [|apply C|intros; apply Rmult_comm].
      apply (is_derive_minus (fun _ => p) m); [apply is_derive_const|apply A].
    - apply (is_derive_mult sd (fun t => pdf ((p - m t) / sd t))); [apply B|apply D|intros; apply Rmult_comm]. }
  fold z. unfold plus, minus, plus, opp, mult, zero, scal; cbn; unfold mult; cbn. assert (E : p - m t0 = z * sd t0) by (unfold z; field; lra). rewrite E. field. lra.
Qed.
Lemma pi_d p c (m sd : R -> R) t0 dm ds : is_derive m t0 dm -> is_derive sd t0 ds -> 0 < sd t0 ->
  let z := (p - c * m t0) / sd t0 in
  is_derive (fun t => cdf ((p - c * m t) / sd t)) t0 (- (c * dm + z * ds) * pdf z / sd t0).
Proof.
  intros A B P z. pose proof (xcr_d p c m sd t0 dm ds A B P) as X. pose proof (is_derive_comp cdf _ t0 _ _ (cdf_derive _) X) as C. fold z in C.
  evar_last; [apply C|]. fold z. unfold scal; cbn; unfold mult; cbn. fold z. set (q := pdf z). clearbody q z. field. lra.
Qed.
Lemma mgfi_d tt p (m sd : R -> R) t0 dm ds : is_derive m t0 dm -> is_derive sd t0 ds -> 0 < sd t0 ->
  let b := (p - (m t0 - tt * (sd t0 * sd t0))) / sd t0 in
  is_derive (fun t => cdf ((p - (m t - tt * (sd t * sd t))) / sd t) * exp (MGFI_exponent tt p (m t) (sd t))) t0
    (exp (MGFI_exponent tt p (m t0) (sd t0)) * (pdf b * (- ((dm - 2 * tt * sd t0 * ds) + b * ds) / sd t0) + cdf b * (tt * tt * sd t0 * ds - tt * dm))).
Proof.
  intros A B P b.
  assert (X : is_derive (fun t => (p - (m t - tt * (sd t * sd t))) / sd t) t0 (- ((dm - 2 * tt * sd t0 * ds) + b * ds) / sd t0)).
  { auto_derive; [repeat split; try (eexists; eauto); lra|]. replace (Derive (fun u => m u) t0) with dm by (symmetry; now apply (is_derive_unique m)). replace (Derive (fun u => sd u) t0) with ds by (symmetry; now apply (is_derive_unique sd)). unfold b. field. lra. }
  pose proof (is_derive_comp cdf _ t0 _ _ (cdf_derive _) X) as C. fold b in C.
  assert (Y : is_derive (fun t => exp (MGFI_exponent tt p (m t) (sd t))) t0 (exp (MGFI_exponent tt p (m t0) (sd t0)) * (tt * tt * sd t0 * ds - tt * dm))).
  { evar_last.
    - apply (is_derive_comp exp (fun t => MGFI_exponent tt p (m t) (sd t))); [apply is_derive_Reals, derivable_pt_lim_exp|].
      instantiate (1 := tt * tt * sd t0 * ds - tt * dm). unfold MGFI_exponent. auto_derive; [repeat split; eexists; eauto|].
      replace (Derive (fun u => m u) t0) with dm by (symmetry; now apply (is_derive_unique m)). replace (Derive (fun u => sd u) t0) with ds by (symmetry; now apply (is_derive_unique sd)). field.
    - unfold scal; cbn; unfold mult; cbn. ring. }
  evar_last; [apply (is_derive_mult _ _ t0 _ _ C Y); intros; apply Rmult_comm|]. fold b. unfold plus, mult, scal; cbn; unfold mult; cbn. ring.
Qed.

Lemma exponent_cont tt p (m sd : R -> R) t0 dm ds : is_derive m t0 dm -> is_derive sd t0 ds -> continuous (fun t => MGFI_exponent tt p (m t) (sd t)) t0.
Proof.
  intros A B. apply ex_derive_continuous with (f := fun t => MGFI_exponent tt p (m t) (sd t)). unfold MGFI_exponent. auto_derive. repeat split; eexists; eauto.
Qed.
Lemma zero_grad (f : list R -> option R) x : (forall j, (j < length x)%nat -> locally (nth j x 0) (fun t => f (set_coord x j t) = Some 0)) -> has_gradient f x (map (fun _ => 0) x).
Proof.
  intros H. split; [apply map_length|]. intros j Hj. exists (fun _ => 0). split; auto. rewrite nth_zeros. apply (is_derive_const (V := R_NormedModule)).
Qed.

(** C57: whatever the surrogate, wherever its own gradient is right and the point is not exactly on
    a cut-off, a kink or the overflow bound, the gradient that an acquisition function returns is
    the gradient of the value that it returns. *)
Theorem C57_gradients_are_derivatives :
  forall exp_max a minimize s x, differentiable s x -> regular exp_max a minimize s x ->
    exists g, value_dx exp_max a minimize s x = Some g /\ has_gradient (value exp_max a minimize s) x g.
Proof.
  intros em a mi s x D [P Rg]. pose proof (grads_len s x mi D) as [L1 L2].
  assert (AL := fun j Hj => along s x j mi D Hj P). cbv zeta in AL.
  destruct a as [al|p|ep p|tt p]; cbn [value value_dx].
  - unfold UCB_dx. rewrite predict_eq. destruct (gradient mi s x) as [gy gs] eqn:G. cbn [fst snd] in *. destruct (reqb_spec (deviation s x) 0); [lra|].
    eexists; split; [reflexivity|]. split; [rewrite map2_length; lia|]. intros j Hj. destruct (AL j Hj) as (E1 & E2 & D1 & D2).
    eexists; split.
    + rewrite map2_nth by lia. exact (ucb_d al _ _ _ _ _ D1 D2).
    + exists (mkposreal 1 Rlt_0_1). intros t _. unfold value, UCB_value. now rewrite predict_eq.
  - unfold EI_dx. rewrite predict_eq. destruct (gradient mi s x) as [gy gs] eqn:G. cbn [fst snd] in *.
    destruct (Rlt_dec (deviation s x) (EI_cutoff s)) as [Lt|Ge].
    + rewrite EI_small_below by auto. eexists; split; [reflexivity|]. apply zero_grad. intros j Hj. destruct (AL j Hj) as (E1 & E2 & D1 & D2).
      assert (Lo : locally (nth j x 0) (fun t => 0 < deviation s (set_coord x j t) < EI_cutoff s)).
      { apply (cont_of _ _ _ D2) with (P := fun y => 0 < y < EI_cutoff s). rewrite E2. apply (locally_interval (fun y => 0 < y < EI_cutoff s) (deviation s x) 0 (EI_cutoff s)); cbn; auto. }
      apply filter_imp with (2 := Lo). intros t [A B]. unfold value, EI_value. rewrite predict_eq, EI_small_below; auto.
    + assert (Gt : EI_cutoff s < deviation s x) by lra. rewrite EI_small_above by lra. destruct (reqb_spec (deviation s x) 0); [lra|].
      assert (Lo : forall j, (j < length x)%nat -> locally (nth j x 0) (fun t => EI_cutoff s < deviation s (set_coord x j t))).
      { intros j Hj. destruct (AL j Hj) as (E1 & E2 & D1 & D2). pose proof (cont_of _ _ _ D2) as C. apply loc_neq_r with (c := EI_cutoff s) in C; [|rewrite E2; lra]. apply C. rewrite E2; lra. }
      destruct p as [p|].
      * eexists; split; [reflexivity|]. split; [rewrite map2_length; lia|]. intros j Hj. destruct (AL j Hj) as (E1 & E2 & D1 & D2). eexists; split.
        -- rewrite map2_nth by lia. assert (P' : 0 < deviation s (set_coord x j (nth j x 0))) by (rewrite E2; auto). pose proof (ei_d p _ _ _ _ _ D1 D2 P') as X. cbv beta in X. rewrite E1, E2 in X. exact X.
        -- apply filter_imp with (2 := Lo j Hj). intros t Ht. unfold value, EI_value. rewrite predict_eq, EI_small_above by lra. unfold EI_formula. pose proof (EI_cutoff_nonneg s).
           destruct (reqb_spec (deviation s (set_coord x j t)) 0); [lra|]. reflexivity.
      * eexists; split; [reflexivity|]. apply zero_grad. intros j Hj. apply filter_imp with (2 := Lo j Hj). intros t Ht. unfold value, EI_value. rewrite predict_eq, EI_small_above by lra. reflexivity.
  - unfold PI_dx. rewrite predict_eq. destruct (gradient mi s x) as [gy gs] eqn:G. cbn [fst snd] in *. destruct p as [p|].
    + destruct Rg as [|Rg]; [discriminate|]. destruct (reqb_spec (deviation s x) 0); [lra|].
      eexists; split; [reflexivity|]. split; [rewrite map2_length; lia|]. intros j Hj. destruct (AL j Hj) as (E1 & E2 & D1 & D2). eexists; split.
      * rewrite map2_nth by lia. assert (P' : 0 < deviation s (set_coord x j (nth j x 0))) by (rewrite E2; auto). pose proof (pi_d p (PI_coef ep (mean mi s x)) _ _ _ _ _ D1 D2 P') as X. cbv beta in X. rewrite E1, E2 in X. exact X.
      * assert (Lo : locally (nth j x 0) (fun t => 0 < deviation s (set_coord x j t))).
        { pose proof (cont_of _ _ _ D2) as C. apply loc_neq_r with (c := 0) in C; [|rewrite E2; lra]. apply C. rewrite E2; lra. }
        assert (Lc : locally (nth j x 0) (fun t => PI_coef ep (mean mi s (set_coord x j t)) = PI_coef ep (mean mi s x))).
        { pose proof (cont_of _ _ _ D1) as C. apply loc_neq_r with (c := 0) in C; [|rewrite E1; lra]. destruct C as [C1 C2]. rewrite E1 in C1, C2.
          destruct (Rlt_dec (mean mi s x) 0) as [Ng|Ng].
          - apply filter_imp with (2 := C1 Ng). intros t Ht. unfold PI_coef. destruct (rltb_spec 0 (mean mi s (set_coord x j t))), (rltb_spec 0 (mean mi s x)); lra.
          - apply filter_imp with (2 := C2 ltac:(lra)). intros t Ht. unfold PI_coef. destruct (rltb_spec 0 (mean mi s (set_coord x j t))), (rltb_spec 0 (mean mi s x)); lra. }
        apply filter_imp with (2 := filter_and _ _ Lo Lc). intros t [Ht Ht2]. unfold value, PI_value. rewrite predict_eq. unfold PI_formula.
        destruct (reqb_spec (deviation s (set_coord x j t)) 0); [lra|]. now rewrite Ht2.
    + eexists; split; [reflexivity|]. apply zero_grad. intros j Hj. exists (mkposreal 1 Rlt_0_1). intros t _. unfold value, PI_value. now rewrite predict_eq.
  - destruct Rg as [Rc Ro]. unfold MGFI_dx. rewrite predict_eq. destruct (gradient mi s x) as [gy gs] eqn:G. cbn [fst snd] in *. eexists; split; [reflexivity|].
    assert (Sm : forall d, 0 < d -> MGFI_small d = rleb d (/ 100000000)) by (intros; unfold MGFI_small; now rewrite Rabs_right by lra).
    rewrite Sm by auto. destruct (rleb_spec (deviation s x) (/ 100000000)) as [Le|Gt].
    + apply zero_grad. intros j Hj. destruct (AL j Hj) as (E1 & E2 & D1 & D2).
      assert (Lo : locally (nth j x 0) (fun t => 0 < deviation s (set_coord x j t) < / 100000000)).
      { apply (cont_of _ _ _ D2) with (P := fun y => 0 < y < / 100000000). rewrite E2. apply (locally_interval (fun y => 0 < y < / 100000000) (deviation s x) 0 (/ 100000000)); cbn; auto; lra. }
      apply filter_imp with (2 := Lo). intros t [A B]. unfold value, MGFI_value. rewrite predict_eq, Sm by auto. destruct (rleb_spec (deviation s (set_coord x j t)) (/ 100000000)); auto; lra.
    + assert (Lo : forall j, (j < length x)%nat -> locally (nth j x 0) (fun t => / 100000000 < deviation s (set_coord x j t))).
      { intros j Hj. destruct (AL j Hj) as (E1 & E2 & D1 & D2). pose proof (cont_of _ _ _ D2) as C. apply loc_neq_r with (c := / 100000000) in C; [|rewrite E2; lra]. apply C. rewrite E2; lra. }
      assert (Big : forall t j, / 100000000 < deviation s (set_coord x j t) -> MGFI_small (deviation s (set_coord x j t)) = false).
      { intros t j Ht. rewrite Sm by lra. destruct (rleb_spec (deviation s (set_coord x j t)) (/ 100000000)); auto; lra. }
      destruct p as [p|].
      * cbv beta iota in Ro. assert (Ex : tt * (p + tt * (deviation s x * deviation s x) / 2 - mean mi s x - 1) = MGFI_exponent tt p (mean mi s x) (deviation s x)) by (unfold MGFI_exponent; field). rewrite Ex.
        assert (Ce : forall j, (j < length x)%nat -> continuous (fun t => MGFI_exponent tt p (mean mi s (set_coord x j t)) (deviation s (set_coord x j t))) (nth j x 0)).
        { intros j Hj. destruct (AL j Hj) as (E1 & E2 & D1 & D2). exact (exponent_cont tt p _ _ _ _ _ D1 D2). }
        destruct (rltb_spec em (MGFI_exponent tt p (mean mi s x) (deviation s x))) as [Ov|Nov].
        -- apply zero_grad. intros j Hj. destruct (AL j Hj) as (E1 & E2 & D1 & D2). pose proof (Ce j Hj) as C. apply loc_neq_r with (c := em) in C; [|rewrite E1, E2; lra]. destruct C as [_ C]. rewrite E1, E2 in C.
           apply filter_imp with (2 := filter_and _ _ (C Ov) (Lo j Hj)). intros t [A B]. unfold value, MGFI_value. rewrite predict_eq, Big by auto. unfold MGFI_formula. fold (MGFI_exponent tt p (mean mi s (set_coord x j t)) (deviation s (set_coord x j t))).
           destruct (rltb_spec em (MGFI_exponent tt p (mean mi s (set_coord x j t)) (deviation s (set_coord x j t)))); auto; lra.
        -- assert (LT : MGFI_exponent tt p (mean mi s x) (deviation s x) < em) by (destruct (Rtotal_order (MGFI_exponent tt p (mean mi s x) (deviation s x)) em) as [?|[?|?]]; [assumption|contradiction|contradiction]).
           split; [rewrite map2_length; lia|]. intros j Hj. destruct (AL j Hj) as (E1 & E2 & D1 & D2). eexists; split.
           ++ rewrite map2_nth by lia. assert (P' : 0 < deviation s (set_coord x j (nth j x 0))) by (rewrite E2; auto). pose proof (mgfi_d tt p _ _ _ _ _ D1 D2 P') as X. cbv beta in X. rewrite E1, E2 in X.
              evar_last; [exact X|]. cbv zeta. reflexivity.
           ++ pose proof (Ce j Hj) as C. apply loc_neq_r with (c := em) in C; [|rewrite E1, E2; auto]. destruct C as [C _]. rewrite E1, E2 in C.
              apply filter_imp with (2 := filter_and _ _ (C LT) (Lo j Hj)). intros t [A B]. unfold value, MGFI_value. rewrite predict_eq, Big by auto. unfold MGFI_formula. fold (MGFI_exponent tt p (mean mi s (set_coord x j t)) (deviation s (set_coord x j t))).
              destruct (rltb_spec em (MGFI_exponent tt p (mean mi s (set_coord x j t)) (deviation s (set_coord x j t)))); [lra|]. reflexivity.
      * apply zero_grad. intros j Hj. apply filter_imp with (2 := Lo j Hj). intros t Ht. unfold value, MGFI_value. rewrite predict_eq, Big by auto. reflexivity.
Qed.
Print Assumptions C57_gradients_are_derivatives.
(** A surrogate with mean [u] and deviation 1 meets the hypotheses at the point [[1]] for all four
    classes. *)
Definition line : surrogate :=
  Surrogate (fun z => (nth 0 z 0, 1)) (fun _ => ([1], [0])) (Some 1) (Some [3]).
Lemma line_diff : differentiable line [1].
Proof.
  split; split; auto; intros j Hj; cbn in Hj; assert (j = 0%nat) as -> by lia; cbn.
  - exists (fun t => t). split; [apply (is_derive_id (K := R_AbsRing))|]. exists (mkposreal 1 Rlt_0_1). reflexivity.
  - exists (fun _ => 1). split; [apply (is_derive_const (V := R_NormedModule))|]. exists (mkposreal 1 Rlt_0_1). reflexivity.
Qed.
Example C57_nonvacuous : differentiable line [1] /\ forall a, In a [AUCB 1; AEI (Some 3); AEpsilonPI 1 (Some 3); AMGFI 1 (Some 3)] -> regular 700 a true line [1].
Proof.
  split; [apply line_diff|]. intros a Ha. unfold regular, deviation, EI_cutoff, mean, MGFI_exponent, line in *. cbn in *. rewrite sqrt_1.
  split; [lra|]. decompose [or] Ha; subst; try contradiction; try lra; try (right; lra).
Qed.

(** C114: on a kink the gradient is not a derivative.  Where the prediction is zero the epsilon-PI
    value has two different one-sided derivatives. *)
Definition through_zero : surrogate := Surrogate (fun z => (nth 0 z 0, 1)) (fun _ => ([1], [0])) (Some 1) (Some [3]).
Theorem C114_epsilon_pi_kink_refuted :
  exists eps p s x, 0 < eps /\ differentiable s x /\ 0 < deviation s x /\
    forall g, ~ has_gradient (value 700 (AEpsilonPI eps (Some p)) true s) x g.
Proof.
  exists (/ 2), 1, through_zero, [0]. split; [lra|]. split.
  { split; split; auto; intros j Hj; cbn in Hj; assert (j = 0%nat) as -> by lia; cbn.
    - exists (fun t => t). split; [apply (is_derive_id (K := R_AbsRing))|]. exists (mkposreal 1 Rlt_0_1). reflexivity.
    - exists (fun _ => 1). split; [apply (is_derive_const (V := R_NormedModule))|]. exists (mkposreal 1 Rlt_0_1). reflexivity. }
  split; [unfold deviation; cbn; rewrite sqrt_1; lra|]. intros g [_ H]. destruct (H 0%nat ltac:(cbn; lia)) as (h & D & L). cbn [nth] in *.
  assert (V : forall t, value 700 (AEpsilonPI (/ 2) (Some 1)) true through_zero (set_coord [0] 0 t) = Some (cdf (1 - PI_coef (/ 2) t * t))).
  { intros t. cbn [value]. unfold PI_value, set_coord. cbn. rewrite sqrt_1. unfold PI_formula. destruct (reqb_spec 1 0); [lra|]. unfold Rdiv. now rewrite Rinv_1, Rmult_1_r. }
  set (d := nth 0 g 0) in *.
  assert (Up : is_derive (fun t => cdf (1 - / 2 * t)) 0 (- / 2 * pdf 1)).
  { evar_last; [apply (is_derive_comp cdf (fun t => 1 - / 2 * t)); [apply cdf_derive|]; instantiate (1 := - / 2); auto_derive; auto; lra|]. unfold scal; cbn; unfold mult; cbn. replace (1 - / 2 * 0) with 1 by lra. ring. }
  assert (Dn : is_derive (fun t => cdf (1 - 3 / 2 * t)) 0 (- (3 / 2) * pdf 1)).
  { evar_last; [apply (is_derive_comp cdf (fun t => 1 - 3 / 2 * t)); [apply cdf_derive|]; instantiate (1 := - (3 / 2)); auto_derive; auto; lra|]. unfold scal; cbn; unfold mult; cbn. replace (1 - 3 / 2 * 0) with 1 by lra. ring. }
  apply is_derive_Reals in D, Up, Dn. pose proof (pdf_pos 1) as P1.
  assert (H0 : h 0 = cdf 1). { apply locally_singleton in L. rewrite V in L. injection L as L. rewrite <- L. f_equal. ring. }
  assert (Q : forall c dd, derivable_pt_lim (fun t => cdf (1 - c * t)) 0 dd -> (exists sg, (sg = 1 \/ sg = -1) /\ forall t, 0 < sg * t -> PI_coef (/ 2) t = c) -> d = dd).
  { intros c dd Dc (sg & Hsg & Hc). apply Rminus_diag_uniq. apply cond_eq. intros e He. rewrite Rminus_0_r.
    destruct (D (e / 2) ltac:(lra)) as [d1 A1]. destruct (Dc (e / 2) ltac:(lra)) as [d2 A2]. destruct L as [d3 A3].
    set (w := Rmin d1 (Rmin d2 d3) / 2). assert (W : 0 < w /\ w < d1 /\ w < d2 /\ w < d3).
    { unfold w. pose proof (cond_pos d1). pose proof (cond_pos d2). pose proof (cond_pos d3). pose proof (Rmin_l d1 (Rmin d2 d3)). pose proof (Rmin_r d1 (Rmin d2 d3)). pose proof (Rmin_l d2 d3). pose proof (Rmin_r d2 d3).
      assert (0 < Rmin d1 (Rmin d2 d3)) by (repeat apply Rmin_pos; auto). lra. }
    set (t := sg * w). assert (At : Rabs t = w) by (unfold t; destruct Hsg as [-> | ->]; [rewrite Rabs_right; lra|rewrite Rabs_left; lra]).
    assert (T0 : t <> 0) by (unfold t; destruct Hsg as [-> | ->]; lra).
    specialize (A1 t T0 ltac:(rewrite At; lra)). specialize (A2 t T0 ltac:(rewrite At; lra)).
    assert (Ht : h t = cdf (1 - c * t)).
    { assert (B : ball 0 d3 t). { unfold ball; cbn; unfold AbsRing_ball, abs, minus, plus, opp; cbn. rewrite Ropp_0, Rplus_0_r, At. lra. }
      specialize (A3 t B). rewrite V in A3. injection A3 as A3. rewrite <- A3, Hc; auto. unfold t. destruct Hsg as [-> | ->]; lra. }
    rewrite !Rplus_0_l in A1, A2. rewrite Ht, H0 in A1. replace (1 - c * 0) with 1 in A2 by ring.
    set (q := (cdf (1 - c * t) - cdf 1) / t) in *. replace (d - dd) with ((q - dd) - (q - d)) by ring. apply Rle_lt_trans with (Rabs (q - dd) + Rabs (q - d)); [|lra].
    replace ((q - dd) - (q - d)) with ((q - dd) + - (q - d)) by ring. eapply Rle_trans; [apply Rabs_triang|]. rewrite Rabs_Ropp. lra. }
  assert (X1 : d = - / 2 * pdf 1).
  { apply Q with (/ 2); auto. exists 1. split; auto. intros t Ht. unfold PI_coef. destruct (rltb_spec 0 t); lra. }
  assert (X2 : d = - (3 / 2) * pdf 1).
  { apply Q with (3 / 2); auto. exists (-1). split; auto. intros t Ht. unfold PI_coef. destruct (rltb_spec 0 t); lra. }
  lra.
Qed.
Print Assumptions C114_epsilon_pi_kink_refuted.

(** ** Better means *)
(** [x] is predicted at least as good as [x'], with the same uncertainty. *)
Definition no_worse (minimize : bool) (s : surrogate) (x x' : list R) : Prop :=
  snd (s_predict s x) = snd (s_predict s x') /\
  if minimize then fst (s_predict s x) <= fst (s_predict s x') else fst (s_predict s x') <= fst (s_predict s x).
Lemma no_worse_mean mi s x x' : no_worse mi s x x' -> deviation s x = deviation s x' /\ mean mi s x <= mean mi s x'.
Proof. intros [E L]. unfold deviation, mean. rewrite E. split; auto. destruct mi; lra. Qed.

Lemma EI_psi p m sd : 0 < sd -> (p - m) * cdf ((p - m) / sd) + sd * pdf ((p - m) / sd) = sd * psi ((p - m) / sd).
Proof. intros. unfold psi. field. lra. Qed.
Lemma div_le a b c : 0 < c -> a <= b -> a / c <= b / c.
Proof. intros. unfold Rdiv. apply Rmult_le_compat_r; auto. left. now apply Rinv_0_lt_compat. Qed.
Lemma psi_le x y : x <= y -> psi x <= psi y.
Proof. intros [L| ->]; [left; now apply psi_incr|lra]. Qed.
Lemma coef_mono e m m' : 0 < e <= 1 -> m <= m' -> PI_coef e m * m <= PI_coef e m' * m'.
Proof. intros He L. unfold PI_coef. destruct (rltb_spec 0 m), (rltb_spec 0 m'); nra. Qed.

(** C58: EI, and epsilon-PI with an epsilon of at most one, never prefer the point with the worse
    predicted mean among two points of equal uncertainty, in both optimisation directions. *)
Theorem C58_better_means :
  forall exp_max minimize s x x' a v v', no_worse minimize s x x' ->
    (exists p, a = AEI p) \/ (exists e p, a = AEpsilonPI e p /\ 0 < e <= 1) ->
    value exp_max a minimize s x = Some v -> value exp_max a minimize s x' = Some v' -> v' <= v.
Proof.
  intros em mi s x x' a v v' W Ha V V'. apply no_worse_mean in W as [E L]. pose proof (sqrt_pos (snd (s_predict s x'))) as SP. fold (deviation s x') in SP.
  destruct Ha as [[p ->]|(e & p & -> & He)]; cbn [value] in V, V'.
  - unfold EI_value in V, V'. rewrite predict_eq in V, V'. rewrite E in V. destruct (EI_small s (deviation s x')); [assert (v = v') by congruence; lra|].
    destruct p as [p|]; [|assert (v = v') by congruence; lra]. unfold EI_formula in V, V'. set (sd := deviation s x') in *. set (m := mean mi s x) in *. set (m' := mean mi s x') in *. clearbody m m' sd.
    destruct (reqb_spec sd 0) as [Z|Z].
    + destruct (rltb_spec 0 (p - m)), (rltb_spec 0 (p - m')), (rltb_spec (p - m) 0), (rltb_spec (p - m') 0); try discriminate; injection V as <-; injection V' as <-; lra.
    + injection V as <-. injection V' as <-. rewrite !EI_psi by lra. apply Rmult_le_compat_l; [lra|]. apply psi_le. apply div_le; lra.
  - unfold PI_value in V, V'. rewrite predict_eq in V, V'. rewrite E in V. destruct p as [p|]; [|assert (v = v') by congruence; lra]. unfold PI_formula in V, V'.
    pose proof (coef_mono e _ _ He L) as C. set (sd := deviation s x') in *. set (m := PI_coef e (mean mi s x) * mean mi s x) in *. set (m' := PI_coef e (mean mi s x') * mean mi s x') in *. clearbody m m' sd.
    destruct (reqb_spec sd 0) as [Z|Z].
    + destruct (rltb_spec 0 (p - m)), (rltb_spec 0 (p - m')), (rltb_spec (p - m) 0), (rltb_spec (p - m') 0); try discriminate; injection V as <-; injection V' as <-; lra.
    + injection V as <-. injection V' as <-. apply cdf_incr_le. apply div_le; lra.
Qed.
Print Assumptions C58_better_means.
(** With a positive uncertainty the values exist, and the order is strict for EI above its cut-off. *)
Theorem C58_strictly_better_means :
  forall exp_max minimize s x x' p, no_worse minimize s x x' -> fst (s_predict s x) <> fst (s_predict s x') ->
    0 < deviation s x -> EI_cutoff s <= deviation s x ->
    exists v v', value exp_max (AEI (Some p)) minimize s x = Some v /\ value exp_max (AEI (Some p)) minimize s x' = Some v' /\ v' < v.
Proof.
  intros em mi s x x' p W N P C. assert (N' : mean mi s x <> mean mi s x') by (unfold mean; destruct mi; lra). apply no_worse_mean in W as [E L]. cbn [value]. unfold EI_value.
  rewrite !predict_eq, <- E, EI_small_above by auto. unfold EI_formula. destruct (reqb_spec (deviation s x) 0); [lra|]. eexists _, _. split; [reflexivity|]. split; [reflexivity|].
  rewrite !EI_psi by auto. apply Rmult_lt_compat_l; auto. apply psi_incr. unfold Rdiv. apply Rmult_lt_compat_r; [now apply Rinv_0_lt_compat|]. lra.
Qed.
Print Assumptions C58_strictly_better_means.
Example C58_nonvacuous : no_worse true line [1] [2] /\ 0 < deviation line [1] /\ EI_cutoff line <= deviation line [1] /\
  (exists v v', value 700 (AEI (Some 3)) true line [1] = Some v /\ value 700 (AEI (Some 3)) true line [2] = Some v' /\ v' < v).
Proof.
  assert (W : no_worse true line [1] [2]) by (unfold no_worse; cbn; lra). assert (P : 0 < deviation line [1]) by (unfold deviation; cbn; rewrite sqrt_1; lra).
  assert (C : EI_cutoff line <= deviation line [1]) by (unfold deviation, EI_cutoff; cbn; rewrite sqrt_1; lra). split; auto. split; auto. split; auto.
  apply C58_strictly_better_means; auto. cbn. lra.
Qed.
(** With an epsilon above one, which the constructor accepts, epsilon-PI prefers worse means. *)
Theorem C115_large_epsilon_refuted :
  exists minimize s x x' e, construct EpsilonPI minimize s (Kwargs None (Some e) None (Some 3)) = Ok (AEpsilonPI e (Some 3)) /\ no_worse minimize s x x' /\
    exists v v', value 700 (AEpsilonPI e (Some 3)) minimize s x = Some v /\ value 700 (AEpsilonPI e (Some 3)) minimize s x' = Some v' /\ v < v'.
Proof.
  exists true, line, [1], [2], 2. split; [cbn; unfold set_positive, rltb; destruct (Rlt_dec 0 2); [reflexivity|lra]|]. split; [unfold no_worse; cbn; lra|].
  cbn [value]. unfold PI_value, PI_formula. rewrite !predict_eq. unfold deviation, mean. cbn. rewrite sqrt_1. destruct (reqb_spec 1 0); [lra|]. eexists _, _. split; [reflexivity|]. split; [reflexivity|].
  apply cdf_incr. unfold PI_coef. destruct (rltb_spec 0 1), (rltb_spec 0 2); lra.
Qed.
Print Assumptions C115_large_epsilon_refuted.

(** C116: UCB always prefers the worse predicted mean among two points of equal uncertainty, in
    both directions, because it adds the deviation to a prediction that is to be minimised. *)
Theorem C116_ucb_refuted :
  forall exp_max alpha minimize s x x', no_worse minimize s x x' -> fst (s_predict s x) <> fst (s_predict s x') ->
    exists v v', value exp_max (AUCB alpha) minimize s x = Some v /\ value exp_max (AUCB alpha) minimize s x' = Some v' /\ v < v'.
Proof.
  intros em al mi s x x' W N. assert (N' : mean mi s x <> mean mi s x') by (unfold mean; destruct mi; lra). apply no_worse_mean in W as [E L]. cbn [value]. unfold UCB_value. rewrite !predict_eq, E.
  eexists _, _. split; [reflexivity|]. split; [reflexivity|]. lra.
Qed.
Print Assumptions C116_ucb_refuted.
Example C116_nonvacuous : no_worse true line [1] [2] /\ fst (s_predict line [1]) <> fst (s_predict line [2]).
Proof. unfold no_worse; cbn; split; [split|]; lra. Qed.

(** C117: MGFI prefers better means as long as its exponent does not overflow; where it does, the
    value drops to zero, so that the better of two points has the smaller value.  [exp_max] is the
    largest exponent that [exp] accepts, any number. *)
Definition no_overflow (exp_max t : R) (p : option R) (minimize : bool) (s : surrogate) (x : list R) : Prop :=
  match p with None => True | Some p => MGFI_exponent t p (mean minimize s x) (deviation s x) <= exp_max end.
Theorem C117_mgfi_better_means_partial :
  forall exp_max minimize s x x' t p v v', 0 < t -> no_worse minimize s x x' -> no_overflow exp_max t p minimize s x ->
    value exp_max (AMGFI t p) minimize s x = Some v -> value exp_max (AMGFI t p) minimize s x' = Some v' -> v' <= v.
Proof.
  intros em mi s x x' t p v v' T W O V V'. apply no_worse_mean in W as [E L]. cbn [value] in V, V'. injection V as <-. injection V' as <-. unfold MGFI_value. rewrite !predict_eq. rewrite E in *.
  pose proof (sqrt_pos (snd (s_predict s x'))) as SP. fold (deviation s x') in SP.
  destruct (MGFI_small (deviation s x')) eqn:Sm; [lra|]. destruct p as [p|]; [|lra]. cbn in O. unfold MGFI_formula. rewrite E in O. set (sd := deviation s x') in *. set (m := mean mi s x) in *. set (m' := mean mi s x') in *. clearbody m m' sd. fold (MGFI_exponent t p m sd) (MGFI_exponent t p m' sd).
  assert (P : 0 < sd). { unfold MGFI_small in Sm. destruct (rleb_spec (Rabs sd) (/ 100000000)); [discriminate|]. rewrite Rabs_right in n by lra. lra. }
  assert (EE : MGFI_exponent t p m' sd <= MGFI_exponent t p m sd) by (unfold MGFI_exponent; nra).
  destruct (rltb_spec em (MGFI_exponent t p m sd)); [lra|]. destruct (rltb_spec em (MGFI_exponent t p m' sd)); [lra|].
  apply Rmult_le_compat; [left; apply cdf_bounds|left; apply exp_pos| |].
  - apply cdf_incr_le. apply div_le; lra.
  - destruct EE as [EE| ->]; [left; now apply exp_increasing|lra].
Qed.
Print Assumptions C117_mgfi_better_means_partial.
Example C117_nonvacuous : no_worse true line [1] [2] /\ no_overflow 700 1 (Some 3) true line [1].
Proof. unfold no_worse, no_overflow, MGFI_exponent, mean, deviation; cbn. rewrite sqrt_1. lra. Qed.
Theorem C117_mgfi_overflow_refuted :
  forall exp_max, exists minimize s x x' t p v v', 0 < t <= 1 /\ no_worse minimize s x x' /\
    value exp_max (AMGFI t (Some p)) minimize s x = Some v /\ value exp_max (AMGFI t (Some p)) minimize s x' = Some v' /\ v = 0 /\ 0 < v'.
Proof.
  intros em. exists true, line, [- em], [- em + 1], 1, 1.
  eexists _, _. split; [lra|]. split; [unfold no_worse; cbn; lra|]. split; [reflexivity|]. split; [reflexivity|].
  cbn [value]. unfold MGFI_value. rewrite !predict_eq. unfold deviation, mean. cbn. rewrite sqrt_1. assert (Sm : MGFI_small 1 = false) by (unfold MGFI_small; rewrite Rabs_right by lra; destruct (rleb_spec 1 (/ 100000000)); auto; lra).
  rewrite Sm. unfold MGFI_formula. fold (MGFI_exponent 1 1 (- em) 1) (MGFI_exponent 1 1 (- em + 1) 1). unfold MGFI_exponent. split.
  - destruct (rltb_spec em (1 * (1 - - em - 1) + 1 * 1 * (1 * 1) / 2)); auto; lra.
  - destruct (rltb_spec em (1 * (1 - (- em + 1) - 1) + 1 * 1 * (1 * 1) / 2)); [lra|]. apply Rmult_lt_0_compat; [apply cdf_bounds|apply exp_pos].
Qed.
Print Assumptions C117_mgfi_overflow_refuted.
