(** C163 - C165: the CMA-ES of the hyper-parameter search. *)
From Coq Require Import Reals Lra Lia List Arith ZArith Psatz.
From Verif Require Import Lib_Sum Model_CMAES.
Import ListNotations.
Open Scope R_scope.

(** ** C163: strategy parameters *)
Lemma mu_pos lam : (2 <= lam)%nat -> (1 <= mu lam)%nat.
Proof. intros H. unfold mu. apply Nat.div_le_lower_bound; lia. Qed.
Lemma mu_half lam : (mu lam * 2 <= lam)%nat.
Proof. unfold mu. rewrite Nat.mul_comm. apply Nat.mul_div_le. lia. Qed.
Lemma raw_weight_pos lam i : (2 <= lam)%nat -> (i < mu lam)%nat -> 0 < raw_weight lam i.
Proof.
  intros H Hi. unfold raw_weight. assert (Hm := mu_half lam). unfold mu_prime.
  assert (0 < INR (i + 1)) by (apply (lt_INR 0); lia).
  assert (INR ((i + 1) * 2) <= INR lam) by (apply le_INR; lia). rewrite mult_INR in H1. change (INR 2) with 2 in H1.
  assert (ln (INR (i + 1)) < ln ((INR lam - 1) / 2 + 1)) by (apply ln_increasing; lra). lra.
Qed.
Lemma raw_sum_pos lam : (2 <= lam)%nat -> 0 < sumn (mu lam) (raw_weight lam).
Proof. intros H. apply sumn_pos; [now apply mu_pos|]. intros i Hi. now apply raw_weight_pos. Qed.
Lemma weight_pos lam i : (2 <= lam)%nat -> (i < mu lam)%nat -> 0 < weight lam i.
Proof. intros H Hi. unfold weight. apply Rdiv_lt_0_compat; [now apply raw_weight_pos|now apply raw_sum_pos]. Qed.
Lemma weight_sum lam : (2 <= lam)%nat -> sumn (mu lam) (weight lam) = 1.
Proof.
  intros H. unfold weight. unfold Rdiv. rewrite sumn_scal_r. apply Rinv_r. assert (X := raw_sum_pos lam H). lra.
Qed.
Lemma weight_decreasing lam i j : (2 <= lam)%nat -> (i < j)%nat -> (j < mu lam)%nat -> weight lam j < weight lam i.
Proof.
  intros H Hij Hj. unfold weight, Rdiv. apply Rmult_lt_compat_r; [apply Rinv_0_lt_compat; now apply raw_sum_pos|].
  unfold raw_weight. assert (ln (INR (i + 1)) < ln (INR (j + 1))); [|lra].
  apply ln_increasing; [apply (lt_INR 0); lia|apply lt_INR; lia].
Qed.
Lemma squares_bounds n (w : nat -> R) : (0 < n)%nat -> (forall i, (i < n)%nat -> 0 < w i) -> sumn n w = 1 ->
  / INR n <= sumn n (fun i => w i ^ 2) <= 1.
Proof.
  intros Hn Hw Hs. assert (N : 0 < INR n) by (apply (lt_INR 0); lia). split.
  - assert (Z : 0 <= sumn n (fun i => (w i - / INR n) ^ 2)).
    { apply sumn_nonneg. intros i. replace ((w i - / INR n) ^ 2) with (Rsqr (w i - / INR n)) by (unfold Rsqr; ring). apply Rle_0_sqr. }
    rewrite (sumn_ext _ _ (fun i => w i ^ 2 + (- 2 * / INR n) * w i + / INR n * / INR n)) in Z by (intros; ring).
    rewrite sumn_plus, sumn_plus, sumn_scal, sumn_const, Hs in Z.
    assert (E : INR n * (/ INR n * / INR n) = / INR n) by (field; lra). rewrite E in Z. lra.
  - apply Rle_trans with (sumn n w); [|lra]. assert (W1 : forall i, (i < n)%nat -> w i <= 1).
    { intros i Hi. rewrite <- Hs. clear Hs N. revert i Hi. induction n as [|n IH]; [lia|]. intros i Hi. rewrite sumn_S.
      assert (W0 : 0 <= sumn n w) by (rewrite <- (Rmult_0_r (INR n)), <- sumn_const; apply sumn_le; intros k Hk; left; apply Hw; lia).
      assert (0 < w n) by (apply Hw; lia).
      destruct (Nat.eq_dec i n) as [->|]; [lra|]. assert (w i <= sumn n w); [|lra].
      apply IH; try lia. intros; apply Hw; lia. }
    apply sumn_le. intros i Hi. specialize (Hw i Hi). specialize (W1 i Hi). nra.
Qed.
Lemma mueff_bounds lam : (2 <= lam)%nat -> 1 <= mueff lam <= INR (mu lam).
Proof.
  intros H. unfold mueff. rewrite weight_sum by assumption.
  destruct (squares_bounds (mu lam) (weight lam)) as [A B]; [now apply mu_pos|intros; now apply weight_pos|now apply weight_sum|].
  assert (N : 0 < INR (mu lam)) by (apply (lt_INR 0); assert (X := mu_pos lam H); lia).
  assert (0 < / INR (mu lam)) by now apply Rinv_0_lt_compat.
  set (q := sumn _ _) in *. assert (0 < q) by lra. replace (1 ^ 2 / q) with (/ q) by (field; lra). split.
  - rewrite <- Rinv_1. apply Rinv_le_contravar; lra.
  - rewrite <- (Rinv_inv (INR (mu lam))). apply Rinv_le_contravar; lra.
Qed.

Record sound_parameters (lam dim : nat) : Prop := {
  sp_cs : 0 < cs lam dim < 1; sp_cc : 0 < cc lam dim <= 1; sp_c1 : 0 < c_1 lam dim < 1; sp_cmu : 0 <= c_mu lam dim;
  sp_sum : c_1 lam dim + c_mu lam dim <= 1; sp_damps : 0 < damps lam dim }.
Lemma parameters lam dim : (2 <= lam)%nat -> (1 <= dim)%nat -> sound_parameters lam dim.
Proof.
  intros Hl Hd. destruct (mueff_bounds lam Hl) as [M _]. assert (D : 1 <= INR dim) by (apply (le_INR 1); lia).
  assert (L : 2 <= INR lam) by (apply (le_INR 2); lia).
  assert (CS : 0 < cs lam dim < 1).
  { unfold cs. split; [apply Rdiv_lt_0_compat; lra|]. apply Rmult_lt_reg_r with (INR dim + mueff lam + 5); [lra|]. unfold Rdiv. rewrite Rmult_assoc, Rinv_l by lra. lra. }
  assert (Q : 0 < mueff lam / INR dim) by (apply Rdiv_lt_0_compat; lra).
  assert (CC : 0 < cc lam dim <= 1).
  { unfold cc. replace (2 * mueff lam / INR dim) with (2 * (mueff lam / INR dim)) by (field; lra). set (q := mueff lam / INR dim) in *.
    split; [apply Rdiv_lt_0_compat; lra|]. apply Rmult_le_reg_r with (INR dim + 4 + 2 * q); [lra|]. unfold Rdiv. rewrite Rmult_assoc, Rinv_l by lra. lra. }
  assert (P : 5 < (INR dim + 13 / 10) ^ 2) by nra.
  assert (C1 : 0 < c_1 lam dim < 1).
  { unfold c_1. set (t := if (mu lam =? 1)%nat then Rmin 2 (INR lam / 3) else 2). assert (T : 0 < t <= 2).
    { unfold t. destruct (mu lam =? 1)%nat; [|lra]. split; [apply Rmin_glb_lt; lra|apply Rmin_l]. }
    split; [apply Rdiv_lt_0_compat; lra|]. apply Rmult_lt_reg_r with ((INR dim + 13 / 10) ^ 2 + mueff lam); [lra|]. unfold Rdiv. rewrite Rmult_assoc, Rinv_l by lra. lra. }
  split; auto.
  - unfold c_mu. apply Rmin_glb; [lra|]. apply Rmult_le_pos; [|left; apply Rinv_0_lt_compat; nra].
    replace (mueff lam - 2 + 1 / mueff lam) with ((mueff lam - 1) * (mueff lam - 1) * / mueff lam) by (field; lra).
    apply Rmult_le_pos; [lra|]. apply Rmult_le_pos; [nra|]. left. apply Rinv_0_lt_compat. lra.
  - unfold c_mu. assert (X := Rmin_l (1 - c_1 lam dim) (2 * (mueff lam - 2 + 1 / mueff lam) / ((INR dim + 2) ^ 2 + mueff lam))). lra.
  - unfold damps. destruct (mu lam =? 1)%nat.
    + assert (0 < 2 * mueff lam / INR lam) by (apply Rdiv_lt_0_compat; lra). lra.
    + assert (X := Rmax_l 0 (sqrt ((mueff lam - 1) / (INR dim + 1)) - 1)). lra.
Qed.

(** C163: for every population size and dimension, the weights are positive, decrease with the rank and sum to one, so that the
    new mean is a weighted average; the effective number of parents is between 1 and their number; all learning rates are in
    [0, 1] and leave a non-negative share for the old covariance matrix. *)
Theorem C163_strategy_parameters lam dim : (2 <= lam)%nat -> (1 <= dim)%nat ->
  (forall i, (i < mu lam)%nat -> 0 < weight lam i) /\
  (forall i j, (i < j < mu lam)%nat -> weight lam j < weight lam i) /\
  sumn (mu lam) (weight lam) = 1 /\
  1 <= mueff lam <= INR (mu lam) /\
  0 < cs lam dim < 1 /\ 0 < cc lam dim <= 1 /\ 0 < c_1 lam dim < 1 /\ 0 <= c_mu lam dim /\ c_1 lam dim + c_mu lam dim <= 1 /\ 0 < damps lam dim.
Proof.
  intros Hl Hd. destruct (parameters lam dim Hl Hd). split; [intros; now apply weight_pos|]. split; [intros i j H; apply weight_decreasing; lia|].
  split; [now apply weight_sum|]. split; [now apply mueff_bounds|]. auto 10.
Qed.
Print Assumptions C163_strategy_parameters.
Example C163_ex : mu 6 = 3%nat /\ weight 2 0 = 1.
Proof.
  split; [reflexivity|]. assert (X := weight_sum 2 (le_n 2)). change (mu 2) with 1%nat in X. rewrite sumn_S, sumn_0 in X. lra.
Qed.

(** ** C164: bounds *)
Definition between (a b x : R) : Prop := Rmin a b <= x <= Rmax a b.
Lemma reflect_between x a b : a <> b -> between a b (reflectR x a b).
Proof.
  intros N. unfold reflectR. set (y := (x - a) / (b - a)). set (d := Rabs (y - IZR (Int_part y))).
  assert (D : 0 <= d < 1).
  { unfold d. destruct (base_Int_part y) as [A B]. rewrite Rabs_pos_eq by lra. lra. }
  set (t := if Z.even (Int_part y) then d else 1 - d). assert (T : 0 <= t <= 1) by (unfold t; destruct (Z.even _); lra).
  clearbody t. clear - N T. unfold between, Rmin, Rmax. destruct (Rle_dec a b); nra.
Qed.
Lemma reflect_inside x a b : a < b -> a <= x < b -> reflectR x a b = x.
Proof.
  intros Hab Hx. unfold reflectR. set (y := (x - a) / (b - a)).
  assert (Y : 0 <= y < 1).
  { unfold y. split; [apply Rmult_le_pos; [lra|left; apply Rinv_0_lt_compat; lra]|].
    apply Rmult_lt_reg_r with (b - a); [lra|]. unfold Rdiv. rewrite Rmult_assoc, Rinv_l by lra. lra. }
  assert (E : Int_part y = 0%Z).
  { destruct (base_Int_part y) as [A B]. assert (IZR (Int_part y) < 1) by lra. assert (-1 < IZR (Int_part y)) by lra.
    apply lt_IZR in H. apply lt_IZR in H0. lia. }
  rewrite E. simpl Z.even. cbv iota. rewrite Rminus_0_r, Rabs_pos_eq by lra. unfold y. field. lra.
Qed.

Section Run.
Variables (dim lam : nat) (lb ub : nat -> R) (sigma0 : R) (fitness : (nat -> R) -> R) (argsort : (nat -> R) -> nat -> nat)
  (eigh : (nat -> nat -> R) -> option ((nat -> R) * (nat -> nat -> R))).
Hypothesis Hlam : (2 <= lam)%nat.
Hypothesis Hdim : (1 <= dim)%nat.
Hypothesis proper : forall j, (j < dim)%nat -> lb j <> ub j.
Hypothesis Hsigma : 0 < sigma0.
Let gens := generations dim lam lb ub sigma0 fitness argsort eigh.
Let in_box (x : nat -> R) : Prop := forall j, (j < dim)%nat -> between (lb j) (ub j) (x j).

Lemma offspring_in_box s z k : in_box (offspring dim lb ub s z k).
Proof. intros j Hj. apply reflect_between. now apply proper. Qed.
Lemma average_in_box s z : in_box (recombine dim lam lb ub fitness argsort s z).
Proof.
  intros j Hj. unfold recombine. assert (B : forall i, between (lb j) (ub j) (selected dim lb ub fitness argsort s z i j)) by (intros; now apply offspring_in_box).
  set (x := fun i => selected dim lb ub fitness argsort s z i j) in *. change (between (lb j) (ub j) (sumn (mu lam) (fun i => x i * weight lam i))).
  assert (S1 := weight_sum lam Hlam). unfold between in *. split.
  - replace (Rmin (lb j) (ub j)) with (sumn (mu lam) (fun i => Rmin (lb j) (ub j) * weight lam i)) by (rewrite sumn_scal, S1; ring).
    apply sumn_le. intros i Hi. apply Rmult_le_compat_r; [left; now apply weight_pos|]. apply B.
  - replace (Rmax (lb j) (ub j)) with (sumn (mu lam) (fun i => Rmax (lb j) (ub j) * weight lam i)) by (rewrite sumn_scal, S1; ring).
    apply sumn_le. intros i Hi. apply Rmult_le_compat_r; [left; now apply weight_pos|]. apply B.
Qed.

(** Symmetric with a non-negative quadratic form. *)
Definition covariance (A : nat -> nat -> R) : Prop :=
  (forall i j, A i j = A j i) /\ forall v : nat -> R, 0 <= sumn dim (fun i => sumn dim (fun j => v i * A i j * v j)).
Lemma quad_outer (u v : nat -> R) : sumn dim (fun i => sumn dim (fun j => v i * (u i * u j) * v j)) = (sumn dim (fun i => v i * u i)) ^ 2.
Proof.
  transitivity (sumn dim (fun i => (v i * u i) * sumn dim (fun j => v j * u j))).
  - apply sumn_ext. intros i _. rewrite <- sumn_scal. apply sumn_ext. intros; ring.
  - rewrite sumn_scal_r. ring.
Qed.
Lemma covariance_identity : covariance identity.
Proof.
  split; [intros; unfold identity; now rewrite Nat.eqb_sym|]. intros v.
  rewrite (sumn_ext _ _ (fun i => v i * v i)); [apply sumn_nonneg; intros; apply Rle_0_sqr|].
  intros i Hi. rewrite (sumn_ext _ _ (fun j => identity i j * (v i * v j))) by (intros; ring). now rewrite sumn_identity.
Qed.
Definition ok (s : cma) : Prop := covariance (C s) /\ 0 < sigma s.
Lemma reset_ok s : ok (reset_state sigma0 s).
Proof. split; [apply covariance_identity|exact Hsigma]. Qed.
Lemma update_ok s z : ok s -> ok (update dim lam lb ub fitness argsort s z).
Proof.
  intros [[Sy P] Hs]. destruct (parameters lam dim Hlam Hdim) as [CS CC C1 CM SU DA].
  unfold update. set (hsig := if Rlt_dec _ _ then 1 else 0). assert (H01 : 0 <= 1 - hsig <= 1) by (unfold hsig; destruct (Rlt_dec _ _); lra). clearbody hsig.
  split; cbn [C sigma].
  - set (pc' := fun j => (1 - cc lam dim) * pc s j + hsig * sqrt (cc lam dim * (2 - cc lam dim) * mueff lam) * (recombine dim lam lb ub fitness argsort s z j - wcm s j) / sigma s). set (off := fun j i => (selected dim lb ub fitness argsort s z i j - wcm s j) / sigma s).
    change (covariance (fun j l => (1 - c_1 lam dim - c_mu lam dim) * C s j l + c_1 lam dim * (pc' j * pc' l + (1 - hsig) * cc lam dim * (2 - cc lam dim) * C s j l)
       + c_mu lam dim * sumn (mu lam) (fun i => off j i * (weight lam i * off l i)))). clearbody pc' off. split.
    + intros i j. rewrite (Sy i j). rewrite (sumn_ext _ _ (fun k => off j k * (weight lam k * off i k))) by (intros; ring). ring.
    + intros v. set (q := sumn dim (fun i => sumn dim (fun j => v i * C s i j * v j))). assert (0 <= q) by apply P.
      set (a := 1 - c_1 lam dim - c_mu lam dim + c_1 lam dim * ((1 - hsig) * cc lam dim * (2 - cc lam dim))).
      assert (E : sumn dim (fun i => sumn dim (fun j => v i * ((1 - c_1 lam dim - c_mu lam dim) * C s i j + c_1 lam dim * (pc' i * pc' j + (1 - hsig) * cc lam dim * (2 - cc lam dim) * C s i j)
         + c_mu lam dim * sumn (mu lam) (fun k => off i k * (weight lam k * off j k))) * v j))
        = a * q + c_1 lam dim * (sumn dim (fun i => v i * pc' i)) ^ 2 + c_mu lam dim * sumn (mu lam) (fun k => weight lam k * (sumn dim (fun i => v i * off i k)) ^ 2)).
      { unfold q. rewrite <- quad_outer.
        rewrite (sumn_ext (mu lam) _ (fun k => sumn dim (fun i => sumn dim (fun j => weight lam k * (v i * (off i k * off j k) * v j))))).
        2:{ intros k _. rewrite <- quad_outer. rewrite <- sumn_scal. apply sumn_ext. intros i _. now rewrite <- sumn_scal. }
        rewrite (sumn_swap (mu lam) dim (fun k i => sumn dim (fun j => weight lam k * (v i * (off i k * off j k) * v j)))).
        rewrite <- !sumn_scal. rewrite <- !sumn_plus. apply sumn_ext. intros i _.
        rewrite (sumn_swap (mu lam) dim (fun k j => weight lam k * (v i * (off i k * off j k) * v j))).
        rewrite <- !sumn_scal. rewrite <- !sumn_plus. apply sumn_ext. intros j _.
        rewrite (sumn_ext (mu lam) (fun k => weight lam k * (v i * (off i k * off j k) * v j)) (fun k => (v i * v j) * (off i k * (weight lam k * off j k)))) by (intros; ring).
        rewrite sumn_scal. unfold a. ring. }
      rewrite E. assert (0 <= a).
      { unfold a. assert (0 <= c_1 lam dim * ((1 - hsig) * cc lam dim * (2 - cc lam dim))); [|lra].
        apply Rmult_le_pos; [lra|]. apply Rmult_le_pos; [apply Rmult_le_pos; lra|lra]. }
      assert (0 <= sumn (mu lam) (fun k => weight lam k * sumn dim (fun i => v i * off i k) ^ 2)).
      { rewrite <- (Rmult_0_r (INR (mu lam))), <- sumn_const. apply sumn_le. intros k Hk. apply Rmult_le_pos; [left; now apply weight_pos|]. apply pow2_ge_0. }
      assert (0 <= sumn dim (fun i => v i * pc' i) ^ 2) by apply pow2_ge_0.
      assert (0 <= a * q) by now apply Rmult_le_pos.
      assert (0 <= c_1 lam dim * sumn dim (fun i => v i * pc' i) ^ 2) by (apply Rmult_le_pos; lra).
      assert (0 <= c_mu lam dim * sumn (mu lam) (fun k => weight lam k * sumn dim (fun i => v i * off i k) ^ 2)) by (apply Rmult_le_pos; lra). lra.
  - apply Rmult_lt_0_compat; [exact Hs|apply exp_pos].
Qed.
Lemma updateBD_ok s : ok s -> ok (updateBD dim eigh s).
Proof. intros H. unfold updateBD. destruct (eigh _) as [[w V]|]; [|exact H]. destruct (existsb _ _); exact H. Qed.
Lemma lazyBD_ok s : ok s -> ok (lazyBD dim lam eigh s).
Proof. intros H. unfold lazyBD. destruct (Rlt_dec _ _); [|exact H]. apply updateBD_ok. exact H. Qed.
Lemma rectify_ok s : ok s -> ok (rectify sigma0 s).
Proof. intros H. unfold rectify. destruct (Rlt_dec _ _); [apply reset_ok|]. destruct (Rlt_dec _ _); [apply reset_ok|exact H]. Qed.
Lemma generation_ok s z : ok s -> ok (generation dim lam lb ub sigma0 fitness argsort eigh s z).
Proof. intros H. apply rectify_ok, lazyBD_ok, update_ok, H. Qed.
Lemma lazyBD_wcm s : wcm (lazyBD dim lam eigh s) = wcm s.
Proof. unfold lazyBD. destruct (Rlt_dec _ _); [|reflexivity]. unfold updateBD. destruct (eigh _) as [[w V]|]; [|reflexivity]. destruct (existsb _ _); reflexivity. Qed.
Lemma rectify_wcm s : wcm (rectify sigma0 s) = wcm s.
Proof. unfold rectify. destruct (Rlt_dec _ _); [reflexivity|]. destruct (Rlt_dec _ _); reflexivity. Qed.
Lemma generation_wcm s z : wcm (generation dim lam lb ub sigma0 fitness argsort eigh s z) = recombine dim lam lb ub fitness argsort s z.
Proof. unfold generation. now rewrite rectify_wcm, lazyBD_wcm. Qed.

(** C164: in every generation, whatever the likelihood, its ranking, the random numbers and the eigenvalue solver do, every point
    that is evaluated lies within the bounds in every coordinate, and so does the new mean; it does not matter in
    which order the two bounds are given (gpr.py 1171-1172 swaps them). *)
Theorem C164_within_bounds wcm0 zs g :
  (forall k, in_box (offspring dim lb ub (gens g (init sigma0 wcm0) zs) (zs g) k)) /\
  in_box (wcm (gens (S g) (init sigma0 wcm0) zs)).
Proof.
  split; [intros k; apply offspring_in_box|]. unfold gens. cbn [generations]. rewrite generation_wcm. apply average_in_box.
Qed.
(** C165: after every generation the covariance matrix is symmetric and positive semidefinite and the step size is positive. *)
Theorem C165_covariance wcm0 zs g : let s := gens g (init sigma0 wcm0) zs in
  (forall i j, C s i j = C s j i) /\ (forall v : nat -> R, 0 <= sumn dim (fun i => sumn dim (fun j => v i * C s i j * v j))) /\ 0 < sigma s.
Proof.
  intros s. assert (H : ok s).
  { unfold s. clear s. induction g as [|g IH]; [split; [apply covariance_identity|exact Hsigma]|]. unfold gens. cbn [generations]. now apply generation_ok. }
  destruct H as [[A B] D]. auto.
Qed.
End Run.
Print Assumptions C164_within_bounds.
Print Assumptions C165_covariance.
(** Points that are already inside are not moved. *)
Theorem C164_inside_unchanged dim lb ub s z k j : lb j < ub j ->
  lb j <= wcm s j + sigma s * sumn dim (fun l => e_vector s j l * (e_value s l * z l k)) < ub j ->
  offspring dim lb ub s z k j = wcm s j + sigma s * sumn dim (fun l => e_vector s j l * (e_value s l * z l k)).
Proof. intros H1 H2. unfold offspring. now apply reflect_inside. Qed.
Print Assumptions C164_inside_unchanged.
(** Non-vacuity: swapped bounds in two dimensions, and a mutation that leaves the box. *)
Example C164_ex : (2 <= 6)%nat /\ (1 <= 2)%nat /\ (forall j, (j < 2)%nat -> (fun _ : nat => 1) j <> (fun _ : nat => -1) j) /\ 0 < / 2 /\
  offspring 2 (fun _ => 1) (fun _ => -1) (init 2 (fun _ => 0)) (fun _ _ => 1) 0 0 = 0.
Proof.
  split; [lia|]. split; [lia|]. split; [intros; lra|]. split; [lra|]. unfold offspring, init; cbn [wcm sigma e_vector e_value].
  assert (E : sumn 2 (fun l => identity 0 l * (1 * 1)) = 1) by (rewrite sumn_identity; [ring|lia]). rewrite E. unfold reflectR.
  replace ((0 + 2 * 1 - 1) / (-1 - 1)) with (- / 2) by field.
  assert (F : Int_part (- / 2) = (-1)%Z).
  { destruct (base_Int_part (- / 2)) as [A B]. assert (IZR (Int_part (- / 2)) < 0) by lra. assert (-2 < IZR (Int_part (- / 2))) by lra. apply lt_IZR in H, H0. lia. }
  rewrite F. simpl Z.even. cbv iota. rewrite Rabs_pos_eq by lra. lra.
Qed.
