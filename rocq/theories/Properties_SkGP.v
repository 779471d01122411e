(** C157 - C159: the scikit-learn based surrogate. *)
From Coq Require Import Reals Lra Lia List Arith.
From Coquelicot Require Import Coquelicot.
From Verif Require Import Lib_Sum Model_Kernel Spec_Kernel Proofs_Kernel Properties_KernelGrad Model_SkGP.
Import ListNotations.
Open Scope R_scope.

(** ** Specification: the solvers are exact (scipy's contract), for the matrix of the fitted model. *)
Definition exact_lower (solve : nat -> (nat -> nat -> R) -> (nat -> R) -> nat -> R) (n : nat) (L : nat -> nat -> R) : Prop :=
  forall b i, (i < n)%nat -> sumn n (fun j => L i j * solve n L b j) = b i.
Definition exact_upper (solve : nat -> (nat -> nat -> R) -> (nat -> nat -> R) -> nat -> nat -> R) (n : nat) (A : nat -> nat -> R) : Prop :=
  forall B i k, (i < n)%nat -> (k < n)%nat -> sumn n (fun j => A i j * solve n A B j k) = B i k.

Lemma nth_map_seq (G : nat -> R) m j : (j < m)%nat -> nth j (map G (seq 0 m)) 0 = G j.
Proof. intros H. rewrite (nth_indep _ 0 (G 0%nat)) by (rewrite map_length, seq_length; lia). rewrite map_nth, seq_nth by assumption. reflexivity. Qed.

Section Solve.
Variables (solve_lower : nat -> (nat -> nat -> R) -> (nat -> R) -> nat -> R) (solve_upper : nat -> (nat -> nat -> R) -> (nat -> nat -> R) -> nat -> nat -> R).
Variables (n : nat) (L : nat -> nat -> R).
Hypothesis HL : exact_lower solve_lower n L.
Hypothesis HU : exact_upper solve_upper n (transpose L).
Let U := solve_upper n (transpose L) identity.
(** The solution of the lower system is U^T b. *)
Lemma lower_by_upper b c : (c < n)%nat -> solve_lower n L b c = sumn n (fun a => U a c * b a).
Proof.
  intros Hc. transitivity (sumn n (fun j => identity j c * solve_lower n L b j)).
  - rewrite (sumn_ext _ _ (fun j => identity c j * solve_lower n L b j)); [now rewrite sumn_identity|].
    intros j _. unfold identity. now rewrite Nat.eqb_sym.
  - rewrite (sumn_ext _ _ (fun j => sumn n (fun a => U a c * (L a j * solve_lower n L b j)))).
    + rewrite sumn_swap. apply sumn_ext. intros a Ha. rewrite sumn_scal. now rewrite HL.
    + intros j Hj. rewrite <- (HU identity j c Hj Hc). rewrite <- sumn_scal_r. apply sumn_ext. intros a _. unfold U, transpose. ring.
Qed.
End Solve.

Lemma predict_mse_eq solve_lower g x : let n := length (X_train_ g) in
  let v := sigma2 g + noise_level g - sumn n (fun i => solve_lower n (L_ g) (k_row g x) i * solve_lower n (L_ g) (k_row g x) i) in
  snd (predict solve_lower g x) = (if Rlt_dec v 0 then 0 else v) * (y_train_std g * y_train_std g).
Proof.
  intros n v. unfold predict. cbn [snd]. fold n. fold v. apply sqrt_sqrt. apply Rmult_le_pos; [destruct (Rlt_dec v 0); lra|apply Rle_0_sqr].
Qed.

(** C157: along every coordinate, the gradient of the fitted model (kernel Matern 3/2, the one that is always used) is
    the derivative of the predicted mean and, where it is positive, of the predicted variance; the point may be a
    training point. *)
Theorem C157_gradient solve_lower solve_upper g x :
  kern g = Matern32 -> positive (length_scale g) -> length (length_scale g) = length x -> rectangular (X_train_ g) (length x) ->
  exact_lower solve_lower (length (X_train_ g)) (L_ g) ->
  exact_upper solve_upper (length (X_train_ g)) (transpose (L_ g)) ->
  has_gradient (fun z => Some (fst (predict solve_lower g z))) x (fst (gradient solve_upper g x)) /\
  (0 < snd (predict solve_lower g x) -> has_gradient (fun z => Some (snd (predict solve_lower g z))) x (snd (gradient solve_upper g x))).
Proof.
  intros Hk Hp Hl HX HL HU. set (n := length (X_train_ g)) in *.
  assert (DK : forall j i, (j < length x)%nat -> (i < n)%nat -> is_derive (fun u => k_row g (set_coord x j u) i) (nth j x 0) (k_dx g x j i)).
  { intros j i Hj Hi. unfold k_row, k_dx. rewrite Hk. set (t := nth i (X_train_ g) []).
    assert (Ht : length t = length x) by (unfold rectangular in HX; rewrite Forall_forall in HX; apply HX, nth_In; exact Hi).
    destruct (C141_matern Matern32 (sigma2 g) (length_scale g) x t) as [_ D]; auto; try discriminate.
    destruct (D j Hj) as [h [Dh Lh]]. apply (is_derive_ext_loc h); [|exact Dh].
    apply filter_imp with (2 := Lh). intros u E. now injection E. }
  assert (Same : forall j, (j < length x)%nat -> set_coord x j (nth j x 0) = x) by (intros; now apply set_coord_same).
  split.
  - split; [unfold gradient; cbn [fst]; now rewrite map_length, seq_length|].
    intros j Hj. exists (fun u => fst (predict solve_lower g (set_coord x j u))). split; [|apply filter_forall; reflexivity].
    unfold gradient; cbn [fst]. fold n. rewrite (nth_map_seq (fun j => y_train_std g * sumn n (fun i => k_dx g x j i * alpha_ g i))) by assumption.
    unfold predict; cbn [fst]. fold n.
    assert (DS : is_derive (fun u => sumn n (fun i => k_row g (set_coord x j u) i * alpha_ g i)) (nth j x 0) (sumn n (fun i => k_dx g x j i * alpha_ g i))).
    { apply (sumn_derive n (fun i u => k_row g (set_coord x j u) i * alpha_ g i)). intros i Hi. specialize (DK j i Hj Hi).
      apply (is_derive_ext (fun u => scal (alpha_ g i) (k_row g (set_coord x j u) i))); [intros u; apply Rmult_comm|].
      replace (k_dx g x j i * alpha_ g i) with (scal (alpha_ g i) (k_dx g x j i)) by apply Rmult_comm.
      now apply (is_derive_scal (fun u => k_row g (set_coord x j u) i)). }
    set (S := fun u => sumn n (fun i => k_row g (set_coord x j u) i * alpha_ g i)) in *.
    change (is_derive (fun u => y_train_std g * S u + y_train_mean g) (nth j x 0) (y_train_std g * sumn n (fun i => k_dx g x j i * alpha_ g i))).
    replace (y_train_std g * sumn n (fun i => k_dx g x j i * alpha_ g i)) with (plus (scal (y_train_std g) (sumn n (fun i => k_dx g x j i * alpha_ g i))) zero).
    + apply (is_derive_plus (fun u => scal (y_train_std g) (S u)) (fun _ => y_train_mean g)); [|apply (is_derive_const (y_train_mean g))].
      now apply (is_derive_scal S).
    + unfold plus, scal, zero; simpl; unfold mult; simpl. ring.
  - intros Hpos. split; [unfold gradient; cbn [snd]; now rewrite map_length, seq_length|].
    intros j Hj. set (U := solve_upper n (transpose (L_ g)) identity).
    set (V := fun u c => sumn n (fun a => U a c * k_row g (set_coord x j u) a)).
    set (v := fun u => sigma2 g + noise_level g - sumn n (fun c => V u c * V u c)).
    assert (EV : forall u, sigma2 g + noise_level g - sumn n (fun i => solve_lower n (L_ g) (k_row g (set_coord x j u)) i * solve_lower n (L_ g) (k_row g (set_coord x j u)) i) = v u).
    { intros u. unfold v. apply f_equal. apply sumn_ext. intros c Hc. unfold V, U. now rewrite !(lower_by_upper solve_lower solve_upper n (L_ g) HL HU) by assumption. }
    set (dV := fun c => sumn n (fun a => U a c * k_dx g x j a)).
    assert (DV : forall c, is_derive (fun u => V u c) (nth j x 0) (dV c)).
    { intros c. unfold V, dV. apply (sumn_derive n (fun a u => U a c * k_row g (set_coord x j u) a)). intros a Ha.
      apply (is_derive_scal (fun u => k_row g (set_coord x j u) a) _ (U a c)). now apply DK. }
    assert (Dv : is_derive v (nth j x 0) (-2 * sumn n (fun c => dV c * V (nth j x 0) c))).
    { unfold v. assert (D2 : is_derive (fun u => sumn n (fun c => V u c * V u c)) (nth j x 0) (sumn n (fun c => 2 * (dV c * V (nth j x 0) c)))).
      { apply (sumn_derive n (fun c u => V u c * V u c)). intros c _. specialize (DV c). set (Vc := fun u => V u c) in *.
        replace (2 * (dV c * V (nth j x 0) c)) with (plus (mult (dV c) (Vc (nth j x 0))) (mult (Vc (nth j x 0)) (dV c))).
        - apply (is_derive_mult Vc Vc); auto. intros a b. unfold mult; simpl. apply Rmult_comm.
        - unfold plus, mult, Vc; simpl. ring. }
      rewrite sumn_scal in D2. set (Q2 := fun u => sumn n (fun c => V u c * V u c)) in *.
      replace (-2 * sumn n (fun c => dV c * V (nth j x 0) c)) with (minus zero (2 * sumn n (fun c => dV c * V (nth j x 0) c))).
      - apply (is_derive_minus (fun _ => sigma2 g + noise_level g) Q2); [apply (is_derive_const (sigma2 g + noise_level g))|exact D2].
      - unfold minus, plus, opp, zero; simpl. ring. }
    set (w := y_train_std g * y_train_std g).
    assert (Px : 0 < v (nth j x 0)).
    { rewrite predict_mse_eq in Hpos. fold n in Hpos. assert (E := EV (nth j x 0)). rewrite Same in E by assumption. rewrite E in Hpos.
      destruct (Rlt_dec (v (nth j x 0)) 0); [lra|]. destruct (Req_dec (v (nth j x 0)) 0) as [Z|Z]; [rewrite Z in Hpos; lra|lra]. }
    exists (fun u => v u * w). split.
    + unfold gradient; cbn [snd]. fold n. fold w.
      set (G := fun j => -2 * w * sumn n (fun b => sumn n (fun a => k_dx g x j a * K_inv solve_upper g a b) * k_row g x b)).
      rewrite (nth_map_seq G) by assumption.
      assert (EG : G j = scal w (-2 * sumn n (fun c => dV c * V (nth j x 0) c))).
      { unfold G, scal; simpl; unfold mult; simpl.
        assert (EE : sumn n (fun b => sumn n (fun a => k_dx g x j a * K_inv solve_upper g a b) * k_row g x b) = sumn n (fun c => dV c * V (nth j x 0) c)); [|rewrite EE; ring].
        unfold K_inv. fold n. fold U.
        transitivity (sumn n (fun b => sumn n (fun c => dV c * (U b c * k_row g x b)))).
        - apply sumn_ext. intros b _. transitivity (sumn n (fun c => dV c * U b c) * k_row g x b).
          + f_equal. transitivity (sumn n (fun a => sumn n (fun c => k_dx g x j a * (U a c * U b c)))).
            * apply sumn_ext. intros a _. rewrite sumn_scal. reflexivity.
            * rewrite sumn_swap. apply sumn_ext. intros c _. unfold dV. rewrite <- sumn_scal_r. apply sumn_ext. intros; ring.
          + rewrite <- sumn_scal_r. apply sumn_ext. intros; ring.
        - rewrite sumn_swap. apply sumn_ext. intros c _. rewrite sumn_scal. unfold V. now rewrite Same by assumption. }
      rewrite EG. apply (is_derive_ext (fun u => scal w (v u))); [intros u; apply Rmult_comm|]. now apply (is_derive_scal v).
    + assert (Cv : continuous v (nth j x 0)) by (apply (ex_derive_continuous v); eexists; exact Dv).
      assert (Pl : locally (nth j x 0) (fun u => 0 < v u)) by (apply Cv, (open_gt 0); exact Px).
      apply filter_imp with (2 := Pl). intros u Pu. rewrite predict_mse_eq. fold n. rewrite EV. fold w.
      destruct (Rlt_dec (v u) 0); [lra|reflexivity].
Qed.
Print Assumptions C157_gradient.

(** C158: the predicted variance is never negative and never larger than the prior one. *)
Theorem C158_variance solve_lower g x : 0 <= sigma2 g -> 0 <= noise_level g ->
  0 <= snd (predict solve_lower g x) <= (sigma2 g + noise_level g) * (y_train_std g * y_train_std g).
Proof.
  intros H1 H2. rewrite predict_mse_eq. cbv zeta. set (q := sumn _ _).
  assert (0 <= q) by (apply sumn_nonneg; intros; apply Rle_0_sqr). assert (W := Rle_0_sqr (y_train_std g)). unfold Rsqr in W.
  destruct (Rlt_dec _ _).
  - split; [lra|]. apply Rle_trans with 0; [lra|]. apply Rmult_le_pos; lra.
  - split; [apply Rmult_le_pos; lra|]. apply Rmult_le_compat_r; lra.
Qed.
Print Assumptions C158_variance.

(** Non-vacuity: one training point at 0, unit scales, observation 1, noise 1. *)
Definition g1 : gpr := GPR [[0]] (fun _ => / 2) (fun _ _ => sqrt 2) 0 1 Matern32 1 [1] 1.
Definition sl (n : nat) (L : nat -> nat -> R) (b : nat -> R) (i : nat) : R := b i / L i i.
Definition su (n : nat) (L : nat -> nat -> R) (B : nat -> nat -> R) (i k : nat) : R := B i k / L i i.
Example C157_ex : kern g1 = Matern32 /\ positive (length_scale g1) /\ length (length_scale g1) = length [3] /\ rectangular (X_train_ g1) 1 /\
  exact_lower sl (length (X_train_ g1)) (L_ g1) /\ exact_upper su (length (X_train_ g1)) (transpose (L_ g1)) /\ 0 < snd (predict sl g1 [0]).
Proof.
  assert (S2 : 0 < sqrt 2) by (apply sqrt_lt_R0; lra).
  split; [reflexivity|]. split; [repeat constructor; lra|]. split; [reflexivity|]. split; [repeat constructor|].
  split; [intros b i Hi; simpl in Hi; assert (i = 0%nat) by lia; subst i; unfold sumn, sl; simpl; field; lra|].
  split; [intros B i k Hi Hk; simpl in Hi; assert (i = 0%nat) by lia; subst i; unfold sumn, su, transpose; simpl; field; lra|].
  rewrite predict_mse_eq. cbn. unfold sumn, sl, k_row, sk_value, sk_distance. cbn.
  assert (E : sqrt ((0 - 0) / 1 * ((0 - 0) / 1) + 0) = 0) by (replace ((0 - 0) / 1 * ((0 - 0) / 1) + 0) with 0 by field; apply sqrt_0).
  rewrite E, !Rmult_0_r, Ropp_0, exp_0.
  set (q := _ / sqrt 2 * (_ / sqrt 2)). assert (Hq : q = / 2).
  { unfold q. apply Rmult_eq_reg_r with (sqrt 2 * sqrt 2); [|rewrite sqrt_sqrt by lra; lra].
    transitivity 1; [field; lra|rewrite sqrt_sqrt by lra; lra]. }
  rewrite Hq. destruct (Rlt_dec _ 0); lra.
Qed.

(** C159: gradients at several points at once: right for two variables or more and for single points, but with one
    variable several points raise. *)
Theorem C159_several_points_partial solve_upper g dim xs : (2 <= dim)%nat \/ length xs = 1%nat ->
  gradient_many solve_upper g dim xs = Some (map (gradient solve_upper g) xs).
Proof.
  intros H. unfold gradient_many.
  assert (E : broadcasts (rev (squeeze [length xs; dim; 1%nat])) (rev [length xs; dim]) = true); [|now rewrite E].
  unfold squeeze. cbn [filter]. rewrite Nat.eqb_refl. cbn [negb].
  destruct (Nat.eqb_spec dim 1) as [->|N]; cbn [negb].
  - destruct H as [H|H]; [lia|]. rewrite H. reflexivity.
  - destruct (Nat.eqb_spec (length xs) 1) as [E|N']; cbn [negb rev app broadcasts]; rewrite !Nat.eqb_refl; reflexivity.
Qed.
Print Assumptions C159_several_points_partial.
Theorem C159_several_points_refuted solve_upper g xs : (2 <= length xs)%nat -> gradient_many solve_upper g 1 xs = None.
Proof.
  intros H. unfold gradient_many, squeeze. cbn [filter]. rewrite Nat.eqb_refl. cbn [negb].
  destruct (Nat.eqb_spec (length xs) 1); [lia|]. cbn [negb rev app broadcasts].
  destruct (Nat.eqb_spec (length xs) 1); [lia|]. reflexivity.
Qed.
Print Assumptions C159_several_points_refuted.
Example C158_C159_ex : 0 <= sigma2 g1 /\ 0 <= noise_level g1 /\ (2 <= 2)%nat /\ (2 <= length [[1]; [2]])%nat.
Proof. simpl. repeat split; lra || lia. Qed.
