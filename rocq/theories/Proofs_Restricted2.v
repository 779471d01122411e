(** The gradient of the restricted likelihood. *)
From Coq Require Import Reals List Arith Lia Lra Bool.
From Coquelicot Require Import Coquelicot.
From Verif Require Import Lib_Sum Lib_Chol Lib_GLS Model_Kernel Spec_Kernel Proofs_Kernel Properties_Kernel Model_Likelihood Spec_Likelihood Proofs_Likelihood Proofs_LikelihoodGrad Proofs_LikelihoodModes Proofs_LikelihoodParts Proofs_LikelihoodTwo Proofs_LikelihoodMax Proofs_LikelihoodCases Model_Restricted Proofs_Restricted.
Import ListNotations.
Open Scope R_scope.

Section Oracles.
Variable cholesky : nat -> matrix -> option matrix.
Variable qr : nat -> nat -> matrix -> matrix * matrix.
Variable solve_lower : nat -> matrix -> (nat -> R) -> nat -> R.
Variable solve_upper : nat -> matrix -> (nat -> R) -> nat -> R.
Variable cho_solve : nat -> matrix -> matrix -> matrix.
Variable matrix_rank : nat -> matrix -> nat.
Hypothesis LP : lapack cholesky qr solve_lower solve_upper cho_solve matrix_rank.
Variable det : nat -> matrix -> R.
Notation compute := (compute_aux_var cholesky qr solve_lower).
Notation revaluate := (restricted_evaluate cholesky qr solve_lower det).
Notation restricted := (log_likelihood_restricted cholesky qr solve_lower det).
Notation rvalue := (restricted_value qr solve_lower det).
Notation both := (restricted_and_gradient cholesky qr solve_lower solve_upper cho_solve det).
Notation rentry := (entry solve_upper cho_solve).

Lemma both_inv m noise d par v g : both m noise d par = Value (v, g) ->
  restricted m noise d par = Value v /\ exists e, revaluate m noise d par = Value e /\ restricted_gradient solve_upper cho_solve m d e par = Some g.
Proof.
  unfold restricted_and_gradient, log_likelihood_restricted. destruct (revaluate m noise d par) as [| |e]; cbn [restricted_accept]; try discriminate. destruct (Rlt_dec 0 (ll e 0)); [discriminate|].
  destruct (restricted_gradient solve_upper cho_solve m d e par) as [g'|] eqn:G; [|discriminate]. intros H. injection H as <- <-. split; [reflexivity|]. exists e. auto.
Qed.
Lemma gradient_inv m d e par g : restricted_gradient solve_upper cho_solve m d e par = Some g ->
  targets d = 1%nat /\ length g = length par /\ forall c, (c < length par)%nat -> exists C, nth_error (slices m d e) c = Some C /\ nth c g 0 = rentry d e C.
Proof.
  unfold restricted_gradient. destruct (Nat.eqb_spec (targets d) 1) as [HT|]; [|discriminate].
  set (f := fold_right _ _ _). intros H. assert (H' : f = Some g) by (destruct (kern d); congruence). clear H. split; [exact HT|]. subst f.
  assert (G : forall k b g, fold_right (fun c acc => match nth_error (slices m d e) c, acc with Some C_grad, Some g => Some (rentry d e C_grad :: g) | _, _ => None end) (Some []) (seq b k) = Some g ->
    length g = k /\ forall c, (c < k)%nat -> exists C, nth_error (slices m d e) (b + c) = Some C /\ nth c g 0 = rentry d e C).
  { induction k as [|k IH]; intros b g0 H; cbn [seq fold_right] in H.
    - inversion H. split; [reflexivity|]. intros; lia.
    - destruct (nth_error (slices m d e) b) as [C|] eqn:EC; [|discriminate]. destruct (fold_right _ _ (seq (Datatypes.S b) k)) as [g1|] eqn:E1; [|discriminate]. injection H as <-. destruct (IH _ _ E1) as (L1 & H1). split; [cbn; lia|].
      intros [|c] Hc; [exists C; rewrite Nat.add_0_r; auto|]. destruct (H1 c ltac:(lia)) as (C' & E' & N'). exists C'. replace (b + Datatypes.S c)%nat with (Datatypes.S b + c)%nat by lia. auto. }
  exact (G _ 0%nat g H').
Qed.
Lemma gradient_intro m d e par : targets d = 1%nat -> smooth (kern d) -> (length par <= length (slices m d e))%nat -> exists g, restricted_gradient solve_upper cho_solve m d e par = Some g.
Proof.
  intros HT HK HL. unfold restricted_gradient. rewrite HT. cbn [Nat.eqb].
  assert (G : forall l, (forall c, In c l -> (c < length par)%nat) -> exists g, fold_right (fun c acc => match nth_error (slices m d e) c, acc with Some C_grad, Some g => Some (rentry d e C_grad :: g) | _, _ => None end) (Some []) l = Some g).
  { induction l as [|c l IH]; intros Hl; cbn [fold_right]; [eauto|]. destruct IH as (g & ->); [intros; apply Hl; now right|]. specialize (Hl c (or_introl eq_refl)). destruct (nth_error (slices m d e) c) eqn:E; [eauto|]. apply nth_error_None in E. lia. }
  destruct (G (seq 0 (length par))) as (g & Hg); [intros c Hc; apply in_seq in Hc; lia|]. exists g. destruct HK as [->|[->| ->]]; exact Hg.
Qed.
Lemma slice_feature m d e c : (c < length (nth 0 (X d) []))%nat -> nth_error (slices m d e) c = Some (fun i j => total e 0 * grad_slice d e c i j).
Proof.
  intros H. unfold slices. rewrite nth_error_app1 by (rewrite map_length, seq_length; auto). rewrite nth_error_map. rewrite (nth_error_nth' _ 0%nat) by (rewrite seq_length; auto). rewrite seq_nth by auto. reflexivity.
Qed.
Lemma slice_variance m d e : nth_error (slices m d e) (length (nth 0 (X d) [])) = Some (R0 e).
Proof. unfold slices. rewrite nth_error_app2 by (rewrite map_length, seq_length; auto). rewrite map_length, seq_length, Nat.sub_diag. reflexivity. Qed.

(** The entry of the variance without noise. *)
Lemma entry_variance d ll0 th K a s : proper (length (X d)) (mean d) -> symmetric (length (X d)) K -> compute d K = Some a -> 0 < s ->
  rentry d (Evaluation ll0 th K a (fun _ => s)) K = - (1 / 2) * (INR (length (X d)) / s - sum_sq (length (X d)) (a_rho a) 0 / (s * s) - INR (coefficients_of (mean d))).
Proof.
  intros PR SY C Hs. set (n := length (X d)) in *. destruct (compute_spec _ _ _ _ _ _ LP d PR K a SY C) as (F & CH & _). fold n in F, CH.
  assert (T1 := Rinv_trace _ _ _ _ _ _ LP d K (a_L a) SY F). fold n in T1.
  assert (T2 := gam_form _ _ _ _ _ _ LP d PR K a 0 SY C). fold n in T2.
  assert (E1 : full_sum n (fun i l => cho_solve n (a_L a) eye i l / s * K i l) = INR n / s).
  { rewrite <- T1. unfold full_sum, trace_of, Rdiv. rewrite <- sumn_scal_r. apply sumn_ext. intros i Hi. rewrite <- sumn_scal_r. apply sumn_ext. intros; ring. }
  assert (E2 : full_sum n (fun i l => gam solve_upper d a 0 i / s * K i l * (gam solve_upper d a 0 l / s)) = sum_sq n (a_rho a) 0 / (s * s)).
  { rewrite <- T2. unfold full_sum, form, Rdiv. rewrite <- sumn_scal_r. apply sumn_ext. intros i Hi. rewrite <- sumn_scal_r. apply sumn_ext. intros l Hl. field. lra. }
  assert (HC := C). unfold compute_aux_var in HC. fold n in HC. rewrite CH in HC. unfold proper in PR.
  unfold entry. cbn [aux_of total]. fold n.
  destruct (mean d) as [t|p B] eqn:HM; cbn [coefficients_of].
  - assert (EQ : a_Q a = None) by (injection HC as <-; reflexivity). rewrite EQ. rewrite E1. unfold gam in E2. fold n in E2. rewrite E2. cbn [INR]. lra.
  - set (Q := fst (qr n p (fun i c => solve_lower n (a_L a) (fun k => B k c) i))) in *. assert (EQ : a_Q a = Some (p, Q)) by (injection HC as HC; rewrite <- HC at 1; reflexivity). rewrite EQ. rewrite E1.
    unfold gam in E2. fold n in E2. rewrite E2.
    destruct PR as (Hp & HI). assert (HQ := ft_qr _ _ _ _ _ _ LP d (a_L a) p B (proj1 F) (factor_diag _ _ _ F) HI). destruct HQ as (_ & O & _). change (fst (qr (length (X d)) p (ft solve_lower d (a_L a) B))) with Q in O. fold n in O.
    set (u := fun i c => solve_upper n (fun a0 b => a_L a b a0) (fun k => Q k c) i).
    assert (UO : forall c i, (i < n)%nat -> sumn n (fun k => a_L a k i * u k c) = Q i c).
    { intros c i Hi. apply (upper_solved _ _ _ _ _ _ LP n (fun r s => a_L a s r) (fun k => Q k c) i); auto; [intros r q H; apply F; lia|intros k Hk; apply (factor_diag _ _ _ F); auto]. }
    assert (E3 : full_sum n (fun i l => sumn p (fun c => u i c * u l c) * K i l) = INR p).
    { unfold full_sum. transitivity (sumn p (fun c => 1)); [|rewrite sumn_const; ring].
      transitivity (sumn p (fun c => form n K (fun i => u i c))).
      - unfold form. rewrite (sumn_ext n _ (fun i => sumn p (fun c => sumn n (fun l => u i c * K i l * u l c)))); [apply sumn_swap|]. intros i Hi. rewrite sumn_swap. apply sumn_ext. intros l Hl. rewrite <- sumn_scal_r. apply sumn_ext. intros; ring.
      - apply sumn_ext. intros c Hc. transitivity (sumn n (fun i => Q i c * Q i c)); [|rewrite O by auto; unfold identity; now rewrite Nat.eqb_refl].
        unfold form. destruct F as (_ & _ & EK).
        rewrite (sumn_ext n _ (fun i => sumn n (fun r => u i c * a_L a i r * Q r c))).
        + rewrite sumn_swap. apply sumn_ext. intros r Hr. rewrite sumn_scal_r. f_equal. etransitivity; [|exact (UO c r Hr)]. apply sumn_ext. intros; ring.
        + intros i Hi. rewrite (sumn_ext n _ (fun l => sumn n (fun r => u i c * a_L a i r * (a_L a l r * u l c)))).
          * rewrite sumn_swap. apply sumn_ext. intros r Hr. rewrite sumn_scal. rewrite UO by auto. reflexivity.
          * intros l Hl. rewrite <- EK by auto. rewrite <- sumn_scal, <- sumn_scal_r. apply sumn_ext. intros; ring. }
    unfold u in E3. rewrite E3. lra.
Qed.
(** The derivative of the value in the variance. *)
Lemma value_variance d a s : targets d = 1%nat -> proper (length (X d)) (mean d) -> 0 < s ->
  is_derive (fun t => rvalue d t a) s (- (1 / 2) * (INR (length (X d) - coefficients_of (mean d)) / s - sum_sq (length (X d)) (a_rho a) 0 / (s * s))).
Proof.
  intros HT PR Hs. set (n := length (X d)) in *. assert (SQ : sumn n (fun i => a_rho a i 0%nat * a_rho a i 0%nat) = sum_sq n (a_rho a) 0) by (apply sumn_ext; intros; ring). unfold restricted_value. fold n. rewrite HT. pose proof PI_RGT_0.
  destruct (mean d) as [t|p B]; cbn [coefficients_of].
  - apply (is_derive_ext (fun t => - (1 / 2) * (INR n * ln (2 * PI * t) - log_det n (a_L a) + sum_sq n (a_rho a) 0 / t))); [intros u; rewrite !sumn_1, SQ; reflexivity|].
    rewrite Nat.sub_0_r. set (l := log_det n (a_L a)). set (q := sum_sq n (a_rho a) 0). auto_derive; [repeat split; try lra; apply Rmult_lt_0_compat; lra|]. field. split; lra.
  - set (k := INR (n - p)). set (l := log_det n (a_L a)). set (q := sum_sq n (a_rho a) 0) in *. set (r1 := ln (det p _)). set (r2 := ln (prod_diag _ _ ^ 2)).
    apply (is_derive_ext (fun t => - (1 / 2) * (k * ln (2 * PI * t) - r1 + l + r2 + q / t))); [intros u; rewrite !sumn_1, SQ; reflexivity|].
    auto_derive; [repeat split; try lra; apply Rmult_lt_0_compat; lra|]. field. split; lra.
Qed.
Lemma variance_along noise d nf par v g : rectangular (X d) nf -> X d <> [] -> proper (length (X d)) (mean d) -> length par = Datatypes.S nf ->
  both Noiseless noise d par = Value (v, g) -> v < 0 ->
  length g = length par /\ 0 < last par 0 /\ exists h, is_derive h (nth nf par 0) (nth nf g 0 + INR (coefficients_of (mean d)) / 2 * (/ nth nf par 0 - 1)) /\
    locally (nth nf par 0) (fun t => finite (restricted Noiseless noise d (set_coord par nf t)) = Some (h t)).
Proof.
  intros HX NE PR LN H NV. destruct (both_inv _ _ _ _ _ _ H) as (HV & e & E & G). destruct (gradient_inv _ _ _ _ _ G) as (HT & LG & HG). split; [exact LG|].
  destruct (par_split par nf LN) as (EP & LT). pose proof (restricted_inv _ _ _ _ _ _ _ _ _ HV) as I. cbn [parameters] in I. destruct I as (K & a & EK & Hs & C & V & _ & E'). rewrite Rplus_0_r in *. split; [exact Hs|].
  set (th := removelast par) in *. set (s := last par 0) in *. assert (PN : nth nf par 0 = s) by (rewrite EP, app_nth2, LT, Nat.sub_diag by lia; reflexivity). rewrite PN.
  rewrite scaled_zero in C by auto. assert (SY := correlation_sym _ _ _ _ EK).
  assert (NF : length (nth 0 (X d) []) = nf) by (unfold rectangular in HX; destruct (X d) as [|r X']; [congruence|]; now inversion HX).
  destruct (HG nf ltac:(lia)) as (C0 & S0 & N0). rewrite <- NF in S0. rewrite slice_variance in S0. rewrite E in E'. injection E' as ->. injection S0 as <-. cbn [R0] in N0. rewrite N0.
  rewrite (entry_variance d _ th K a s PR SY C Hs).
  exists (fun t => rvalue d t a). split.
  - evar_last; [exact (value_variance d a s HT PR Hs)|]. unfold proper in PR. rewrite minus_INR by (destruct (mean d); cbn [coefficients_of]; [lia|tauto]). field. lra.
  - assert (L1 : locally s (fun t => 0 < t)) by (apply (locally_pos (fun t => t)); auto; auto_derive; auto).
    assert (L2 : locally s (fun t => 0 < - rvalue d t a)) by (apply (locally_pos (fun t => - rvalue d t a)); [apply @ex_derive_opp; eexists; exact (value_variance d a s HT PR Hs)|lra]).
    generalize (filter_and _ _ L1 L2). apply filter_imp. intros t (P1 & P2). assert (EC : set_coord par nf t = th ++ [t]) by (rewrite EP, <- LT; apply set_coord_app_r). rewrite EC.
    destruct (restricted_intro cholesky qr solve_lower det Noiseless noise d (th ++ [t]) th t 0 K a) as (R1 & _); auto.
    + cbn [parameters]. rewrite removelast_last, last_last. reflexivity.
    + lra.
    + now rewrite scaled_zero.
    + rewrite Rplus_0_r. lra.
    + rewrite R1, Rplus_0_r. reflexivity.
Qed.
End Oracles.
