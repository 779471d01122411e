(** Assembling the gradients; the cases of two observations. *)
From Coq Require Import Reals List Arith Lia Lra Bool.
From Coquelicot Require Import Coquelicot.
From Verif Require Import Lib_Sum Lib_Chol Lib_GLS Model_Kernel Spec_Kernel Proofs_Kernel Properties_Kernel Model_Likelihood Spec_Likelihood Proofs_Likelihood Proofs_LikelihoodGrad Proofs_LikelihoodModes Proofs_LikelihoodParts Proofs_LikelihoodTwo.
Import ListNotations.
Open Scope R_scope.

Section Oracles.
Variable cholesky : nat -> matrix -> option matrix.
Variable qr : nat -> nat -> matrix -> matrix * matrix.
Variable solve_lower : nat -> matrix -> (nat -> R) -> nat -> R.
Variable solve_upper : nat -> matrix -> (nat -> R) -> nat -> R.
Variable cho_solve : nat -> matrix -> matrix -> matrix.
Variable matrix_rank : nat -> matrix -> nat.
Hypothesis LP : lapack cholesky qr solve_lower solve_upper cho_solve matrix_rank.
Notation compute := (compute_aux_var cholesky qr solve_lower).
Notation evaluate := (evaluate cholesky qr solve_lower matrix_rank).
Notation log_likelihood := (log_likelihood cholesky qr solve_lower matrix_rank).
Notation likelihood_and_gradient := (likelihood_and_gradient cholesky qr solve_lower solve_upper cho_solve matrix_rank).
Notation derivative_along := (derivative_along cholesky qr solve_lower matrix_rank).
Notation Rinv d e := (cho_solve (length (X d)) (a_L (aux_of e)) eye).

Lemma along_unique d noise m par c D D' : derivative_along d noise m par c D -> derivative_along d noise m par c D' -> D = D'.
Proof.
  intros (h & Dh & Lh) (h' & Dh' & Lh'). rewrite <- (is_derive_unique _ _ _ Dh), <- (is_derive_unique _ _ _ Dh'). apply Derive_ext_loc.
  generalize (filter_and _ _ Lh Lh'). apply filter_imp. intros t (E & E'). congruence.
Qed.
Lemma gradient_along d noise m par g : has_gradient (fun p => finite (log_likelihood m noise d p)) par g <->
  length g = length par /\ forall c, (c < length par)%nat -> derivative_along d noise m par c (nth c g 0).
Proof. reflexivity. Qed.
(** The terms of the targets do not depend on each other. *)
Lemma single_compute d j A : compute (single d j) A = match compute d A with Some a => Some (Aux (a_L a) (fun i _ => a_rho a i j) (a_Q a)) | None => None end.
Proof. unfold compute_aux_var, single. cbn [X y mean]. destruct (cholesky _ _); auto. destruct (mean d); reflexivity. Qed.
Lemma single_ll d noise m par e j w : evaluate m noise d par = Value (Some e) -> log_likelihood m noise (single d j) par = Value w -> w = ll e j.
Proof.
  intros E H. unfold Model_Likelihood.log_likelihood in H. destruct (accept _ _) as [| |e'] eqn:HA; try discriminate. assert (HW : ll e' 0%nat = w) by (inversion H; symmetry; apply sumn_1). clear H.
  destruct (evaluate m noise (single d j) par) as [| |[e''|]] eqn:E'; try discriminate. cbn [accept] in HA. destruct (existsb _ _); [discriminate|]. inversion HA. subst e''. clear HA.
  rewrite <- HW. unfold Model_Likelihood.evaluate in E, E'. cbn [single X kern] in E'. destruct (correlation_matrix (kern d) _ (X d)) as [M|]; [|discriminate].
  destruct m; rewrite single_compute in E'; destruct (compute d _) as [a|]; try discriminate; cbn [a_Q a_L a_rho targets single] in E'.
  - destruct (_ || _)%bool; [discriminate|]. destruct (_ || _)%bool; [discriminate|]. inversion E. inversion E'. reflexivity.
  - destruct (existsb _ _); [discriminate|]. destruct (existsb _ _); [discriminate|]. inversion E. inversion E'. reflexivity.
  - inversion E. inversion E'. reflexivity.
Qed.
Lemma par_split par k : length par = Datatypes.S k -> par = removelast par ++ [last par 0] /\ length (removelast par) = k.
Proof.
  intros H. assert (N : par <> []) by (destruct par; [discriminate|congruence]). assert (E := app_removelast_last 0 N). split; auto. rewrite E in H. rewrite app_length in H. cbn in H. lia.
Qed.

(** Two observations, no noise. *)
Section Noiseless.
Variables (T : nat) (ys : matrix) (m : trend).
Hypothesis (PM : proper 2 m) (CM : (coefficients_of m < 2)%nat).
Notation dd := (two T ys m).
Notation k := (INR (2 - coefficients_of m)).
Definition two_value (t : R) : R := - (1 / 2) * (2 * ln (2 * PI * t) + ln (1 - q0 * q0) + 2).
Lemma two_noiseless : exists a M,
  is_two M q0 /\ compute dd M = Some a /\
  (forall j, exists b, gam solve_upper dd a j 0%nat = (res dd j b 0 - q0 * res dd j b 1) / (1 - q0 * q0) /\ gam solve_upper dd a j 1%nat = (res dd j b 1 - q0 * res dd j b 0) / (1 - q0 * q0) /\
    sum_sq 2 (a_rho a) j = two_form q0 (res dd j b) /\ forall b', two_form q0 (res dd j b) <= two_form q0 (res dd j b')) /\
  cho_solve 2 (a_L a) eye 0%nat 1%nat = - q0 / (1 - q0 * q0) /\ cho_solve 2 (a_L a) eye 1%nat 0%nat = - q0 / (1 - q0 * q0) /\
  log_det 2 (a_L a) = ln (1 - q0 * q0) /\
  ((forall j, (j < T)%nat -> sum_sq 2 (a_rho a) j <> 0) ->
   exists e, evaluate Noiseless 0 dd [1] = Value (Some e) /\ theta e = [1] /\ R0 e = M /\ aux_of e = a /\ forall j, total e j = sum_sq 2 (a_rho a) j / k /\ ll e j = two_value (total e j)).
Proof.
  destruct two_correlation as (M & EM & HM). pose proof q0_range as Q. destruct (two_aux _ _ _ _ _ _ LP dd eq_refl PM M q0 ltac:(lra) HM) as (a & C & LD & R01 & R10 & G).
  exists a, M. split; auto. split; auto. split; [exact G|]. split; auto. split; auto. split; auto. intros HS.
  unfold Model_Likelihood.evaluate. cbn [X kern two length]. rewrite EM. change (Data [[0]; [1]] T ys m SqExp) with dd. rewrite C.
  assert (RK := rank_k _ _ _ _ _ _ LP dd PM M a (two_symmetric M q0 HM) C). cbn [length X two] in RK. rewrite RK. cbn [mean two].
  assert (KP : 0 < k) by (apply lt_0_INR; lia).
  replace (_ || _)%bool with false.
  - eexists. split; [reflexivity|]. cbn [theta R0 aux_of total ll]. do 3 (split; [reflexivity|]). intros j. split; [reflexivity|]. unfold two_value. rewrite LD. cbn [INR]. reflexivity.
  - symmetry. apply orb_false_intro; [apply Nat.eqb_neq; lia|]. apply nonzero_some. cbn [targets two]. intros j Hj. specialize (HS j Hj). intros Z. apply HS.
    unfold Rdiv in Z. apply Rmult_integral in Z as [Z|Z]; auto. pose proof (Rinv_0_lt_compat _ KP). lra.
Qed.
Lemma two_value_neg t : 1 / 4 <= t -> two_value t < 0.
Proof.
  intros Ht. unfold two_value. pose proof q0_range. pose proof PI_3. assert (0 <= 2 * ln (2 * PI * t) + ln (1 - q0 * q0)); [|lra].
  assert (3 / 2 <= 2 * PI * t) by nra. assert (3 / 4 <= 1 - q0 * q0) by nra. apply ln_pair; nra.
Qed.
End Noiseless.
Lemma known_zero_two T ys b j i : res (two T ys (Known (fun _ => 0))) j b i = ys i j.
Proof. unfold res. cbn. ring. Qed.
Lemma gradient_two T ys m e j c0 : theta e = [1] -> is_two (R0 e) q0 -> form 2 (fun i l => c0 * grad_slice (two T ys m) e 0 i l) (gam solve_upper (two T ys m) (aux_of e) j)
  = c0 * (-2 * q0 * (gam solve_upper (two T ys m) (aux_of e) j 0%nat * gam solve_upper (two T ys m) (aux_of e) j 1%nat)).
Proof. intros ET HM. rewrite form_scal. destruct (two_slice T ys m e ET HM) as (S1 & S2 & S3 & S4). rewrite form_two by auto. rewrite S1, S2. ring. Qed.
Lemma trace_slice_two T ys m e : theta e = [1] -> is_two (R0 e) q0 -> cho_solve 2 (a_L (aux_of e)) eye 0%nat 1%nat = - q0 / (1 - q0 * q0) -> cho_solve 2 (a_L (aux_of e)) eye 1%nat 0%nat = - q0 / (1 - q0 * q0) ->
  trace_of 2 (cho_solve 2 (a_L (aux_of e)) eye) (grad_slice (two T ys m) e 0) = 2 * (q0 * q0) / (1 - q0 * q0).
Proof. intros ET HM H1 H2. destruct (two_slice T ys m e ET HM) as (S1 & S2 & S3 & S4). rewrite trace_two by auto. rewrite S1, S2, H1, H2. pose proof q0_range. field. nra. Qed.
End Oracles.
