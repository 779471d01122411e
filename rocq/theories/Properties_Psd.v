(** Positive definiteness of correlation matrices, and when their Cholesky factorisation succeeds: C275 - C279. *)
From Coq Require Import Reals Lra Lia List Arith.
From Verif Require Import Lib_Sum Lib_Chol Lib_Lapack Spec_Psd Lib_Psd Model_Kernel Spec_Kernel Properties_Kernel Model_Likelihood Spec_Likelihood Proofs_Psd.
Import ListNotations.
Open Scope R_scope.

(** ** C275: the correlation matrix of the squared exponential, the absolute exponential and the Matern function *)
(** For any points, no linear combination of the values has a negative variance. *)
Theorem C275_semidefinite k theta X m M : k = SqExp \/ k = AbsExp \/ k = Matern -> positive theta -> rectangular X m ->
  correlation_matrix k theta X = Some M -> semidefinite (length X) M.
Proof. apply correlation_semi. Qed.
Print Assumptions C275_semidefinite.
(** For points that are pairwise different, every nonzero combination has a positive variance. *)
Theorem C275_definite k theta X m M : k = SqExp \/ k = AbsExp \/ k = Matern -> positive theta -> rectangular X m -> NoDup X ->
  correlation_matrix k theta X = Some M -> definite (length X) M.
Proof. apply correlation_definite. Qed.
Print Assumptions C275_definite.
Example C275_case : positive [1; 2] /\ rectangular [[0; 0]; [1; 0]; [0; 3]] 2 /\ NoDup [[0; 0]; [1; 0]; [0; 3]] /\
  forall k, k = SqExp \/ k = AbsExp \/ k = Matern -> exists M, correlation_matrix k [1; 2] [[0; 0]; [1; 0]; [0; 3]] = Some M /\ 0 < form 3 M (fun i => nth i [1; -1; 1] 0).
Proof.
  assert (P : positive [1; 2]) by (repeat constructor; lra).
  assert (RX : rectangular [[0; 0]; [1; 0]; [0; 3]] 2) by (repeat constructor).
  assert (ND : NoDup [[0; 0]; [1; 0]; [0; 3]]).
  { repeat constructor; cbn; intros H; repeat (destruct H as [H|H]; [injection H; intros; lra|]); exact H. }
  repeat split; auto. intros k Hk.
  destruct (C62_defined k [1; 2] [[0; 0]; [1; 0]; [0; 3]] 2 RX) as (M & E); [destruct Hk as [-> | [-> | ->]]; right; reflexivity|]. exists M. split; auto.
  apply (C275_definite k [1; 2] _ 2 M Hk P RX ND E). exists O. split; [cbn; lia|exact R1_neq_R0].
Qed.

(** ** C276: the generalized exponential function *)
(** With an exponent of at most two the matrix is positive semi-definite, in any number of dimensions. *)
Theorem C276_generalized theta X m M : positive theta -> last theta 0 <= 2 -> rectangular X m ->
  correlation_matrix GenExp theta X = Some M -> semidefinite (length X) M.
Proof. apply generalized_correlation_semi. Qed.
Print Assumptions C276_generalized.
(** Two is the largest such exponent: beyond it there are three points on a line for which the matrix is not. *)
Theorem C276_sharp p : 2 < p -> exists theta X M, positive theta /\ last theta 0 = p /\ rectangular X 1 /\
  correlation_matrix GenExp theta X = Some M /\ ~ semidefinite (length X) M.
Proof.
  intros P. destruct (generalized_sharp p P) as (t & M & T & E & N). exists [t; p], [[0]; [1]; [2]], M. repeat split; auto; repeat constructor; lra.
Qed.
Print Assumptions C276_sharp.
Example C276_case : positive [1; 2; 3 / 2] /\ last [1; 2; 3 / 2] 0 <= 2 /\ rectangular [[0; 0]; [1; 0]; [0; 3]] 2 /\
  exists M, correlation_matrix GenExp [1; 2; 3 / 2] [[0; 0]; [1; 0]; [0; 3]] = Some M.
Proof. split; [repeat constructor; lra|]. split; [cbn; lra|]. split; [repeat constructor|]. apply (C62_defined GenExp _ _ 2); [repeat constructor|reflexivity]. Qed.

(** ** C277: every correlation function on offer *)
(** The cubic function: seven points on a line, at the distance 1 with theta = 1/5. *)
Theorem C277_cubic_refuted : exists theta X M c, positive theta /\ rectangular X 1 /\ NoDup X /\ correlation_matrix Cubic theta X = Some M /\ form (length X) M c < 0.
Proof.
  destruct (C62_defined Cubic [/ 5] seven 1) as (M & E); [repeat constructor|left; reflexivity|]. exists [/ 5], seven, M, witness.
  assert (ND : NoDup seven).
  { unfold seven. repeat constructor; cbn; intros H; repeat (destruct H as [H|H]; [injection H; intros; lra|]); exact H. }
  repeat split; auto; try (repeat constructor; lra). cbn [length seven]. rewrite (seven_form M E). lra.
Qed.
Print Assumptions C277_cubic_refuted.
(** All others, with an exponent of at most two for the generalized exponential function. *)
Theorem C277_others_partial k theta X m M : k <> Cubic -> (k = GenExp -> last theta 0 <= 2) -> positive theta -> rectangular X m ->
  correlation_matrix k theta X = Some M -> semidefinite (length X) M.
Proof.
  intros NC L P RX E. destruct k; try congruence.
  - apply (C275_semidefinite AbsExp theta X m); auto.
  - apply (C275_semidefinite SqExp theta X m); auto.
  - apply (C276_generalized theta X m); auto.
  - apply (C275_semidefinite Matern theta X m); auto.
Qed.
Print Assumptions C277_others_partial.

Section Likelihood.
(** Any linear algebra routines that satisfy their contracts. *)
Variable cholesky : nat -> matrix -> option matrix.
Variable qr : nat -> nat -> matrix -> matrix * matrix.
Variable solve_lower : nat -> matrix -> (nat -> R) -> nat -> R.
Variable solve_upper : nat -> matrix -> (nat -> R) -> nat -> R.
Variable cho_solve : nat -> matrix -> matrix -> matrix.
Variable matrix_rank : nat -> matrix -> nat.
Hypothesis LP : lapack cholesky qr solve_lower solve_upper cho_solve matrix_rank.
Notation evaluate := (evaluate cholesky qr solve_lower matrix_rank).
Notation log_likelihood := (log_likelihood cholesky qr solve_lower matrix_rank).
Notation compute_aux_var := (compute_aux_var cholesky qr solve_lower).

Lemma corr_symmetric k theta Y M : correlation_matrix k theta Y = Some M -> symmetric (length Y) M.
Proof. intros E i j Hi Hj. apply (C62_correlation_matrix _ _ _ _ E i j Hi Hj). Qed.

(** ** C278: when the likelihood can be computed *)
(** A fixed positive variance of the noise: the factorisation never fails, whatever the points (also repeated ones). *)
Theorem C278_noisy noise d m par M : kern d = SqExp \/ kern d = AbsExp \/ kern d = Matern -> rectangular (X d) m ->
  positive (removelast par) -> 0 <= last par 0 -> 0 < noise -> correlation_matrix (kern d) (removelast par) (X d) = Some M ->
  exists e, evaluate Noisy noise d par = Value (Some e).
Proof.
  intros SK RX P S N E. unfold Model_Likelihood.evaluate. rewrite E.
  destruct (aux_found _ _ _ _ _ _ d (fun i j => (last par 0 * M i j + noise * eye i j) / (last par 0 + noise)) LP) as (a & ->); [| |eauto].
  - intros i j Hi Hj. rewrite (corr_symmetric _ _ _ _ E i j Hi Hj). unfold eye. rewrite (Nat.eqb_sym i j). reflexivity.
  - apply (Lib_Definite.definite_ext _ (fun i j => last par 0 / (last par 0 + noise) * M i j + noise / (last par 0 + noise) * identity i j)).
    + intros i j _ _. change (eye i j) with (identity i j). field. lra.
    + apply regularised; [apply (C275_semidefinite (kern d) (removelast par) (X d) m M SK P RX E)| |].
      * apply Rmult_le_pos; [lra|]. left. apply Rinv_0_lt_compat. lra.
      * apply Rdiv_lt_0_compat; lra.
Qed.
(** The variance of the noise estimated, a share alpha of the total below one for the process: it fails only if the trend fits
    one of the targets exactly. *)
Theorem C278_noise_estimated noise d m par M : kern d = SqExp \/ kern d = AbsExp \/ kern d = Matern -> rectangular (X d) m ->
  positive (removelast par) -> 0 <= last par 0 < 1 -> correlation_matrix (kern d) (removelast par) (X d) = Some M ->
  exists a, compute_aux_var d (fun i j => last par 0 * M i j + (1 - last par 0) * eye i j) = Some a /\
    ((forall j, (j < targets d)%nat -> sum_sq (length (X d)) (a_rho a) j <> 0) -> X d <> [] -> exists e, evaluate NoiseEstim noise d par = Value (Some e)).
Proof.
  intros SK RX P S E. unfold Model_Likelihood.evaluate. rewrite E.
  destruct (aux_found _ _ _ _ _ _ d (fun i j => last par 0 * M i j + (1 - last par 0) * eye i j) LP) as (a & A).
  - intros i j Hi Hj. rewrite (corr_symmetric _ _ _ _ E i j Hi Hj). unfold eye. rewrite (Nat.eqb_sym i j). reflexivity.
  - apply (regularised (length (X d)) M); [apply (C275_semidefinite (kern d) (removelast par) (X d) m M SK P RX E)|lra|lra].
  - exists a. split; auto. intros NZ NE. rewrite A. destruct (existsb _ _) eqn:Z; [|eauto]. exfalso. apply existsb_exists in Z as (j & Hj & Z). apply in_seq in Hj.
    destruct (Req_EM_T (sum_sq (length (X d)) (a_rho a) j / INR (length (X d))) 0) as [Q|]; [|discriminate]. apply (NZ j); [lia|].
    assert (0 < INR (length (X d))) by (apply lt_0_INR; destruct (X d); [congruence|cbn; lia]).
    unfold Rdiv in Q. apply Rmult_integral in Q as [Q|Q]; auto. exfalso. revert Q. apply Rgt_not_eq, Rinv_0_lt_compat. lra.
Qed.
(** No noise: it succeeds for points that are pairwise different. *)
Theorem C278_noiseless d m par M : kern d = SqExp \/ kern d = AbsExp \/ kern d = Matern -> rectangular (X d) m ->
  positive par -> NoDup (X d) -> correlation_matrix (kern d) par (X d) = Some M -> exists a, compute_aux_var d M = Some a.
Proof.
  intros SK RX P ND E. apply (aux_found _ _ _ solve_upper cho_solve matrix_rank d M LP); [apply (corr_symmetric _ _ _ _ E)|].
  apply (C275_definite (kern d) par (X d) m M SK P RX ND E).
Qed.

(** ** C279: without noise a repeated point makes every parameter infeasible *)
Theorem C279_repeated noise d m par : rectangular (X d) m -> ~ NoDup (X d) -> positive par ->
  log_likelihood Noiseless noise d par = MinusInf \/ log_likelihood Noiseless noise d par = Fails.
Proof.
  intros RX ND P. unfold Model_Likelihood.log_likelihood, Model_Likelihood.evaluate. destruct (correlation_matrix (kern d) par (X d)) as [M|] eqn:E; [left|now right].
  destruct (compute_aux_var d M) as [a|] eqn:A; [|reflexivity]. exfalso.
  destruct (aux_factor _ _ _ _ _ _ d M a LP (corr_symmetric _ _ _ _ E) A) as (L & F). apply ND. rewrite NoDup_nth with (d := []). intros i j Hi Hj Q.
  destruct (Nat.eq_dec i j) as [|N]; auto. exfalso.
  destruct (C62_correlation_matrix _ _ _ _ E i j Hi Hj) as (SY & D1 & O). destruct (C62_correlation_matrix _ _ _ _ E j i Hj Hi) as (_ & D2 & _).
  assert (V : M i j = 1).
  { apply (C62_zero_distance (kern d) par _ _ P) in O; auto. rewrite Q. clear. induction (nth j (X d) []); cbn; constructor; auto. unfold Rminus. rewrite Rplus_opp_r. apply Rabs_R0. }
  apply (equal_rows _ M L i j F); congruence.
Qed.
(** An exception is raised only by parameters whose number does not fit the points. *)
Theorem C279_no_exception noise d m par : rectangular (X d) m -> ~ NoDup (X d) -> positive par ->
  (match kern d with GenExp => length par = S m | _ => accepted par m end) -> log_likelihood Noiseless noise d par = MinusInf.
Proof.
  intros RX ND P A. destruct (C279_repeated noise d m par RX ND P) as [H|H]; auto. exfalso.
  destruct (C62_defined (kern d) par (X d) m RX A) as (M & E). unfold Model_Likelihood.log_likelihood, Model_Likelihood.evaluate in H. rewrite E in H.
  destruct (accept d _) eqn:Q in H; try discriminate. cbn [accept] in Q. destruct (match compute_aux_var d M with Some _ => _ | None => _ end) as [e|]; [destruct (existsb _ _)|]; discriminate.
Qed.

(** With the cubic function the factorisation can fail although the points differ and there is noise. *)
Theorem C277_likelihood_refuted : exists d par noise, kern d = Cubic /\ rectangular (X d) 1 /\ NoDup (X d) /\ positive par /\ accepted (removelast par) 1 /\ 0 < noise /\
  log_likelihood Noisy noise d par = MinusInf.
Proof.
  exists (Data seven 1 (fun i _ => INR i) (Known (fun _ => 0)) Cubic), [/ 5; 1], (/ 1000000).
  assert (ND : NoDup seven).
  { unfold seven. repeat constructor; cbn; intros H; repeat (destruct H as [H|H]; [injection H; intros; lra|]); exact H. }
  destruct (C62_defined Cubic [/ 5] seven 1) as (M & E); [repeat constructor|left; reflexivity|].
  split; [reflexivity|]. split; [repeat constructor|]. split; [exact ND|]. split; [repeat constructor; lra|]. split; [left; reflexivity|]. split; [lra|].
  set (d := Data seven 1 (fun i _ => INR i) (Known (fun _ => 0)) Cubic).
  unfold Model_Likelihood.log_likelihood, Model_Likelihood.evaluate. change (correlation_matrix (kern d) (removelast [/ 5; 1]) (X d)) with (correlation_matrix Cubic [/ 5] seven). rewrite E.
  set (A := fun i j => (last [/ 5; 1] 0 * M i j + / 1000000 * eye i j) / (last [/ 5; 1] 0 + / 1000000)).
  change (last [/ 5; 1] 0) with 1 in A. change (last [/ 5; 1] 0) with 1.
  destruct (compute_aux_var d A) as [a|] eqn:Q; [|reflexivity]. exfalso.
  assert (SY : symmetric (length (X d)) A).
  { intros i j Hi Hj. unfold A. rewrite (corr_symmetric _ _ _ _ E i j Hi Hj). unfold eye. rewrite (Nat.eqb_sym i j). reflexivity. }
  destruct (aux_factor _ _ _ _ _ _ d A a LP SY Q) as (L & F). pose proof (factor_semi _ _ _ F witness) as PS. change (length (X d)) with 7%nat in PS.
  rewrite (form_ext 7 A (fun i j => / (1 + / 1000000) * M i j + / 1000000 / (1 + / 1000000) * identity i j) witness) in PS by (intros i j _ _; unfold A; change (eye i j) with (identity i j); field; lra).
  rewrite form_plus, !form_scal, form_identity, (seven_form M E), seven_squares in PS.
  assert (B : 0 < / (1 + / 1000000)) by (apply Rinv_0_lt_compat; lra). unfold Rdiv in PS. nra.
Qed.
End Likelihood.
Print Assumptions C278_noisy.
Print Assumptions C278_noise_estimated.
Print Assumptions C278_noiseless.
Print Assumptions C279_repeated.
Print Assumptions C279_no_exception.
Print Assumptions C277_likelihood_refuted.

(** Data of four points in the plane, two of them equal, with routines that meet the contracts. *)
Definition repeated_data : data := Data [[0; 0]; [1; 0]; [0; 3]; [1; 0]] 1 (fun i _ => INR i) (Known (fun _ => 0)) Matern.
Example C278_case : exists e, evaluate my_cholesky my_qr my_lower my_rank Noisy (/ 1000000) repeated_data [1; 2; 5] = Value (Some e).
Proof.
  destruct (C62_defined Matern [1; 2] (X repeated_data) 2) as (M & E); [repeat constructor|right; reflexivity|].
  apply (C278_noisy _ _ _ _ _ _ lapack_exists _ repeated_data 2 _ M); auto; try lra; try (cbn; lra); repeat constructor; lra.
Qed.
Example C279_case : log_likelihood my_cholesky my_qr my_lower my_rank Noiseless 0 repeated_data [1; 2] = MinusInf.
Proof.
  apply (C279_no_exception _ _ _ _ _ _ lapack_exists 0 repeated_data 2); [repeat constructor| |repeat constructor; lra|right; reflexivity].
  intros ND. inversion ND as [|? ? _ ND']. inversion ND' as [|? ? NI _]. apply NI. right. left. reflexivity.
Qed.
