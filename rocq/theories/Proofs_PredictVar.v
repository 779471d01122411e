(** Lemmas about the predictive variance. *)
From Coq Require Import Reals Lra Lia List Arith Bool Permutation.
From Verif Require Import Lib_Sum Lib_Chol Lib_GLS Lib_Lapack Spec_Psd Lib_Psd Model_Kernel Spec_Kernel Proofs_Kernel Properties_Kernel Model_PriorCov Properties_PriorCov
  Model_Likelihood Spec_Likelihood Proofs_Psd Model_PredictVar Spec_PredictVar.
Import ListNotations.
Open Scope R_scope.

(** ** A triangular factor and a right-hand side *)
Section Factor.
Variables (n : nat) (A L : nat -> nat -> R) (r rt : nat -> R).
Hypothesis (HF : factor n A L) (HR : forall i, (i < n)%nat -> sumn n (fun k => L i k * rt k) = r i).
Definition lifted (w : nat -> R) (k : nat) : R := sumn n (fun i => w i * L i k).
Lemma lifted_cross w : sumn n (fun i => w i * r i) = sumn n (fun k => lifted w k * rt k).
Proof.
  unfold lifted. rewrite (sumn_ext n (fun i => w i * r i) (fun i => sumn n (fun k => w i * L i k * rt k))).
  - rewrite sumn_swap. apply sumn_ext. intros k _. now rewrite sumn_scal_r.
  - intros i Hi. rewrite <- HR by auto. rewrite <- sumn_scal. apply sumn_ext. intros; ring.
Qed.
Lemma completed w : 1 - 2 * sumn n (fun i => w i * r i) + form n A w =
  1 - sumn n (fun k => rt k * rt k) + sumn n (fun k => (lifted w k - rt k) * (lifted w k - rt k)).
Proof.
  rewrite lifted_cross, (factor_form n A L w HF). fold (lifted w).
  rewrite (sumn_ext n (fun k => (lifted w k - rt k) * (lifted w k - rt k)) (fun k => lifted w k * lifted w k + rt k * rt k + -2 * (lifted w k * rt k))) by (intros; ring).
  rewrite !sumn_plus, sumn_scal. unfold lifted. lra.
Qed.
Lemma lifted_onto t : exists w, forall k, (k < n)%nat -> lifted w k = t k.
Proof.
  destruct HF as (LO & DI & _). destruct (upper_solve (fun a b => L b a) n t) as (w & W).
  - intros a b H. apply LO. lia.
  - intros a Ha. specialize (DI a Ha). lra.
  - exists w. intros k Hk. rewrite <- (W k Hk). apply sumn_ext. intros; ring.
Qed.
(** With a unit diagonal, a right-hand side that is one at i has a solution of norm at least one. *)
Lemma unit_norm i : (i < n)%nat -> A i i = 1 -> r i = 1 -> 1 <= sumn n (fun k => rt k * rt k).
Proof.
  intros Hi EA ER. pose proof (HR i Hi) as H1. destruct HF as (_ & _ & EQ). pose proof (EQ i i Hi Hi) as H2.
  assert (P : 0 <= sumn n (fun k => (rt k - L i k) * (rt k - L i k))) by (apply sumn_nonneg; intros; apply Rle_0_sqr).
  rewrite (sumn_ext n _ (fun k => rt k * rt k + L i k * L i k + -2 * (L i k * rt k))) in P by (intros; ring). rewrite !sumn_plus, sumn_scal in P. lra.
Qed.
(** If the right-hand side is a column of A, the solution is the row of L. *)
Lemma column_norm i : (i < n)%nat -> (forall k, (k < n)%nat -> r k = A k i) -> forall k, (k < n)%nat -> rt k = L i k.
Proof.
  intros Hi E. destruct HF as (LO & DI & EQ). intros k Hk.
  assert (NZ : forall a, (a < n)%nat -> L a a <> 0) by (intros a Ha; specialize (DI a Ha); lra).
  rewrite <- (fsub_unique n L r rt LO NZ HR n (le_n n) k Hk). apply (fsub_unique n L r (L i) LO NZ); auto.
  intros a Ha. rewrite E by auto. rewrite <- (EQ a i Ha Hi). reflexivity.
Qed.
(** The trend: the part of a vector in the space of the columns of Q. *)
Section Trend.
Variables (p : nat) (F Ft Q G : nat -> nat -> R) (b u : nat -> R).
Hypothesis (HFt : forall i c, (i < n)%nat -> (c < p)%nat -> sumn n (fun k => L i k * Ft k c) = F i c).
Hypothesis (HQ : is_qr n p Ft Q G) (HG : forall a, (a < p)%nat -> G a a <> 0).
Hypothesis (HU : forall c, (c < p)%nat -> sumn p (fun a => G a c * u a) = sumn n (fun i => Ft i c * rt i) - b c).
Lemma lifted_trend w c : (c < p)%nat -> sumn n (fun i => w i * F i c) = sumn n (fun k => Ft k c * lifted w k).
Proof.
  intros Hc. rewrite (sumn_ext n (fun i => w i * F i c) (fun i => sumn n (fun k => Ft k c * (w i * L i k)))).
  - rewrite sumn_swap. apply sumn_ext. intros k _. unfold lifted. now rewrite sumn_scal.
  - intros i Hi. rewrite <- HFt by auto. rewrite <- sumn_scal. apply sumn_ext. intros; ring.
Qed.
Lemma Ft_dot (z : nat -> R) c : (c < p)%nat -> sumn n (fun k => Ft k c * z k) = sumn p (fun a => G a c * sumn n (fun k => Q k a * z k)).
Proof.
  intros Hc. destruct HQ as (QG & _ & _). rewrite (sumn_ext n _ (fun k => sumn p (fun a => G a c * (Q k a * z k)))).
  - rewrite sumn_swap. apply sumn_ext. intros a _. now rewrite sumn_scal.
  - intros k Hk. rewrite <- QG by auto. rewrite <- sumn_scal_r. apply sumn_ext. intros; ring.
Qed.
Lemma transposed_unique (x x' : nat -> R) : (forall c, (c < p)%nat -> sumn p (fun a => G a c * x a) = sumn p (fun a => G a c * x' a)) -> forall a, (a < p)%nat -> x a = x' a.
Proof.
  intros E a Ha. destruct HQ as (_ & _ & U). set (LG := fun c a => G a c).
  assert (LO : lower p LG) by (intros i j H; apply U; lia).
  rewrite <- (fsub_unique p LG (fun c => sumn p (fun a => G a c * x' a)) x LO HG E p (le_n p) a Ha). apply (fsub_unique p LG (fun c => sumn p (fun a => G a c * x' a)) x'); auto.
Qed.
(** Every unbiased predictor: the part along Q is determined. *)
Lemma unbiased_part w : (forall c, (c < p)%nat -> sumn n (fun i => w i * F i c) = b c) ->
  forall a, (a < p)%nat -> sumn n (fun k => Q k a * (lifted w k - rt k)) = - u a.
Proof.
  intros UB. apply transposed_unique. intros c Hc. rewrite <- (Ft_dot (fun k => lifted w k - rt k)) by auto.
  rewrite (sumn_ext n _ (fun k => Ft k c * lifted w k - Ft k c * rt k)) by (intros; ring). rewrite sumn_minus, <- lifted_trend, UB by auto.
  rewrite (sumn_ext p (fun a => G a c * - u a) (fun a => -1 * (G a c * u a))) by (intros; ring). rewrite sumn_scal, HU by auto. ring.
Qed.
Lemma bessel (z v : nat -> R) : (forall a, (a < p)%nat -> sumn n (fun k => Q k a * z k) = v a) -> sumn p (fun a => v a * v a) <= sumn n (fun k => z k * z k).
Proof.
  intros E. set (q := fun k => sumn p (fun a => Q k a * v a)).
  assert (P : 0 <= sumn n (fun k => (z k - q k) * (z k - q k))) by (apply sumn_nonneg; intros; apply Rle_0_sqr).
  rewrite (sumn_ext n _ (fun k => z k * z k + q k * q k + -2 * (q k * z k))) in P by (intros; ring). rewrite !sumn_plus, sumn_scal in P.
  assert (D : forall y : nat -> R, sumn n (fun k => q k * y k) = sumn p (fun a => v a * sumn n (fun k => Q k a * y k))).
  { intros y0. unfold q. rewrite (sumn_ext n _ (fun k => sumn p (fun a => v a * (Q k a * y0 k)))).
    - rewrite sumn_swap. apply sumn_ext. intros a _. now rewrite sumn_scal.
    - intros k _. rewrite <- sumn_scal_r. apply sumn_ext. intros; ring. }
  assert (QQ : forall a, (a < p)%nat -> sumn n (fun k => Q k a * q k) = v a).
  { intros a Ha. rewrite (sumn_ext n _ (fun k => q k * Q k a)) by (intros; ring). rewrite D. rewrite (sumn_ext p _ (fun c => identity a c * v c)); [now apply sumn_identity|].
    intros c Hc. destruct HQ as (_ & QQ & _). rewrite <- (QQ a c Ha Hc), Rmult_comm. f_equal. apply sumn_ext. intros; ring. }
  rewrite (D z), (D q) in P.
  rewrite (sumn_ext p (fun a => v a * sumn n (fun k => Q k a * z k)) (fun a => v a * v a)) in P by (intros; now rewrite E).
  rewrite (sumn_ext p (fun a => v a * sumn n (fun k => Q k a * q k)) (fun a => v a * v a)) in P by (intros; now rewrite QQ). lra.
Qed.
Lemma along (v : nat -> R) : let z := fun k => sumn p (fun a => Q k a * v a) in
  (forall a, (a < p)%nat -> sumn n (fun k => Q k a * z k) = v a) /\ sumn n (fun k => z k * z k) = sumn p (fun a => v a * v a).
Proof.
  intros z. assert (D : forall y : nat -> R, sumn n (fun k => z k * y k) = sumn p (fun a => v a * sumn n (fun k => Q k a * y k))).
  { intros y0. unfold z. rewrite (sumn_ext n _ (fun k => sumn p (fun a => v a * (Q k a * y0 k)))).
    - rewrite sumn_swap. apply sumn_ext. intros a _. now rewrite sumn_scal.
    - intros k _. rewrite <- sumn_scal_r. apply sumn_ext. intros; ring. }
  assert (QQ : forall a, (a < p)%nat -> sumn n (fun k => Q k a * z k) = v a).
  { intros a Ha. rewrite (sumn_ext n _ (fun k => z k * Q k a)) by (intros; ring). rewrite D. rewrite (sumn_ext p _ (fun c => identity a c * v c)); [now apply sumn_identity|].
    intros c Hc. destruct HQ as (_ & QQ & _). rewrite <- (QQ a c Ha Hc), Rmult_comm. f_equal. apply sumn_ext. intros; ring. }
  split; auto. rewrite D. apply sumn_ext. intros a Ha. now rewrite QQ.
Qed.
Lemma unbiased_attained : exists w, (forall c, (c < p)%nat -> sumn n (fun i => w i * F i c) = b c) /\
  sumn n (fun k => (lifted w k - rt k) * (lifted w k - rt k)) = sumn p (fun c => u c * u c).
Proof.
  destruct (along (fun a => - u a)) as (H1 & H2). set (z := fun k => sumn p (fun a => Q k a * - u a)) in *.
  destruct (lifted_onto (fun k => rt k + z k)) as (w & W). exists w. split.
  - intros c Hc. rewrite lifted_trend by auto. rewrite (sumn_ext n _ (fun k => Ft k c * rt k + Ft k c * z k)) by (intros k Hk; rewrite W by auto; ring).
    rewrite sumn_plus, (Ft_dot z) by auto. rewrite (sumn_ext p (fun a => G a c * sumn n (fun k => Q k a * z k)) (fun a => -1 * (G a c * u a))) by (intros a Ha; rewrite H1 by auto; ring).
    rewrite sumn_scal, HU by auto. ring.
  - rewrite (sumn_ext n _ (fun k => z k * z k)) by (intros k Hk; rewrite W by auto; ring). etransitivity; [exact H2|]. apply sumn_ext. intros; ring.
Qed.
(** At a point of the data with the row of L as solution, the coefficients vanish. *)
Lemma trend_at_data i : (i < n)%nat -> (forall k, (k < n)%nat -> rt k = L i k) -> (forall c, (c < p)%nat -> b c = F i c) -> forall a, (a < p)%nat -> u a = 0.
Proof.
  intros Hi E B a Ha. apply (transposed_unique u (fun _ => 0)); auto. intros c Hc. rewrite HU, B, <- HFt by auto. rewrite (sumn_zero p) by (intros; ring).
  rewrite (sumn_ext n (fun k => Ft k c * rt k) (fun k => L i k * Ft k c)) by (intros k Hk; rewrite E by auto; ring). ring.
Qed.
End Trend.
End Factor.

(** ** Correlations *)
Lemma absdiff_sym x y : absdiff x y = absdiff y x.
Proof. unfold absdiff. revert y. induction x as [|a x IH]; intros [|b y]; cbn; auto. now rewrite Rabs_minus_sym, IH. Qed.
Lemma rho_sym k th x y : rho k th x y = rho k th y x.
Proof. unfold rho. now rewrite absdiff_sym. Qed.
Lemma rho_matrix k th m X M : smooth k -> positive th -> accepted th m -> rectangular X m -> correlation_matrix k th X = Some M ->
  forall i j, (i < length X)%nat -> (j < length X)%nat -> M i j = rho k th (nth i X []) (nth j X []).
Proof.
  intros SK P AC RX E i j Hi Hj. destruct (C62_correlation_matrix k th X M E i j Hi Hj) as (_ & D & O). unfold rho, absdiff.
  destruct (Nat.eq_dec i j) as [<-|N]; [|now rewrite (O N)].
  destruct (C62_defined k th [nth i X []; nth i X []] m) as (M2 & E2); [repeat constructor; apply (row_length X m i RX Hi)|destruct SK as [-> | [-> | ->]]; exact AC|].
  destruct (C62_correlation_matrix _ _ _ _ E2 0 1)%nat as (_ & _ & O2); try (cbn; lia). specialize (O2 ltac:(discriminate)). cbn [nth] in O2. rewrite O2, D.
  symmetry. apply (C62_zero_distance k th _ _ P) in O2; auto. clear. induction (nth i X []); cbn; constructor; auto. unfold Rminus. rewrite Rplus_opp_r. apply Rabs_R0.
Qed.
Lemma rho_self k th m x : smooth k -> positive th -> accepted th m -> length x = m -> rho k th x x = 1.
Proof.
  intros SK P AC LX. destruct (C62_defined k th [x] m) as (M & E); [repeat constructor; auto|destruct SK as [-> | [-> | ->]]; exact AC|].
  pose proof (rho_matrix k th m [x] M SK P AC ltac:(repeat constructor; auto) E 0 0 ltac:(cbn; lia) ltac:(cbn; lia))%nat as H. cbn [nth] in H. rewrite <- H.
  apply (C62_correlation_matrix _ _ _ _ E 0 0)%nat; cbn; lia.
Qed.
(** One more point. *)
Definition appended (w : nat -> R) (n : nat) (k : nat) : R := if (k =? n)%nat then -1 else w k.
Lemma form_appended n K w : (forall i, (i < n)%nat -> K i n = K n i) -> K n n = 1 ->
  form (S n) K (appended w n) = 1 - 2 * sumn n (fun i => w i * K n i) + form n K w.
Proof.
  intros SY D. unfold form. rewrite sumn_S.
  assert (V : forall i, (i < n)%nat -> appended w n i = w i) by (intros i Hi; unfold appended; destruct (Nat.eqb_spec i n); [lia|auto]).
  assert (W : appended w n n = -1) by (unfold appended; now rewrite Nat.eqb_refl).
  rewrite (sumn_ext n _ (fun i => sumn n (fun j => w i * w j * K i j) + -1 * (w i * K n i))).
  - rewrite sumn_plus, sumn_scal, sumn_S, W, D. rewrite (sumn_ext n (fun j => -1 * appended w n j * K n j) (fun j => -1 * (w j * K n j))) by (intros j Hj; rewrite V by auto; ring).
    rewrite sumn_scal. ring.
  - intros i Hi. rewrite sumn_S, W, (V i Hi), (SY i Hi). f_equal; [|ring]. apply sumn_ext. intros j Hj. now rewrite V.
Qed.
Section Extended.
Variables (k : kernel) (th : list R) (m : nat) (X : list (list R)) (x : list R).
Hypothesis (SK : smooth k) (P : positive th) (AC : accepted th m) (RX : rectangular X m) (LX : length x = m).
Let n := length X.
Lemma extended : exists M, correlation_matrix k th (X ++ [x]) = Some M /\ length (X ++ [x]) = S n /\ rectangular (X ++ [x]) m /\
  (forall i j, (i < n)%nat -> (j < n)%nat -> M i j = rho k th (nth i X []) (nth j X [])) /\ (forall i, (i < n)%nat -> M n i = rho k th x (nth i X []) /\ M i n = M n i) /\ M n n = 1.
Proof.
  assert (RE : rectangular (X ++ [x]) m) by (apply Forall_app; split; auto; repeat constructor; auto).
  destruct (C62_defined k th (X ++ [x]) m RE) as (M & E); [destruct SK as [-> | [-> | ->]]; exact AC|].
  assert (LE : length (X ++ [x]) = S n) by (rewrite app_length; cbn; unfold n; lia).
  exists M. split; auto. split; auto. split; auto. pose proof (rho_matrix k th m _ M SK P AC RE E) as H. rewrite LE in H.
  assert (N1 : forall i, (i < n)%nat -> nth i (X ++ [x]) [] = nth i X []) by (intros; now apply app_nth1).
  assert (N2 : nth n (X ++ [x]) [] = x) by (unfold n; rewrite app_nth2, Nat.sub_diag; auto).
  split; [|split].
  - intros i j Hi Hj. rewrite (H i j), (N1 i Hi), (N1 j Hj) by lia. reflexivity.
  - intros i Hi. rewrite (H n i), (H i n), (N1 i Hi), N2 by lia. split; auto. apply rho_sym.
  - rewrite H, N2 by lia. apply (rho_self k th m); auto.
Qed.
Lemma error_nonneg w : 0 <= 1 - 2 * sumn n (fun i => w i * rho k th x (nth i X [])) + form n (fun i j => rho k th (nth i X []) (nth j X [])) w.
Proof.
  destruct extended as (M & E & LE & RE & H1 & H2 & H3). pose proof (correlation_semi k th _ m M SK P RE E (appended w n)) as S0. rewrite LE in S0.
  rewrite form_appended in S0 by (auto; apply H2). rewrite (sumn_ext n _ (fun i => w i * M n i)) by (intros i Hi; now rewrite (proj1 (H2 i Hi))).
  rewrite (form_ext n (fun i j => rho k th (nth i X []) (nth j X [])) M) by (intros; symmetry; auto). exact S0.
Qed.
Lemma error_positive w : NoDup X -> ~ In x X -> 0 < 1 - 2 * sumn n (fun i => w i * rho k th x (nth i X [])) + form n (fun i j => rho k th (nth i X []) (nth j X [])) w.
Proof.
  intros ND NI. destruct extended as (M & E & LE & RE & H1 & H2 & H3).
  assert (NE : NoDup (X ++ [x])) by (apply (Permutation_NoDup (l := x :: X)); [apply Permutation_cons_append|constructor; auto]).
  pose proof (correlation_definite k th _ m M SK P RE NE E (appended w n)) as S0. rewrite LE in S0.
  rewrite form_appended in S0 by (auto; apply H2). rewrite (sumn_ext n _ (fun i => w i * M n i)) by (intros i Hi; now rewrite (proj1 (H2 i Hi))).
  rewrite (form_ext n (fun i j => rho k th (nth i X []) (nth j X [])) M) by (intros; symmetry; auto). apply S0.
  exists n. split; [lia|]. unfold appended. rewrite Nat.eqb_refl. lra.
Qed.
End Extended.

(** ** What a fit leaves *)
Section Fitted.
Variable cholesky : nat -> matrix -> option matrix.
Variable qr : nat -> nat -> matrix -> matrix * matrix.
Variable solve_lower : nat -> matrix -> (nat -> R) -> nat -> R.
Variable solve_upper : nat -> matrix -> (nat -> R) -> nat -> R.
Variable cho_solve : nat -> matrix -> matrix -> matrix.
Variable matrix_rank : nat -> matrix -> nat.
Hypothesis LP : lapack cholesky qr solve_lower solve_upper cho_solve matrix_rank.
Notation evaluate := (evaluate cholesky qr solve_lower matrix_rank).
Lemma sum_sq_nonneg n rho j : 0 <= sum_sq n rho j.
Proof. unfold sum_sq. apply sumn_nonneg. intros i. rewrite <- Rsqr_pow2. apply Rle_0_sqr. Qed.
Lemma ratio_positive a k : 0 <= a -> a / INR k <> 0 -> (k = 0%nat -> a = 0) -> 0 < a / INR k.
Proof.
  intros A N K. destruct k as [|k]; [exfalso; apply N; rewrite K by auto; unfold Rdiv; ring|].
  assert (0 < INR (S k)) by (apply lt_0_INR; lia). assert (0 < / INR (S k)) by now apply Rinv_0_lt_compat. unfold Rdiv in *. destruct (Rle_lt_or_eq_dec 0 a A) as [|<-]; [|exfalso; apply N; ring].
  now apply Rmult_lt_0_compat.
Qed.
Lemma none_zero (f : nat -> R) n : existsb (fun j => if Req_EM_T (f j) 0 then true else false) (seq 0 n) = false -> forall j, (j < n)%nat -> f j <> 0.
Proof.
  intros E j Hj Z. assert (T : existsb (fun j => if Req_EM_T (f j) 0 then true else false) (seq 0 n) = true); [|congruence].
  apply existsb_exists. exists j. split; [apply in_seq; lia|]. destruct (Req_EM_T (f j) 0); congruence.
Qed.
(** The parameters of the three modes: the process variance or its share of the total, and the variance of the noise. *)
Definition admissible (m : mode) (noise : R) (par : list R) : Prop :=
  match m with Noiseless => True | NoiseEstim => 0 < last par 0 <= 1 | Noisy => 0 < last par 0 /\ 0 <= noise end.
Lemma aux_L d A a : Spec_Likelihood.symmetric (length (X d)) A -> compute_aux_var cholesky qr solve_lower d A = Some a -> factor (length (X d)) A (a_L a).
Proof.
  intros SY. unfold compute_aux_var. destruct (cholesky (length (X d)) A) as [L|] eqn:E; [|discriminate].
  intros Q. apply (cholesky_factor _ _ _ _ _ _ LP); auto. rewrite E. destruct (mean d); injection Q as <-; reflexivity.
Qed.
Lemma corr_symmetric k th Y M : correlation_matrix k th Y = Some M -> Spec_Likelihood.symmetric (length Y) M.
Proof. intros E i j Hi Hj. apply (C62_correlation_matrix _ _ _ _ E i j Hi Hj). Qed.
Lemma fitted_matrix m noise d par e : evaluate m noise d par = Value (Some e) -> admissible m noise par -> 
  exists M A, correlation_matrix (kern d) (theta e) (X d) = Some M /\ factor (length (X d)) A (a_L (aux_of e)) /\ (m = Noiseless -> A = M) /\
    forall j, (j < targets d)%nat -> 0 < total e j /\ total e j = sigma2_of m par e j + noise_of m noise par e j /\ 0 < sigma2_of m par e j /\ 0 <= noise_of m noise par e j /\
      forall i l, total e j * A i l = sigma2_of m par e j * M i l + noise_of m noise par e j * identity i l.
Proof.
  intros E AD. unfold Model_Likelihood.evaluate in E. destruct (correlation_matrix _ _ _) as [M|] eqn:EM in E; [|discriminate]. injection E as E.
  pose proof (corr_symmetric _ _ _ _ EM) as SY. destruct m; cbn [sigma2_of noise_of admissible] in *.
  - destruct (compute_aux_var cholesky qr solve_lower d M) as [a|] eqn:EA; [|discriminate]. pose proof (aux_L d M a SY EA) as FA.
    match type of E with (if ?c || ?b then _ else _) = _ => destruct c eqn:C; [discriminate|]; destruct b eqn:B; [discriminate|] end. cbn [orb] in E. pose proof (none_zero _ _ B) as NZ. injection E as <-. cbn [theta aux_of total].
    exists M, M. split; auto. split; auto. split; auto. intros j Hj. specialize (NZ j Hj). apply Nat.eqb_neq in C.
    match type of NZ with ?v <> 0 => assert (0 < v) by (apply (ratio_positive); auto; [apply sum_sq_nonneg|intros; lia]) end.
    split; auto. split; [ring|]. split; auto. split; [lra|]. intros i l. ring.
  - destruct (compute_aux_var _ _ _ d _) as [a|] eqn:EA in E; [|discriminate].
    assert (SA : Spec_Likelihood.symmetric (length (X d)) (fun i j => last par 0 * M i j + (1 - last par 0) * eye i j)).
    { intros i j Hi Hj. rewrite (SY i j Hi Hj). unfold eye. rewrite (Nat.eqb_sym i j). reflexivity. }
    pose proof (aux_L d _ a SA EA) as FA. match type of E with (if ?b then _ else _) = _ => destruct b eqn:B; [discriminate|] end. pose proof (none_zero _ _ B) as NZ. injection E as <-. cbn [theta aux_of total].
    eexists M, _. split; [exact EM|]. split; [exact FA|]. split; [discriminate|]. intros j Hj. specialize (NZ j Hj).
    match type of NZ with ?v <> 0 => assert (0 < v) end.
    { apply (ratio_positive); auto; [apply sum_sq_nonneg|]. intros ->. apply sumn_0. }
    split; auto. split; [ring|]. split; [apply Rmult_lt_0_compat; lra|]. split; [apply Rmult_le_pos; lra|]. intros i l. change (eye i l) with (identity i l). ring.
  - destruct (compute_aux_var _ _ _ d _) as [a|] eqn:EA in E; [|discriminate].
    assert (SA : Spec_Likelihood.symmetric (length (X d)) (fun i j => (last par 0 * M i j + noise * eye i j) / (last par 0 + noise))).
    { intros i j Hi Hj. rewrite (SY i j Hi Hj). unfold eye. rewrite (Nat.eqb_sym i j). reflexivity. }
    pose proof (aux_L d _ a SA EA) as FA. injection E as <-. cbn [theta aux_of total].
    eexists M, _. split; [exact EM|]. split; [exact FA|]. split; [discriminate|]. intros j Hj.
    split; [lra|]. split; [ring|]. split; [lra|]. split; [lra|]. intros i l. change (eye i l) with (identity i l). field. lra.
Qed.
(** The correlations used for the predictions. *)
Lemma cross_defined k th m Xn Y : smooth k -> positive th -> accepted th m -> rectangular Xn m -> rectangular Y m ->
  exists r, cross_corr k th Xn Y = Some r /\ length r = length Xn /\ forall i, (i < length Xn)%nat -> length (nth i r []) = length Y /\
    forall j, (j < length Y)%nat -> nth j (nth i r []) 0 = rho k th (nth i Xn []) (nth j Y []).
Proof.
  intros SK P AC R1 R2. destruct (cross_corr k th Xn Y) as [r|] eqn:E.
  - exists r. split; auto. destruct (C170_pairs k th Xn Y r E) as (L1 & H). split; auto. intros i Hi. destruct (H i Hi) as (L2 & H2). split; auto.
    intros j Hj. specialize (H2 j Hj). unfold rho. now rewrite H2.
  - exfalso. unfold cross_corr in E.
    assert (NN : forall a, In a (map (corr k th) (cross_distances_to Xn Y)) -> a <> None).
    { intros a Ha N. subst a. apply in_map_iff in Ha as (dd & Hd & Hin). apply in_flat_map in Hin as (x & Hx & Hy). apply in_map_iff in Hy as (y0 & <- & Hy).
      unfold rectangular in *. rewrite Forall_forall in R1, R2. 
      destruct (C62_defined k th [x; y0] m) as (M2 & E2); [repeat constructor; auto|destruct SK as [-> | [-> | ->]]; exact AC|].
      destruct (C62_correlation_matrix _ _ _ _ E2 0 1)%nat as (_ & _ & O2); try (cbn; lia). specialize (O2 ltac:(discriminate)). cbn [nth] in O2. unfold absdiff in Hd. congruence. }
    rewrite (Properties_PriorCov.sequence_all _ 0 NN) in E. unfold reshape in E. rewrite !map_length in E.
    assert (LC : length (cross_distances_to Xn Y) = (length Xn * length Y)%nat).
    { unfold cross_distances_to. clear. induction Xn as [|x Xn IH]; cbn; auto. rewrite app_length, map_length, IH. reflexivity. }
    rewrite LC, Nat.eqb_refl in E. discriminate.
Qed.
Lemma nth_map2 {A B C} (f : A -> B -> C) da db dc : forall (l : list A) (l' : list B) i, length l = length l' -> (i < length l)%nat -> nth i (map2 f l l') dc = f (nth i l da) (nth i l' db).
Proof. induction l as [|a l IH]; intros [|b l'] i L H; cbn in *; try lia. destruct i; auto. apply IH; lia. Qed.
Lemma map2_len {A B C} (f : A -> B -> C) : forall (l : list A) (l' : list B), length l = length l' -> length (map2 f l l') = length l.
Proof. induction l as [|a l IH]; intros [|b l'] L; cbn in *; try lia. rewrite IH; lia. Qed.
Definition clamp (v : R) : R := if Rlt_dec v 0 then 0 else v.
Lemma predicted m mm noise d par e f Xn : evaluate m noise d par = Value (Some e) -> smooth (kern d) -> positive (theta e) -> accepted (theta e) mm -> rectangular (X d) mm -> rectangular Xn mm ->
  exists r V, predict_mse qr solve_lower m d par e f Xn = Some V /\ length V = length Xn /\ length r = length Xn /\
    forall i, (i < length Xn)%nat -> length (nth i V []) = targets d /\
      (forall j, (j < length (X d))%nat -> nth j (nth i r []) 0 = rho (kern d) (theta e) (nth i Xn []) (nth j (X d) [])) /\
      forall j, (j < targets d)%nat -> nth j (nth i V []) 0 = clamp (mse_factor qr solve_lower d (a_L (aux_of e)) f (nth i Xn []) (nth i r []) * sigma2_of m par e j).
Proof.
  intros E SK P AC RX RN. destruct (cross_defined (kern d) (theta e) mm Xn (X d) SK P AC RN RX) as (r & ER & LR & HR). exists r. unfold predict_mse. rewrite ER. eexists. split; [reflexivity|].
  split; [now rewrite map2_len|]. split; auto. intros i Hi. rewrite (nth_map2 _ [] [] []) by auto. split; [now rewrite map_length, seq_length|]. split; [apply (HR i Hi)|].
  intros j Hj. rewrite get_seq by auto. reflexivity.
Qed.
End Fitted.
