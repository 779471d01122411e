(** exp (-b) and (1 + b) exp (-b) as mixtures of the Gaussian kernels exp (- a b^2): the antiderivatives in terms of the normal
    distribution function. *)
From Coq Require Import Reals Lra Lia List Arith.
From Coquelicot Require Import Coquelicot.
From Verif Require Import Lib_Normal Lib_Sum Spec_Psd Lib_Psd.
Import ListNotations.
Open Scope R_scope.

Definition s2 : R := sqrt (2 * PI).
Definition En (b u : R) : R := exp (- (u * u + b * b / (u * u)) / 2).
Definition Sp (b u : R) : R := exp b * cdf (u + b / u).
Definition Sm (b u : R) : R := exp (- b) * cdf (u - b / u).
Definition F0 (b u : R) : R := Sp b u + Sm b u.
Definition F1 (b u : R) : R := (1 - b) * Sp b u + (1 + b) * Sm b u - 2 / s2 * (u * En b u).

Lemma s2_pos : 0 < s2. Proof. exact two_pi_pos. Qed.
Lemma En_pos b u : 0 < En b u. Proof. apply exp_pos. Qed.
Lemma Sp_derive b u : 0 < u -> is_derive (Sp b) u (En b u / s2 * (1 - b / (u * u))).
Proof.
  intros H. assert (D := cdf_derive (u + b / u)). unfold Sp.
  assert (G : exp b * pdf (u + b / u) = En b u / s2).
  { unfold pdf, gauss, En. fold s2. unfold Rdiv at 1. rewrite <- Rmult_assoc, <- exp_plus. apply Rmult_eq_compat_r. apply f_equal. field. lra. }
  rewrite <- G.
  replace (exp b * pdf (u + b / u) * (1 - b / (u * u))) with (exp b * ((1 - b / (u * u)) * pdf (u + b / u))) by ring.
  apply (is_derive_scal (fun u => cdf (u + b / u)) u (exp b)).
  apply (is_derive_comp cdf (fun u => u + b / u) u); [exact D|]. auto_derive; [lra|]. field. lra.
Qed.
Lemma Sm_derive b u : 0 < u -> is_derive (Sm b) u (En b u / s2 * (1 + b / (u * u))).
Proof.
  intros H. assert (D := cdf_derive (u - b / u)). unfold Sm.
  assert (G : exp (- b) * pdf (u - b / u) = En b u / s2).
  { unfold pdf, gauss, En. fold s2. unfold Rdiv at 1. rewrite <- Rmult_assoc, <- exp_plus. apply Rmult_eq_compat_r. apply f_equal. field. lra. }
  rewrite <- G.
  replace (exp (- b) * pdf (u - b / u) * (1 + b / (u * u))) with (exp (- b) * ((1 + b / (u * u)) * pdf (u - b / u))) by ring.
  apply (is_derive_scal (fun u => cdf (u - b / u)) u (exp (- b))).
  apply (is_derive_comp cdf (fun u => u - b / u) u); [exact D|]. auto_derive; [lra|]. field. lra.
Qed.
Lemma F0_derive b u : 0 < u -> is_derive (F0 b) u (2 / s2 * En b u).
Proof.
  intros H. replace (2 / s2 * En b u) with (En b u / s2 * (1 - b / (u * u)) + En b u / s2 * (1 + b / (u * u))) by (field; split; [pose proof s2_pos|]; lra).
  apply (is_derive_plus (Sp b) (Sm b)); [apply Sp_derive|apply Sm_derive]; exact H.
Qed.
Lemma F1_derive b u : 0 < u -> is_derive (F1 b) u (2 / s2 * (u * u * En b u)).
Proof.
  intros H. pose proof s2_pos as P.
  replace (2 / s2 * (u * u * En b u)) with ((1 - b) * (En b u / s2 * (1 - b / (u * u))) + (1 + b) * (En b u / s2 * (1 + b / (u * u))) - 2 / s2 * (En b u + u * (En b u * - (u - b * b / (u * u * u))))).
  2:{ field. lra. }
  apply (is_derive_minus (fun u => (1 - b) * Sp b u + (1 + b) * Sm b u) (fun u => 2 / s2 * (u * En b u))).
  - apply (is_derive_plus (fun u => (1 - b) * Sp b u) (fun u => (1 + b) * Sm b u)); [apply (is_derive_scal (Sp b) u (1 - b)), Sp_derive|apply (is_derive_scal (Sm b) u (1 + b)), Sm_derive]; exact H.
  - apply (is_derive_scal (fun u => u * En b u) u (2 / s2)). assert (DE : is_derive (En b) u (En b u * - (u - b * b / (u * u * u)))).
    { unfold En. auto_derive; [nra|]. unfold Rdiv. match goal with |- context [exp ?a] => set (e := exp a); fold e end. clearbody e. field. lra. }
    apply (is_derive_ext (fun u => mult u (En b u))); [reflexivity|]. replace (En b u + u * (En b u * - (u - b * b / (u * u * u)))) with (plus (mult 1 (En b u)) (mult u (En b u * - (u - b * b / (u * u * u))))) by (unfold plus, mult; simpl; ring).
    apply (is_derive_mult (fun u => u) (En b) u); [apply (is_derive_id u)|exact DE|intros; apply Rmult_comm].
Qed.

(** ** Limits *)
Definition up (N : nat) : R := INR N + 1.
Definition dn (N : nat) : R := / up N.
Lemma up_ge N : 1 <= up N. Proof. unfold up. pose proof (pos_INR N). lra. Qed.
Lemma dn_bounds N : 0 < dn N <= 1.
Proof. pose proof (up_ge N). unfold dn. split; [apply Rinv_0_lt_compat; lra|]. rewrite <- Rinv_1. apply Rinv_le_contravar; lra. Qed.
Lemma up_lim : is_lim_seq up p_infty.
Proof. unfold up. apply (is_lim_seq_plus INR (fun _ => 1) p_infty 1 p_infty); [apply is_lim_seq_INR|apply is_lim_seq_const|reflexivity]. Qed.
Lemma dn_lim : is_lim_seq dn 0.
Proof. unfold dn. apply (is_lim_seq_inv up p_infty); [apply up_lim|discriminate]. Qed.
Lemma up_beyond M : exists N0, forall N, (N0 <= N)%nat -> M < up N.
Proof. pose proof up_lim as H. apply is_lim_seq_spec in H. destruct (H M) as (N0 & HN). exists N0. exact HN. Qed.

Lemma cdf_one z : (forall M, exists N0, forall N, (N0 <= N)%nat -> M < z N) -> is_lim_seq (fun N => cdf (z N)) 1.
Proof.
  intros H. apply is_lim_seq_spec. intros e. destruct (cdf_lim_plus e (cond_pos e)) as (M & HM). destruct (H M) as (N0 & HN). exists N0. intros N Le.
  specialize (HM _ (HN N Le)). pose proof (cdf_bounds (z N)). apply Rabs_def1; lra.
Qed.
Lemma cdf_null z : (forall M, exists N0, forall N, (N0 <= N)%nat -> z N < M) -> is_lim_seq (fun N => cdf (z N)) 0.
Proof.
  intros H. apply is_lim_seq_spec. intros e. destruct (cdf_lim_minus e (cond_pos e)) as (M & HM). destruct (H M) as (N0 & HN). exists N0. intros N Le.
  specialize (HM _ (HN N Le)). pose proof (cdf_bounds (z N)). apply Rabs_def1; lra.
Qed.
Lemma cdf_cont z l : is_lim_seq z (Finite l) -> is_lim_seq (fun N => cdf (z N)) (cdf l).
Proof.
  intros H. assert (C : continuous cdf l) by (apply (ex_derive_continuous cdf l); exists (pdf l); apply cdf_derive).
  apply (filterlim_comp _ _ _ z cdf _ (locally l) _); [exact H|exact C].
Qed.

Lemma Sp_up b : 0 <= b -> is_lim_seq (fun N => Sp b (up N)) (exp b).
Proof.
  intros Hb. unfold Sp. replace (Finite (exp b)) with (Rbar_mult (exp b) 1) by (simpl; f_equal; ring). apply (is_lim_seq_scal_l (fun N => cdf (up N + b / up N)) (exp b) 1).
  apply cdf_one. intros M. destruct (up_beyond M) as (N0 & H). exists N0. intros N Le. specialize (H N Le). pose proof (up_ge N).
  assert (0 <= b / up N) by (apply Rmult_le_pos; [lra|left; apply Rinv_0_lt_compat; lra]). lra.
Qed.
Lemma Sm_up b : 0 <= b -> is_lim_seq (fun N => Sm b (up N)) (exp (- b)).
Proof.
  intros Hb. unfold Sm. replace (Finite (exp (- b))) with (Rbar_mult (exp (- b)) 1) by (simpl; f_equal; ring). apply (is_lim_seq_scal_l (fun N => cdf (up N - b / up N)) (exp (- b)) 1).
  apply cdf_one. intros M. destruct (up_beyond (M + b)) as (N0 & H). exists N0. intros N Le. specialize (H N Le). pose proof (dn_bounds N).
  assert (b / up N <= b) by (unfold Rdiv; fold (dn N); nra). lra.
Qed.
Lemma dn_div b N : b / dn N = b * up N.
Proof. unfold dn. pose proof (up_ge N). field. lra. Qed.
Lemma Sp_dn b : 0 < b -> is_lim_seq (fun N => Sp b (dn N)) (exp b).
Proof.
  intros Hb. unfold Sp. replace (Finite (exp b)) with (Rbar_mult (exp b) 1) by (simpl; f_equal; ring). apply (is_lim_seq_scal_l (fun N => cdf (dn N + b / dn N)) (exp b) 1).
  apply cdf_one. intros M. destruct (up_beyond (M / b)) as (N0 & H). exists N0. intros N Le. specialize (H N Le). rewrite dn_div. pose proof (dn_bounds N).
  assert (M < b * up N) by (apply Rmult_lt_reg_l with (/ b); [apply Rinv_0_lt_compat; lra|]; rewrite <- Rmult_assoc, Rinv_l by lra; unfold Rdiv in H; lra). lra.
Qed.
Lemma Sm_dn b : 0 < b -> is_lim_seq (fun N => Sm b (dn N)) 0.
Proof.
  intros Hb. unfold Sm. replace (Finite 0) with (Rbar_mult (exp (- b)) 0) by (simpl; f_equal; ring). apply (is_lim_seq_scal_l (fun N => cdf (dn N - b / dn N)) (exp (- b)) 0).
  apply cdf_null. intros M. destruct (up_beyond ((1 - M) / b)) as (N0 & H). exists N0. intros N Le. specialize (H N Le). rewrite dn_div. pose proof (dn_bounds N).
  assert (1 - M < b * up N) by (apply Rmult_lt_reg_l with (/ b); [apply Rinv_0_lt_compat; lra|]; rewrite <- Rmult_assoc, Rinv_l by lra; unfold Rdiv in H; lra). lra.
Qed.
Lemma S_dn_0 : is_lim_seq (fun N => Sp 0 (dn N)) (/ 2) /\ is_lim_seq (fun N => Sm 0 (dn N)) (/ 2).
Proof.
  assert (H : is_lim_seq (fun N => cdf (dn N)) (/ 2)) by (rewrite <- cdf_zero; apply cdf_cont, dn_lim).
  split; eapply is_lim_seq_ext; try exact H; intros N; unfold Sp, Sm; cbv beta; rewrite dn_div, ?Ropp_0, exp_0; rewrite Rmult_1_l; f_equal; ring.
Qed.
Lemma uE_up b : is_lim_seq (fun N => up N * En b (up N)) 0.
Proof.
  apply (is_lim_seq_le_le (fun _ => 0) _ (fun N => 2 * dn N)).
  - intros N. pose proof (up_ge N) as U. pose proof (En_pos b (up N)) as P. split; [nra|].
    assert (G : En b (up N) <= 2 / (up N * up N + 2)).
    { eapply Rle_trans; [|apply gauss_small]. unfold En, gauss. destruct (Req_dec b 0) as [->|Nb]; [right; f_equal; unfold Rdiv; ring|]. left. apply exp_increasing.
      assert (0 < b * b / (up N * up N)) by (apply Rdiv_lt_0_compat; [destruct (Rdichotomy _ _ Nb); nra|nra]). lra. }
    apply Rle_trans with (up N * (2 / (up N * up N + 2))); [nra|]. unfold dn.
    apply Rmult_le_reg_r with (up N * (up N * up N + 2)); [nra|]. field_simplify; nra.
  - apply is_lim_seq_const.
  - replace (Finite 0) with (Rbar_mult 2 0) by (simpl; f_equal; ring). apply (is_lim_seq_scal_l dn 2 0), dn_lim.
Qed.
Lemma uE_dn b : is_lim_seq (fun N => dn N * En b (dn N)) 0.
Proof.
  apply (is_lim_seq_le_le (fun _ => 0) _ dn).
  - intros N. pose proof (dn_bounds N) as U. pose proof (En_pos b (dn N)) as P. split; [nra|].
    assert (En b (dn N) <= 1). { unfold En. rewrite <- exp_0. destruct (Rle_lt_or_eq_dec (- (dn N * dn N + b * b / (dn N * dn N)) / 2) 0) as [L|E].
      - assert (0 <= b * b / (dn N * dn N)) by (apply Rmult_le_pos; [nra|left; apply Rinv_0_lt_compat; nra]). nra.
      - left. now apply exp_increasing.
      - rewrite E. lra. }
    nra.
  - apply is_lim_seq_const.
  - apply dn_lim.
Qed.

Lemma lim2 (f g : nat -> R) (a b l m : R) : is_lim_seq f l -> is_lim_seq g m -> is_lim_seq (fun N => a * f N + b * g N) (a * l + b * m).
Proof. intros A B. apply is_lim_seq_plus'; [apply (is_lim_seq_scal_l f a l A)|apply (is_lim_seq_scal_l g b m B)]. Qed.

Lemma F0_lim b : 0 <= b -> is_lim_seq (fun N => F0 b (up N) - F0 b (dn N)) (exp (- b)).
Proof.
  intros Hb.
  assert (U : is_lim_seq (fun N => F0 b (up N)) (exp b + exp (- b))) by (unfold F0; apply is_lim_seq_plus'; [apply Sp_up|apply Sm_up]; exact Hb).
  destruct (Rle_lt_or_eq_dec 0 b Hb) as [P|<-].
  - assert (D : is_lim_seq (fun N => F0 b (dn N)) (exp b + 0)) by (unfold F0; apply is_lim_seq_plus'; [apply Sp_dn|apply Sm_dn]; exact P).
    replace (exp (- b)) with (exp b + exp (- b) - (exp b + 0)) by ring. apply is_lim_seq_minus'; assumption.
  - destruct S_dn_0 as [A B]. assert (D : is_lim_seq (fun N => F0 0 (dn N)) (/ 2 + / 2)) by (unfold F0; apply is_lim_seq_plus'; assumption).
    replace (exp (- 0)) with (exp 0 + exp (- 0) - (/ 2 + / 2)) by (rewrite Ropp_0, exp_0; lra). apply is_lim_seq_minus'; assumption.
Qed.
Lemma F1_lim b : 0 <= b -> is_lim_seq (fun N => F1 b (up N) - F1 b (dn N)) ((1 + b) * exp (- b)).
Proof.
  intros Hb.
  assert (U : is_lim_seq (fun N => F1 b (up N)) ((1 - b) * exp b + (1 + b) * exp (- b) - 2 / s2 * 0)).
  { unfold F1. apply is_lim_seq_minus'; [apply lim2; [apply Sp_up|apply Sm_up]; exact Hb|apply (is_lim_seq_scal_l _ (2 / s2) 0), uE_up]. }
  destruct (Rle_lt_or_eq_dec 0 b Hb) as [P|<-].
  - assert (D : is_lim_seq (fun N => F1 b (dn N)) ((1 - b) * exp b + (1 + b) * 0 - 2 / s2 * 0)).
    { unfold F1. apply is_lim_seq_minus'; [apply lim2; [apply Sp_dn|apply Sm_dn]; exact P|apply (is_lim_seq_scal_l _ (2 / s2) 0), uE_dn]. }
    replace ((1 + b) * exp (- b)) with ((1 - b) * exp b + (1 + b) * exp (- b) - 2 / s2 * 0 - ((1 - b) * exp b + (1 + b) * 0 - 2 / s2 * 0)) by ring. apply is_lim_seq_minus'; assumption.
  - destruct S_dn_0 as [A B]. assert (D : is_lim_seq (fun N => F1 0 (dn N)) ((1 - 0) * / 2 + (1 + 0) * / 2 - 2 / s2 * 0)).
    { unfold F1. apply is_lim_seq_minus'; [apply lim2; assumption|apply (is_lim_seq_scal_l _ (2 / s2) 0), uE_dn]. }
    replace ((1 + 0) * exp (- 0)) with ((1 - 0) * exp 0 + (1 + 0) * exp (- 0) - 2 / s2 * 0 - ((1 - 0) * / 2 + (1 + 0) * / 2 - 2 / s2 * 0)) by (rewrite Ropp_0, exp_0; lra). apply is_lim_seq_minus'; assumption.
Qed.

(** ** Mixtures *)
Lemma form_derive n (K : R -> nat -> nat -> R) (D : nat -> nat -> R) c u : (forall i j, is_derive (fun u => K u i j) u (D i j)) -> is_derive (fun u => form n (K u) c) u (form n D c).
Proof.
  intros H. unfold form. apply (sumn_derive n (fun i u => sumn n (fun j => c i * c j * K u i j))). intros i _.
  apply (sumn_derive n (fun j u => c i * c j * K u i j)). intros j _. apply (is_derive_scal (fun u => K u i j) u (c i * c j)), H.
Qed.
Lemma rising (f df : R -> R) x y : 0 < x -> x <= y -> (forall u, 0 < u -> is_derive f u (df u)) -> (forall u, 0 < u -> 0 <= df u) -> f x <= f y.
Proof.
  intros Hx L D P. destruct (MVT_gen f x y df) as (u & Hu & E).
  - intros u Hu. apply D. rewrite Rmin_left in Hu by lra. lra.
  - intros u Hu. apply derivable_continuous_pt. exists (df u). apply is_derive_Reals, D. rewrite Rmin_left in Hu by lra. lra.
  - rewrite Rmin_left in Hu by lra. assert (0 <= df u) by (apply P; lra). nra.
Qed.
Section Mix.
  Variables (n : nat) (b L : nat -> nat -> R).
  Hypothesis Hb : forall i j, 0 <= b i j.
  Hypothesis HG : forall a, 0 < a -> semidefinite n (fun i j => exp (- (a * (b i j * b i j))) * L i j).
  Lemma mix (F dF : R -> R -> R) (w : R -> R) (h : R -> R) : (forall b u, 0 < u -> is_derive (F b) u (dF b u)) -> (forall b u, dF b u = w u * En b u) -> (forall u, 0 < u -> 0 <= w u) ->
    (forall b, 0 <= b -> is_lim_seq (fun N => F b (up N) - F b (dn N)) (h b)) -> semidefinite n (fun i j => h (b i j) * L i j).
  Proof.
    intros D E W LIM. apply (semi_lim n (fun N i j => (F (b i j) (up N) - F (b i j) (dn N)) * L i j)).
    - intros N c. rewrite (form_ext n _ (fun i j => F (b i j) (up N) * L i j + -1 * (F (b i j) (dn N) * L i j)) c) by (intros; ring). rewrite form_plus, form_scal.
      assert (R := rising (fun u => form n (fun i j => F (b i j) u * L i j) c) (fun u => form n (fun i j => dF (b i j) u * L i j) c) (dn N) (up N)).
      cbv beta in R. assert (G : form n (fun i j => F (b i j) (dn N) * L i j) c <= form n (fun i j => F (b i j) (up N) * L i j) c); [|lra].
      apply R; [apply dn_bounds|pose proof (dn_bounds N); pose proof (up_ge N); lra| |].
      + intros u Hu. apply (form_derive n (fun u i j => F (b i j) u * L i j)). intros i j.
        replace (dF (b i j) u * L i j) with (L i j * dF (b i j) u) by ring. apply is_derive_ext with (fun u => L i j * F (b i j) u); [intros; apply Rmult_comm|].
        apply (is_derive_scal (F (b i j)) u (L i j)), D, Hu.
      + intros u Hu. rewrite (form_ext n _ (fun i j => (w u * exp (- (u * u) / 2)) * (exp (- (/ (2 * (u * u)) * (b i j * b i j))) * L i j)) c).
        * rewrite form_scal. apply Rmult_le_pos; [apply Rmult_le_pos; [apply W, Hu|left; apply exp_pos]|]. apply HG. apply Rinv_0_lt_compat. nra.
        * intros i j _ _. rewrite E. unfold En. replace (- (u * u + b i j * b i j / (u * u)) / 2) with (- (u * u) / 2 + - (/ (2 * (u * u)) * (b i j * b i j))) by (field; lra). rewrite exp_plus. ring.
    - intros i j _ _. apply is_lim_seq_ext with (fun N => L i j * (F (b i j) (up N) - F (b i j) (dn N))); [intros; ring|]. rewrite Rmult_comm.
      apply (is_lim_seq_scal_l _ (L i j) (h (b i j))), LIM, Hb.
  Qed.
  Lemma mix_exp : semidefinite n (fun i j => exp (- b i j) * L i j).
  Proof.
    apply (mix F0 (fun b u => 2 / s2 * En b u) (fun _ => 2 / s2) (fun b => exp (- b))); [apply F0_derive|reflexivity| |apply F0_lim].
    intros u _. left. apply Rdiv_lt_0_compat; [lra|apply s2_pos].
  Qed.
  Lemma mix_matern : semidefinite n (fun i j => (1 + b i j) * exp (- b i j) * L i j).
  Proof.
    apply (mix F1 (fun b u => 2 / s2 * (u * u * En b u)) (fun u => 2 / s2 * (u * u)) (fun b => (1 + b) * exp (- b))); [apply F1_derive|intros; ring| |apply F1_lim].
    intros u Hu. apply Rmult_le_pos; [left; apply Rdiv_lt_0_compat; [lra|apply s2_pos]|nra].
  Qed.
End Mix.
