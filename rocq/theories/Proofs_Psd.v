(** Correlation matrices as quadratic forms. *)
From Coq Require Import Reals Lra Lia List Arith.
From Coquelicot Require Import Coquelicot.
From Verif Require Import Lib_Normal Lib_Sum Lib_Chol Lib_Lapack Spec_Psd Lib_Psd Lib_Mixture Lib_Schur Lib_Definite Model_Kernel Spec_Kernel Proofs_Kernel Properties_Kernel Model_Likelihood Spec_Likelihood.
Import ListNotations.
Open Scope R_scope.

Lemma sumn_first n f : sumn (S n) f = f O + sumn n (fun k => f (S k)).
Proof. unfold sumn. cbn [seq map fold_right]. rewrite <- seq_shift, map_map. reflexivity. Qed.
Lemma sum_map2 g : forall (t x z : list R) m, length t = m -> length x = m -> length z = m ->
  sum (map2 Rmult t (map g (absdiff x z))) = sumn m (fun k => nth k t 0 * g (Rabs (nth k x 0 - nth k z 0))).
Proof.
  induction t as [|a t IH]; intros [|b x] [|c z] m Ht Hx Hz; cbn [length] in *; try lia; subst m; [reflexivity|].
  rewrite sumn_first. cbn [nth]. rewrite <- IH by lia. reflexivity.
Qed.
Lemma absdiff_length x z m : length x = m -> length z = m -> length (absdiff x z) = m.
Proof. revert z m. induction x as [|a x IH]; intros [|c z] m Hx Hz; cbn in *; try lia. destruct m; [lia|]. f_equal. apply IH; lia. Qed.
Lemma nth_nonneg t : List.Forall (fun v => 0 < v) t -> forall k, 0 <= nth k t 0.
Proof. intros H k. destruct (nth_in_or_default k t 0) as [I|E]; [|rewrite E; lra]. rewrite Forall_forall in H. left. now apply H. Qed.

Section Points.
  Variables (m : nat) (x : nat -> nat -> R).
  (** Products of exponentials: some coordinates enter with their square, the first p also with the absolute value. *)
  Lemma laplace_semi n (w : nat -> R) : (forall k, 0 <= w k) -> forall p, (p <= m)%nat -> forall a, (forall k, 0 <= a k) ->
    semidefinite n (fun i j => exp (- sumn p (fun k => w k * Rabs (x i k - x j k))) * exp (- sumn m (fun k => a k * Rsqr (x i k - x j k)))).
  Proof.
    intros W p. induction p as [|p IH]; intros Hp a A.
    - apply (semi_ext n (fun i j => exp (- sumn m (fun k => a k * Rsqr (x i k - x j k))))); [|apply gauss_semi, A]. intros i j _ _. rewrite sumn_0, Ropp_0, exp_0. ring.
    - apply (semi_ext n (fun i j => exp (- (w p * Rabs (x i p - x j p))) * (exp (- sumn p (fun k => w k * Rabs (x i k - x j k))) * exp (- sumn m (fun k => a k * Rsqr (x i k - x j k)))))).
      { intros i j _ _. rewrite sumn_S, Ropp_plus_distr, exp_plus. ring. }
      apply (mix_exp n (fun i j => w p * Rabs (x i p - x j p)) (fun i j => exp (- sumn p (fun k => w k * Rabs (x i k - x j k))) * exp (- sumn m (fun k => a k * Rsqr (x i k - x j k))))).
      { intros i j. apply Rmult_le_pos; [apply W|apply Rabs_pos]. }
      intros c Hc. set (a' := fun k => a k + c * (w p * w p) * identity p k).
      apply (semi_ext n (fun i j => exp (- sumn p (fun k => w k * Rabs (x i k - x j k))) * exp (- sumn m (fun k => a' k * Rsqr (x i k - x j k))))).
      + intros i j _ _. unfold a'.
        rewrite (sumn_ext m _ (fun k => a k * Rsqr (x i k - x j k) + identity p k * (c * (w p * w p) * Rsqr (x i k - x j k)))) by (intros; ring).
        rewrite sumn_plus, (sumn_identity m (fun k => c * (w p * w p) * Rsqr (x i k - x j k)) p) by lia.
        rewrite Ropp_plus_distr, exp_plus. replace (c * (w p * Rabs (x i p - x j p) * (w p * Rabs (x i p - x j p)))) with (c * (w p * w p) * Rsqr (x i p - x j p)); [ring|].
        unfold Rsqr. replace (w p * Rabs (x i p - x j p) * (w p * Rabs (x i p - x j p))) with (w p * w p * (Rabs (x i p - x j p) * Rabs (x i p - x j p))) by ring.
        rewrite <- Rabs_mult, (Rabs_pos_eq ((x i p - x j p) * (x i p - x j p))) by apply Rle_0_sqr. ring.
      + apply IH; [lia|]. intros k. unfold a'. specialize (A k). assert (0 <= identity p k) by (unfold identity; destruct (Nat.eqb p k); lra).
        assert (0 <= c * (w p * w p)) by (pose proof (W p) as Wp; apply Rmult_le_pos; [lra|apply Rmult_le_pos; exact Wp]). apply Rplus_le_le_0_compat; [exact A|]. apply Rmult_le_pos; assumption.
  Qed.
  Lemma abs_semi n (w : nat -> R) : (forall k, 0 <= w k) -> semidefinite n (fun i j => exp (- sumn m (fun k => w k * Rabs (x i k - x j k)))).
  Proof.
    intros W. apply (semi_ext n (fun i j => exp (- sumn m (fun k => w k * Rabs (x i k - x j k))) * exp (- sumn m (fun k => 0 * Rsqr (x i k - x j k))))).
    - intros i j _ _. rewrite sumn_scal, Rmult_0_l, Ropp_0, exp_0. ring.
    - apply (laplace_semi n w W m (le_n m) (fun _ => 0)). intros; lra.
  Qed.
  Lemma matern_semi n (w : nat -> R) : (forall k, 0 <= w k) -> semidefinite n (fun i j => matern_of (sumn m (fun k => w k * Rsqr (x i k - x j k)))).
  Proof.
    intros W. assert (P : forall i j, 0 <= sumn m (fun k => w k * Rsqr (x i k - x j k))).
    { intros i j. apply sumn_nonneg. intros k. apply Rmult_le_pos; [apply W|apply Rle_0_sqr]. }
    apply (semi_ext n (fun i j => (1 + sqrt (sumn m (fun k => w k * Rsqr (x i k - x j k))) * sqrt 3) * exp (- (sqrt (sumn m (fun k => w k * Rsqr (x i k - x j k))) * sqrt 3)) * 1)).
    { intros i j _ _. unfold matern_of. ring. }
    apply (mix_matern n (fun i j => sqrt (sumn m (fun k => w k * Rsqr (x i k - x j k))) * sqrt 3) (fun _ _ => 1)).
    - intros i j. apply Rmult_le_pos; apply sqrt_pos.
    - intros a Ha. apply (semi_ext n (fun i j => exp (- sumn m (fun k => (3 * a * w k) * Rsqr (x i k - x j k))))).
      + intros i j _ _. rewrite Rmult_1_r. f_equal. f_equal.
        replace (sqrt (sumn m (fun k => w k * Rsqr (x i k - x j k))) * sqrt 3 * (sqrt (sumn m (fun k => w k * Rsqr (x i k - x j k))) * sqrt 3))
          with (sqrt (sumn m (fun k => w k * Rsqr (x i k - x j k))) * sqrt (sumn m (fun k => w k * Rsqr (x i k - x j k))) * (sqrt 3 * sqrt 3)) by ring.
        rewrite !sqrt_sqrt by (try apply P; lra). rewrite (sumn_ext m _ (fun k => 3 * a * (w k * Rsqr (x i k - x j k)))) by (intros; ring). rewrite sumn_scal. ring.
      + apply gauss_semi. intros k. specialize (W k). nra.
  Qed.
  Section Different.
    Variable n : nat.
    Hypothesis apart : forall i j, (i < n)%nat -> (j < n)%nat -> i <> j -> exists k, (k < m)%nat /\ x i k <> x j k.
    Lemma laplace_definite (w : nat -> R) : (forall k, 0 <= w k) -> (forall k, (k < m)%nat -> 0 < w k) -> forall p, (p <= m)%nat -> forall a, (forall k, 0 <= a k) -> (forall k, (p <= k < m)%nat -> 0 < a k) ->
      definite n (fun i j => exp (- sumn p (fun k => w k * Rabs (x i k - x j k))) * exp (- sumn m (fun k => a k * Rsqr (x i k - x j k)))).
    Proof.
      intros W WP p. induction p as [|p IH]; intros Hp a A AP.
      - apply (definite_ext n (fun i j => exp (- sumn m (fun k => a k * Rsqr (x i k - x j k))))); [|apply gauss_definite; auto; intros; apply AP; lia]. intros i j _ _. rewrite sumn_0, Ropp_0, exp_0. ring.
      - apply (definite_ext n (fun i j => exp (- (w p * Rabs (x i p - x j p))) * (exp (- sumn p (fun k => w k * Rabs (x i k - x j k))) * exp (- sumn m (fun k => a k * Rsqr (x i k - x j k)))))).
        { intros i j _ _. rewrite sumn_S, Ropp_plus_distr, exp_plus. ring. }
        apply (mix_exp_strict n (fun i j => w p * Rabs (x i p - x j p)) (fun i j => exp (- sumn p (fun k => w k * Rabs (x i k - x j k))) * exp (- sumn m (fun k => a k * Rsqr (x i k - x j k))))).
        { intros i j. apply Rmult_le_pos; [apply W|apply Rabs_pos]. }
        intros c Hc. set (a' := fun k => a k + c * (w p * w p) * identity p k).
        apply (definite_ext n (fun i j => exp (- sumn p (fun k => w k * Rabs (x i k - x j k))) * exp (- sumn m (fun k => a' k * Rsqr (x i k - x j k))))).
        + intros i j _ _. unfold a'.
          rewrite (sumn_ext m _ (fun k => a k * Rsqr (x i k - x j k) + identity p k * (c * (w p * w p) * Rsqr (x i k - x j k)))) by (intros; ring).
          rewrite sumn_plus, (sumn_identity m (fun k => c * (w p * w p) * Rsqr (x i k - x j k)) p) by lia.
          rewrite Ropp_plus_distr, exp_plus. replace (c * (w p * Rabs (x i p - x j p) * (w p * Rabs (x i p - x j p)))) with (c * (w p * w p) * Rsqr (x i p - x j p)); [ring|].
          unfold Rsqr. replace (w p * Rabs (x i p - x j p) * (w p * Rabs (x i p - x j p))) with (w p * w p * (Rabs (x i p - x j p) * Rabs (x i p - x j p))) by ring.
          rewrite <- Rabs_mult, (Rabs_pos_eq ((x i p - x j p) * (x i p - x j p))) by apply Rle_0_sqr. ring.
        + assert (CW : 0 < c * (w p * w p)) by (pose proof (WP p ltac:(lia)) as Wp; apply Rmult_lt_0_compat; [lra|apply Rmult_lt_0_compat; exact Wp]).
          assert (ID : forall k, 0 <= identity p k) by (intros k; unfold identity; destruct (Nat.eqb p k); lra).
          apply IH; [lia| |].
          * intros k. unfold a'. specialize (A k). apply Rplus_le_le_0_compat; [exact A|]. apply Rmult_le_pos; [lra|apply ID].
          * intros k Hk. unfold a'. destruct (Nat.eq_dec k p) as [->|N].
            { unfold identity. rewrite Nat.eqb_refl. specialize (A p). lra. }
            specialize (AP k ltac:(lia)). specialize (ID k). nra.
    Qed.
    Lemma abs_definite (w : nat -> R) : (forall k, 0 <= w k) -> (forall k, (k < m)%nat -> 0 < w k) -> definite n (fun i j => exp (- sumn m (fun k => w k * Rabs (x i k - x j k)))).
    Proof.
      intros W WP. apply (definite_ext n (fun i j => exp (- sumn m (fun k => w k * Rabs (x i k - x j k))) * exp (- sumn m (fun k => 0 * Rsqr (x i k - x j k))))).
      - intros i j _ _. rewrite sumn_scal, Rmult_0_l, Ropp_0, exp_0. ring.
      - apply (laplace_definite w W WP m (le_n m) (fun _ => 0)); [intros; lra|intros; lia].
    Qed.
    Lemma matern_definite (w : nat -> R) : (forall k, 0 <= w k) -> (forall k, (k < m)%nat -> 0 < w k) -> definite n (fun i j => matern_of (sumn m (fun k => w k * Rsqr (x i k - x j k)))).
    Proof.
      intros W WP. assert (P : forall i j, 0 <= sumn m (fun k => w k * Rsqr (x i k - x j k))).
      { intros i j. apply sumn_nonneg. intros k. apply Rmult_le_pos; [apply W|apply Rle_0_sqr]. }
      apply (definite_ext n (fun i j => (1 + sqrt (sumn m (fun k => w k * Rsqr (x i k - x j k))) * sqrt 3) * exp (- (sqrt (sumn m (fun k => w k * Rsqr (x i k - x j k))) * sqrt 3)) * 1)).
      { intros i j _ _. unfold matern_of. ring. }
      apply (mix_matern_strict n (fun i j => sqrt (sumn m (fun k => w k * Rsqr (x i k - x j k))) * sqrt 3) (fun _ _ => 1)).
      - intros i j. apply Rmult_le_pos; apply sqrt_pos.
      - intros a Ha. apply (definite_ext n (fun i j => exp (- sumn m (fun k => (3 * a * w k) * Rsqr (x i k - x j k))))).
        + intros i j _ _. rewrite Rmult_1_r. f_equal. f_equal.
          replace (sqrt (sumn m (fun k => w k * Rsqr (x i k - x j k))) * sqrt 3 * (sqrt (sumn m (fun k => w k * Rsqr (x i k - x j k))) * sqrt 3))
            with (sqrt (sumn m (fun k => w k * Rsqr (x i k - x j k))) * sqrt (sumn m (fun k => w k * Rsqr (x i k - x j k))) * (sqrt 3 * sqrt 3)) by ring.
          rewrite !sqrt_sqrt by (try apply P; lra). rewrite (sumn_ext m _ (fun k => 3 * a * (w k * Rsqr (x i k - x j k)))) by (intros; ring). rewrite sumn_scal. ring.
        + apply gauss_definite; auto; [intros k; specialize (W k); nra|intros k Hk; specialize (WP k Hk); nra].
    Qed.
  End Different.
End Points.

Lemma form_one K c : form 1 K c = c O * c O * K O O.
Proof. unfold form. rewrite sumn_S, sumn_0, sumn_S, sumn_0. ring. Qed.
Definition point (X : list (list R)) (i k : nat) : R := nth k (nth i X []) 0.
Lemma row_length X m i : rectangular X m -> (i < length X)%nat -> length (nth i X []) = m.
Proof. intros RX Hi. unfold rectangular in RX. rewrite Forall_forall in RX. apply RX, nth_In, Hi. Qed.
Lemma sumn_null m f : (forall k, f k = 0) -> sumn m f = 0.
Proof. intros H. rewrite (sumn_ext m f (fun k => 0 * 0)) by (intros; rewrite H; ring). rewrite sumn_scal. ring. Qed.

(** The entries as formulas of the two points. *)
Definition entry (k : kernel) (theta : list R) (m : nat) (X : list (list R)) (i j : nat) : R :=
  match k with
  | SqExp => exp (- sumn m (fun l => nth l (each theta m) 0 * Rsqr (point X i l - point X j l)))
  | AbsExp => exp (- sumn m (fun l => nth l (each theta m) 0 * Rabs (point X i l - point X j l)))
  | Matern => matern_of (sumn m (fun l => nth l (each theta m) 0 * Rsqr (point X i l - point X j l)))
  | GenExp => exp (- sumn m (fun l => nth l (removelast theta) 0 * power (Rabs (point X i l - point X j l)) (last theta 0)))
  | Cubic => 0
  end.
Lemma removelast_length (l : list R) m : length l = S m -> length (removelast l) = m.
Proof. intros H. rewrite removelast_firstn_len, firstn_length, H. simpl. lia. Qed.
Lemma entries k theta X m M : k <> Cubic -> positive theta -> rectangular X m -> (2 <= length X)%nat -> correlation_matrix k theta X = Some M ->
  (if match k with GenExp => true | _ => false end then length theta = S m else accepted theta m) /\
  forall i j, (i < length X)%nat -> (j < length X)%nat -> M i j = entry k theta m X i j.
Proof.
  intros NC PT RX N2 E. pose proof (C62_correlation_matrix k theta X M E) as C.
  assert (AD : forall i j, (i < length X)%nat -> (j < length X)%nat -> length (absdiff (nth i X []) (nth j X [])) = m).
  { intros i j Hi Hj. apply absdiff_length; now apply row_length. }
  assert (SQ : forall v, Rsqr (Rabs v) = Rsqr v) by (intros v; symmetry; apply Rsqr_abs).
  assert (AC : if match k with GenExp => true | _ => false end then length theta = S m else accepted theta m).
  { destruct (C 0 1)%nat as (_ & _ & H); try lia. specialize (H ltac:(discriminate)). pose proof (corr_some _ _ _ _ H PT) as A.
    change (map2 (fun a b => Rabs (a - b)) (nth 0 X []) (nth 1 X [])) with (absdiff (nth 0 X []) (nth 1 X [])) in A. rewrite AD in A by lia. destruct k; try congruence; apply A. }
  split; [exact AC|]. intros i j Hi Hj. destruct (C i j Hi Hj) as (_ & D1 & C1). destruct (Nat.eq_dec i j) as [<-|N].
  - rewrite D1. clear - AC NC PT. destruct k; cbn [entry]; try congruence.
    + rewrite sumn_null by (intros; unfold Rminus; rewrite Rplus_opp_r, Rabs_R0; ring). now rewrite Ropp_0, exp_0.
    + rewrite sumn_null by (intros; unfold Rsqr; ring). now rewrite Ropp_0, exp_0.
    + rewrite sumn_null; [now rewrite Ropp_0, exp_0|]. intros l. unfold Rminus. rewrite Rplus_opp_r, Rabs_R0. unfold power. destruct (Req_EM_T 0 0); [|lra].
      destruct (Req_EM_T (last theta 0) 0) as [Z|]; [|ring]. exfalso. unfold positive in PT. rewrite Forall_forall in PT. assert (0 < last theta 0); [|lra]. apply PT, last_in. destruct theta; [discriminate AC|discriminate].
    + rewrite sumn_null by (intros; unfold Rsqr; ring). unfold matern_of. rewrite sqrt_0, Rmult_0_l, Ropp_0, exp_0. ring.
  - specialize (C1 N). pose proof (corr_some _ _ _ _ C1 PT) as A. change (map2 (fun a b => Rabs (a - b)) (nth i X []) (nth j X [])) with (absdiff (nth i X []) (nth j X [])) in A.
    rewrite AD in A by auto. destruct k; try congruence; destruct A as (A & ->); cbn [entry].
    + rewrite (sum_map2 Rabs (each theta m) _ _ m) by (try apply each_length; try apply row_length; auto). f_equal. f_equal. apply sumn_ext. intros l _. now rewrite Rabs_Rabsolu.
    + rewrite (sum_map2 Rsqr (each theta m) _ _ m) by (try apply each_length; try apply row_length; auto). f_equal. f_equal. apply sumn_ext. intros l _. now rewrite SQ.
    + rewrite (sum_map2 (fun v => power (Rabs v) (last theta 0)) (removelast theta) _ _ m) by (try apply removelast_length; try apply row_length; auto). f_equal. f_equal. apply sumn_ext. intros l _. now rewrite Rabs_Rabsolu.
    + rewrite (sum_map2 Rsqr (each theta m) _ _ m) by (try apply each_length; try apply row_length; auto). f_equal. apply sumn_ext. intros l _. now rewrite SQ.
Qed.
(** At most one point. *)
Lemma few_definite k theta X M : (length X < 2)%nat -> correlation_matrix k theta X = Some M -> definite (length X) M.
Proof.
  intros L E. pose proof (C62_correlation_matrix k theta X M E) as C. destruct X as [|a [|b X]]; cbn [length] in *; [| |lia].
  - intros c (i & Hi & _). lia.
  - intros c (i & Hi & N). rewrite form_one. destruct (C O O) as (_ & -> & _); try lia. assert (i = O) as -> by lia. destruct (Rdichotomy _ _ N); nra.
Qed.
Lemma zero_form n K c : (forall i, (i < n)%nat -> c i = 0) -> form n K c = 0.
Proof.
  intros H. unfold form. rewrite (sumn_ext n _ (fun i => 0 * 0)); [rewrite sumn_scal; ring|]. intros i Hi. rewrite (sumn_ext n _ (fun j => 0 * K i j)) by (intros; rewrite (H i Hi); ring). rewrite sumn_scal. ring.
Qed.
Lemma definite_semi n K : definite n K -> semidefinite n K.
Proof.
  intros D c. assert (Z : (forall l, (l < n)%nat -> c l = 0) \/ exists l, (l < n)%nat /\ c l <> 0).
  { clear. induction n as [|n IH]; [left; intros; lia|]. destruct IH as [A|(l & Hl & Nl)]; [|right; exists l; split; auto]. destruct (Req_dec (c n) 0) as [Z|N]; [left|right; exists n; split; auto].
    intros l Hl. destruct (Nat.eq_dec l n) as [->|]; auto. apply A. lia. }
  destruct Z as [Z|Z]; [rewrite zero_form by exact Z; lra|]. left. now apply D.
Qed.
Lemma correlation_semi k theta X m M : smooth k -> positive theta -> rectangular X m -> correlation_matrix k theta X = Some M -> semidefinite (length X) M.
Proof.
  intros SK PT RX E. destruct (le_lt_dec 2 (length X)) as [N2|F]; [|apply definite_semi; now apply (few_definite k theta)].
  assert (NC : k <> Cubic) by (destruct SK as [-> | [-> | ->]]; discriminate). destruct (entries k theta X m M NC PT RX N2 E) as (_ & EN).
  apply (semi_ext _ (entry k theta m X)); [intros; symmetry; now apply EN|]. pose proof (nth_nonneg _ (each_pos theta m PT)) as W. destruct SK as [-> | [-> | ->]]; cbn [entry].
  - apply (gauss_semi _ m (point X)), W.
  - apply (abs_semi m (point X)), W.
  - apply (matern_semi m (point X)), W.
Qed.
Lemma different_coordinate m : forall x z : list R, length x = m -> length z = m -> x <> z -> exists k, (k < m)%nat /\ nth k x 0 <> nth k z 0.
Proof.
  induction m as [|m IH]; intros [|a x] [|b z] Hx Hz N; cbn [length] in *; try lia; [congruence|]. destruct (Req_dec a b) as [->|D].
  - destruct (IH x z) as (k & Hk & Nk); try lia; [congruence|]. exists (S k). split; [lia|exact Nk].
  - exists O. split; [lia|exact D].
Qed.
Lemma correlation_definite k theta X m M : smooth k -> positive theta -> rectangular X m -> NoDup X -> correlation_matrix k theta X = Some M -> definite (length X) M.
Proof.
  intros SK PT RX ND E. destruct (le_lt_dec 2 (length X)) as [N2|F]; [|now apply (few_definite k theta)].
  assert (NC : k <> Cubic) by (destruct SK as [-> | [-> | ->]]; discriminate). destruct (entries k theta X m M NC PT RX N2 E) as (AC & EN).
  assert (AC' : accepted theta m) by (destruct SK as [-> | [-> | ->]]; exact AC).
  apply (definite_ext _ (entry k theta m X)); [intros; symmetry; now apply EN|]. pose proof (nth_nonneg _ (each_pos theta m PT)) as W.
  assert (WP : forall l, (l < m)%nat -> 0 < nth l (each theta m) 0).
  { intros l Hl. pose proof (each_pos theta m PT) as P. rewrite Forall_forall in P. apply P, nth_In. now rewrite each_length. }
  assert (D : forall i j, (i < length X)%nat -> (j < length X)%nat -> i <> j -> exists l, (l < m)%nat /\ point X i l <> point X j l).
  { intros i j Hi Hj N. apply different_coordinate; try (apply row_length; auto). intros Q. apply N. rewrite NoDup_nth in ND. apply (ND i j Hi Hj Q). }
  destruct SK as [-> | [-> | ->]]; cbn [entry].
  - apply (gauss_definite _ m (point X)); auto.
  - apply (abs_definite m (point X)); auto.
  - apply (matern_definite m (point X)); auto.
Qed.
(** The generalized exponential function with an exponent of at most two. *)
Lemma power_two v : power (Rabs v) 2 = Rsqr v.
Proof.
  unfold power. destruct (Req_EM_T (Rabs v) 0) as [Z|N].
  - destruct (Req_EM_T 2 0); [lra|]. destruct (Req_dec v 0) as [->|V]; [unfold Rsqr; ring|]. apply Rabs_no_R0 in V. lra.
  - assert (0 < Rabs v) by (pose proof (Rabs_pos v); lra). replace (2 * ln (Rabs v)) with (ln (Rabs v) + ln (Rabs v)) by ring. rewrite exp_plus, exp_ln by auto. rewrite <- Rabs_mult. apply Rabs_pos_eq, Rle_0_sqr.
Qed.
Lemma power_half p v : p <> 0 -> power (Rabs v) p = powq (p / 2) (Rsqr v).
Proof.
  intros P. unfold power, powq. destruct (Req_EM_T (Rabs v) 0) as [Z|N].
  - destruct (Req_EM_T p 0); [contradiction|]. destruct (Req_EM_T (Rsqr v) 0) as [|V]; auto. exfalso. apply V. destruct (Req_dec v 0) as [->|W]; [unfold Rsqr; ring|]. apply Rabs_no_R0 in W. lra.
  - assert (L : 0 < Rabs v) by (pose proof (Rabs_pos v); lra). destruct (Req_EM_T (Rsqr v) 0) as [Z|V].
    + exfalso. apply N. apply Rsqr_0_uniq in Z. rewrite Z. apply Rabs_R0.
    + rewrite Rsqr_abs. unfold Rsqr. rewrite ln_mult by auto. f_equal. field.
Qed.
Lemma power_semi n (x : nat -> R) p a : 0 < p <= 2 -> 0 <= a -> semidefinite n (fun i j => exp (- (a * power (Rabs (x i - x j)) p))).
Proof.
  intros P A.
  assert (G : forall s, 0 <= s -> semidefinite n (fun i j => exp (- (s * Rsqr (x i - x j))))).
  { intros s Hs. apply (semi_ext n (fun i j => exp (- sumn 1 (fun k => s * Rsqr (x i - x j))))).
    - intros i j _ _. f_equal. rewrite sumn_S, sumn_0. ring.
    - apply (gauss_semi n 1 (fun i _ => x i) (fun _ => s)). auto. }
  destruct (Req_dec p 2) as [->|N].
  - apply (semi_ext n (fun i j => exp (- (a * Rsqr (x i - x j))))); [intros; now rewrite power_two|]. now apply G.
  - apply (semi_ext n (fun i j => exp (- (a * powq (p / 2) (Rsqr (x i - x j)))))); [intros; rewrite power_half by lra; reflexivity|].
    apply (levy (p / 2)); [lra| | | |exact A].
    + intros i j _ _. unfold Rsqr. ring.
    + intros i j. apply Rle_0_sqr.
    + intros s Hs. apply G. lra.
Qed.
Lemma generalized_semi n m (x : nat -> nat -> R) (w : nat -> R) p : (forall k, 0 <= w k) -> 0 < p <= 2 -> semidefinite n (fun i j => exp (- sumn m (fun l => w l * power (Rabs (x i l - x j l)) p))).
Proof.
  intros W P. induction m as [|m IH].
  - apply (semi_ext n (fun i j => 1 * 1)); [intros; rewrite sumn_0, Ropp_0, exp_0; ring|]. apply (semi_one n (fun _ => 1)).
  - apply (semi_ext n (fun i j => exp (- sumn m (fun l => w l * power (Rabs (x i l - x j l)) p)) * exp (- (w m * power (Rabs (x i m - x j m)) p)))).
    { intros. rewrite sumn_S, Ropp_plus_distr, exp_plus. reflexivity. }
    apply semi_mult.
    + intros i j _ _. f_equal. f_equal. apply sumn_ext. intros l _. now rewrite Rabs_minus_sym.
    + intros i j _ _. now rewrite Rabs_minus_sym.
    + exact IH.
    + apply (power_semi n (fun i => x i m)); auto.
Qed.
Lemma generalized_correlation_semi theta X m M : positive theta -> last theta 0 <= 2 -> rectangular X m -> correlation_matrix GenExp theta X = Some M -> semidefinite (length X) M.
Proof.
  intros PT L2 RX E. destruct (le_lt_dec 2 (length X)) as [N2|F]; [|apply definite_semi; now apply (few_definite GenExp theta)].
  destruct (entries GenExp theta X m M ltac:(discriminate) PT RX N2 E) as (AC & EN). cbn in AC.
  apply (semi_ext _ (entry GenExp theta m X)); [intros; symmetry; now apply EN|]. cbn [entry]. apply (generalized_semi _ m (point X)).
  - apply nth_nonneg. unfold positive in PT. rewrite Forall_forall in *. intros t Ht. apply PT, removelast_in, Ht.
  - split; auto. unfold positive in PT. rewrite Forall_forall in PT. apply PT, last_in. destruct theta; discriminate.
Qed.

(** A positive multiple of the identity makes the form positive. *)
Lemma sum_squares_pos n c : (exists i, (i < n)%nat /\ c i <> 0) -> 0 < sumn n (fun i => c i * c i).
Proof.
  induction n as [|n IH]; intros (i & Hi & N); [lia|]. rewrite sumn_S. destruct (Nat.eq_dec i n) as [->|].
  - assert (0 <= sumn n (fun i => c i * c i)) by (apply sumn_nonneg; intros; nra). assert (0 < c n * c n) by (destruct (Rdichotomy _ _ N); nra). lra.
  - assert (0 < sumn n (fun i => c i * c i)) by (apply IH; exists i; split; [lia|auto]). nra.
Qed.
Lemma form_identity n c : form n identity c = sumn n (fun i => c i * c i).
Proof.
  unfold form. apply sumn_ext. intros i Hi. rewrite (sumn_ext n _ (fun j => identity i j * (c i * c j))) by (intros; ring). now rewrite sumn_identity.
Qed.
Lemma regularised n K a b : semidefinite n K -> 0 <= a -> 0 < b -> definite n (fun i j => a * K i j + b * identity i j).
Proof.
  intros S A B c H. rewrite form_plus, !form_scal, form_identity. pose proof (sum_squares_pos n c H). specialize (S c). nra.
Qed.
Lemma definite_factor n A : Spec_Likelihood.symmetric n A -> definite n A -> factor n A (chol A n).
Proof.
  intros SY D. apply chol_factor; auto. apply positive_definite_pivots; auto. intros v H. specialize (D v H).
  replace (quad n A v) with (form n A v); [exact D|]. unfold quad, form. apply sumn_ext. intros i _. apply sumn_ext. intros j _. ring.
Qed.

(** What a Cholesky factor tells about the matrix. *)
Lemma factor_form n A L c : factor n A L -> form n A c = sumn n (fun k => sumn n (fun i => c i * L i k) * sumn n (fun i => c i * L i k)).
Proof.
  intros (_ & _ & EQ). unfold form.
  rewrite (sumn_ext n _ (fun i => sumn n (fun k => c i * L i k * sumn n (fun j => c j * L j k)))).
  - rewrite sumn_swap. apply sumn_ext. intros k _. now rewrite sumn_scal_r.
  - intros i Hi. rewrite (sumn_ext n _ (fun j => sumn n (fun k => c i * L i k * (c j * L j k)))).
    + rewrite sumn_swap. apply sumn_ext. intros k _. now rewrite sumn_scal.
    + intros j Hj. rewrite <- (EQ i j Hi Hj), <- sumn_scal. apply sumn_ext. intros k _. ring.
Qed.
Lemma factor_semi n A L : factor n A L -> semidefinite n A.
Proof. intros F c. rewrite (factor_form n A L c F). apply sumn_nonneg. intros k. apply Rle_0_sqr. Qed.
(** Two equal rows cannot be factored. *)
Lemma equal_rows n A L i j : factor n A L -> (i < n)%nat -> (j < n)%nat -> i <> j -> A i i = A i j -> A j j = A i j -> A i j = A j i -> False.
Proof.
  intros F Hi Hj N E1 E2 E3.
  assert (G : forall i j, (i < j)%nat -> (j < n)%nat -> A i i = A i j -> A j j = A i j -> A i j = A j i -> False).
  { clear i j Hi Hj N E1 E2 E3. destruct F as (LO & DI & EQ). intros i j Hij Hj E1 E2 E3.
    assert (Z : sumn n (fun k => (L i k - L j k) * (L i k - L j k)) = 0).
    { rewrite (sumn_ext n _ (fun k => L i k * L i k + L j k * L j k + -2 * (L i k * L j k))) by (intros; ring). rewrite !sumn_plus, sumn_scal, !EQ by lia. lra. }
    assert (P : 0 < sumn n (fun k => (L i k - L j k) * (L i k - L j k))); [|lra].
    apply (sum_squares_pos n (fun k => L i k - L j k)). exists j. split; auto. rewrite (LO i j) by lia. specialize (DI j Hj). lra. }
  destruct (lt_dec i j) as [Lt|Ge]; [apply (G i j); auto|]. apply (G j i); auto; try lia; congruence.
Qed.
Lemma aux_found cholesky qr sl su cs mr d A : lapack cholesky qr sl su cs mr -> Spec_Likelihood.symmetric (length (X d)) A -> definite (length (X d)) A -> exists a, compute_aux_var cholesky qr sl d A = Some a.
Proof.
  intros LP SY D. unfold compute_aux_var. destruct (cholesky (length (X d)) A) as [L|] eqn:E.
  - destruct (mean d); eauto.
  - exfalso. apply (cholesky_found _ _ _ _ _ _ LP (length (X d)) A (chol A (length (X d))) SY (definite_factor _ _ SY D)). exact E.
Qed.
Lemma aux_factor cholesky qr sl su cs mr d A a : lapack cholesky qr sl su cs mr -> Spec_Likelihood.symmetric (length (X d)) A -> compute_aux_var cholesky qr sl d A = Some a -> exists L, factor (length (X d)) A L.
Proof.
  intros LP SY. unfold compute_aux_var. destruct (cholesky (length (X d)) A) as [L|] eqn:E; [|discriminate]. intros _. exists L. now apply (cholesky_factor _ _ _ _ _ _ LP).
Qed.
Lemma eye_identity i j : eye i j = identity i j.
Proof. reflexivity. Qed.

(** ** The cubic function *)
Definition table (k : nat) : R := match k with 0%nat => 1 | 1%nat => 112 / 125 | 2%nat => 81 / 125 | 3%nat => 44 / 125 | 4%nat => 13 / 125 | _ => 0 end.
Definition seven : list (list R) := [[0]; [1]; [2]; [3]; [4]; [5]; [6]].
Lemma cubic_line (a b : R) (k : nat) : Rabs (a - b) = INR k -> cubic [/ 5] (absdiff [a] [b]) = Some (table k).
Proof.
  intros E. cbn. rewrite E. rewrite (Rabs_pos_eq (INR k)) by apply pos_INR. f_equal. destruct (Rlt_dec 1 (INR k * / 5)) as [L|G].
  - destruct k as [|[|[|[|[|k]]]]]; try (exfalso; simpl in L; lra). cbn [table]. lra.
  - destruct k as [|[|[|[|[|[|k]]]]]]; cbn [table]; try (simpl; lra). exfalso. apply G. rewrite !S_INR. pose proof (pos_INR k). lra.
Qed.
Lemma seven_entries M : correlation_matrix Cubic [/ 5] seven = Some M -> forall i j, (i < 7)%nat -> (j < 7)%nat -> M i j = table ((i - j) + (j - i)).
Proof.
  intros E i j Hi Hj. destruct (C62_correlation_matrix _ _ _ _ E i j Hi Hj) as (_ & D & OD). destruct (Nat.eq_dec i j) as [->|N].
  - rewrite D, Nat.sub_diag. reflexivity.
  - specialize (OD N). cbn [corr] in OD. change (map2 (fun a b => Rabs (a - b)) (nth i seven []) (nth j seven [])) with (absdiff (nth i seven []) (nth j seven [])) in OD.
    assert (PT : forall i, (i < 7)%nat -> nth i seven [] = [INR i]).
    { clear. intros i Hi. do 7 (destruct i as [|i]; [cbn; f_equal; lra|]). lia. }
    rewrite !PT in OD by auto. rewrite (cubic_line (INR i) (INR j) ((i - j) + (j - i))) in OD; [congruence|].
    destruct (le_lt_dec i j).
    + replace (i - j)%nat with O by lia. rewrite Nat.add_0_l, minus_INR by lia. rewrite Rabs_left1; [lra|]. apply le_INR in l. lra.
    + replace (j - i)%nat with O by lia. rewrite Nat.add_0_r, minus_INR by lia. apply Rabs_pos_eq. apply lt_INR in l. lra.
Qed.
Definition witness (i : nat) : R := nth i [1; -2; 1; 0; 1; -2; 1] 0.
Lemma seven_form M : correlation_matrix Cubic [/ 5] seven = Some M -> form 7 M witness = - (2 / 125).
Proof.
  intros E. rewrite (form_ext 7 M (fun i j => table ((i - j) + (j - i))) witness) by (intros; now apply seven_entries).
  unfold form, sumn. cbn. lra.
Qed.
Lemma seven_squares : sumn 7 (fun i => witness i * witness i) = 12.
Proof. unfold sumn. cbn. lra. Qed.
(** ** The generalized exponential function with an exponent above two *)
Lemma generalized_sharp p : 2 < p -> exists t M, 0 < t /\ correlation_matrix GenExp [t; p] [[0]; [1]; [2]] = Some M /\ ~ semidefinite 3 M.
Proof.
  intros P. set (Q := exp (p * ln 2)). assert (HQ : 4 < Q).
  { unfold Q. replace 4 with (exp (2 * ln 2)) by (replace (2 * ln 2) with (ln 2 + ln 2) by ring; rewrite exp_plus, exp_ln by lra; ring). apply exp_increasing. pose proof ln_lt_2. nra. }
  set (t := (Q - 4) / (8 * Q)). assert (HT : 0 < t) by (apply Rdiv_lt_0_compat; lra).
  assert (PT : positive [t; p]) by (repeat constructor; lra).
  assert (RX : rectangular [[0]; [1]; [2]] 1) by (repeat constructor).
  destruct (C62_defined GenExp [t; p] [[0]; [1]; [2]] 1 RX eq_refl) as (M & E). exists t, M. split; auto. split; auto. intros S.
  destruct (entries GenExp [t; p] [[0]; [1]; [2]] 1 M ltac:(discriminate) PT RX ltac:(cbn; lia) E) as (_ & EN).
  assert (P0 : power 0 p = 0) by (unfold power; destruct (Req_EM_T 0 0); [|lra]; destruct (Req_EM_T p 0); lra).
  assert (P1 : power 1 p = 1) by (unfold power; destruct (Req_EM_T 1 0); [lra|]; rewrite ln_1, Rmult_0_r; apply exp_0).
  assert (P2 : power 2 p = Q) by (unfold power; destruct (Req_EM_T 2 0); [lra|]; reflexivity).
  assert (V : forall i j, (i < 3)%nat -> (j < 3)%nat -> M i j = exp (- (t * match ((i - j) + (j - i))%nat with 0%nat => 0 | 1%nat => 1 | _ => Q end))).
  { intros i j Hi Hj. rewrite EN by (cbn; lia). cbn [entry]. f_equal. f_equal. rewrite sumn_S, sumn_0, Rplus_0_l. cbn [removelast nth last]. f_equal. unfold point.
    assert (A0 : forall v, v = 0 -> power (Rabs v) p = 0) by (intros v ->; now rewrite Rabs_R0).
    assert (A1 : forall v, v = 1 \/ v = -1 -> power (Rabs v) p = 1) by (intros v [-> | ->]; [rewrite Rabs_R1|rewrite Rabs_left by lra; replace (- -1) with 1 by ring]; exact P1).
    assert (A2 : forall v, v = 2 \/ v = -2 -> power (Rabs v) p = Q) by (intros v [-> | ->]; [rewrite Rabs_pos_eq by lra|rewrite Rabs_left by lra; replace (- -2) with 2 by ring]; exact P2).
    clearbody Q. do 3 (destruct i as [|i]; [do 3 (destruct j as [|j]; [cbn [nth Nat.sub plus]; first [apply A0; lra|apply A1; lra|apply A2; lra]|]); lia|]). lia. }
  specialize (S (fun i => nth i [1; -2; 1] 0)). rewrite (form_ext 3 M _ _ V) in S. unfold form, sumn in S. cbn in S.
  rewrite Rmult_0_r, Ropp_0, exp_0, Rmult_1_r in S.
  assert (E1 : 1 - t <= exp (- t)) by (pose proof (exp_ineq1_le (- t)); lra).
  assert (E2 : exp (- (t * Q)) <= / (1 + t * Q)).
  { rewrite exp_Ropp. apply Rinv_le_contravar; [nra|]. pose proof (exp_ineq1_le (t * Q)). lra. }
  assert (E3 : / (1 + t * Q) < 1 - 4 * t).
  { assert (TQ : t * Q = (Q - 4) / 8) by (unfold t; field; lra). rewrite TQ. apply Rmult_lt_reg_r with (1 + (Q - 4) / 8); [lra|]. rewrite Rinv_l by lra.
    replace (1 - 4 * t) with ((Q + 4) / (2 * Q)) by (unfold t; field; lra). apply Rmult_lt_reg_r with (16 * Q); [lra|]. replace ((Q + 4) / (2 * Q) * (1 + (Q - 4) / 8) * (16 * Q)) with ((Q + 4) * (Q + 4)) by (field; lra). nra. }
  clear V EN E. set (u := exp (- (t * Q))) in *. replace (- (t * 1)) with (- t) in S by ring. set (v := exp (- t)) in *. clearbody u v. lra.
Qed.
