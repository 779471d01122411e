(** Positive semi-definite matrices and mixtures of Gaussian kernels. *)
From Coq Require Import Reals Lra Lia List Arith.
From Coquelicot Require Import Coquelicot.
From Verif Require Import Lib_Normal Lib_Sum Spec_Psd.
Import ListNotations.
Open Scope R_scope.

Lemma form_ext n K L c : (forall i j, (i < n)%nat -> (j < n)%nat -> K i j = L i j) -> form n K c = form n L c.
Proof. intros H. unfold form. apply sumn_ext. intros i Hi. apply sumn_ext. intros j Hj. rewrite H; auto. Qed.
Lemma semi_ext n K L : (forall i j, (i < n)%nat -> (j < n)%nat -> K i j = L i j) -> semidefinite n K -> semidefinite n L.
Proof. intros H S c. rewrite <- (form_ext n K L c H). apply S. Qed.
(** Multiplying with one factor for each index. *)
Lemma semi_scale n K d : semidefinite n K -> semidefinite n (fun i j => d i * d j * K i j).
Proof.
  intros S c. replace (form n (fun i j => d i * d j * K i j) c) with (form n K (fun i => c i * d i)); [apply S|].
  unfold form. apply sumn_ext. intros i _. apply sumn_ext. intros j _. ring.
Qed.
Lemma semi_one n d : semidefinite n (fun i j => d i * d j).
Proof.
  intros c. replace (form n (fun i j => d i * d j) c) with (sumn n (fun i => c i * d i) * sumn n (fun i => c i * d i)); [nra|].
  unfold form. rewrite <- sumn_scal_r. apply sumn_ext. intros i _. rewrite <- sumn_scal. apply sumn_ext. intros j _. ring.
Qed.
Lemma form_plus n K L c : form n (fun i j => K i j + L i j) c = form n K c + form n L c.
Proof. unfold form. rewrite <- sumn_plus. apply sumn_ext. intros i _. rewrite <- sumn_plus. apply sumn_ext. intros j _. ring. Qed.
Lemma form_scal n K a c : form n (fun i j => a * K i j) c = a * form n K c.
Proof. unfold form. rewrite <- sumn_scal. apply sumn_ext. intros i _. rewrite <- sumn_scal. apply sumn_ext. intros j _. ring. Qed.
Lemma semi_plus n K L : semidefinite n K -> semidefinite n L -> semidefinite n (fun i j => K i j + L i j).
Proof. intros A B c. rewrite form_plus. specialize (A c). specialize (B c). lra. Qed.
Lemma semi_scal n K a : 0 <= a -> semidefinite n K -> semidefinite n (fun i j => a * K i j).
Proof. intros H A c. rewrite form_scal. apply Rmult_le_pos; auto. Qed.

(** A limit of sums is the sum of the limits. *)
Lemma sumn_lim n (f : nat -> nat -> R) (l : nat -> R) : (forall i, (i < n)%nat -> is_lim_seq (fun N => f N i) (l i)) -> is_lim_seq (fun N => sumn n (f N)) (sumn n l).
Proof.
  induction n as [|n IH]; intros H.
  - apply is_lim_seq_ext with (fun _ => 0); [reflexivity|apply is_lim_seq_const].
  - apply is_lim_seq_ext with (fun N => sumn n (f N) + f N n); [intros N; now rewrite sumn_S|]. rewrite sumn_S.
    apply is_lim_seq_plus'; [apply IH; intros i Hi; apply H; lia|apply H; lia].
Qed.
Lemma form_lim n (K : nat -> nat -> nat -> R) (L : nat -> nat -> R) c : (forall i j, (i < n)%nat -> (j < n)%nat -> is_lim_seq (fun N => K N i j) (L i j)) -> is_lim_seq (fun N => form n (K N) c) (form n L c).
Proof.
  intros H. unfold form. apply sumn_lim. intros i Hi. apply sumn_lim. intros j Hj.
  apply (is_lim_seq_scal_l (fun N => K N i j) (c i * c j) (L i j)). apply H; auto.
Qed.
Lemma nonneg_lim (u : nat -> R) (l : R) : (forall N, 0 <= u N) -> is_lim_seq u l -> 0 <= l.
Proof. intros H L. apply (is_lim_seq_le (fun _ => 0) u 0 l H (is_lim_seq_const 0) L). Qed.
Lemma semi_lim n (K : nat -> nat -> nat -> R) (L : nat -> nat -> R) : (forall N, semidefinite n (K N)) -> (forall i j, (i < n)%nat -> (j < n)%nat -> is_lim_seq (fun N => K N i j) (L i j)) -> semidefinite n L.
Proof. intros S H c. apply (nonneg_lim (fun N => form n (K N) c)); [intros N; apply S|apply form_lim, H]. Qed.

(** Gram matrices: sums of products of features. *)
Definition gram (K : nat -> nat -> R) : Prop := exists F : list (nat -> R), forall i j, K i j = fold_right Rplus 0 (map (fun f => f i * f j) F).
Lemma gram_semi n K : gram K -> semidefinite n K.
Proof.
  intros (F & E). apply (semi_ext n (fun i j => fold_right Rplus 0 (map (fun f => f i * f j) F))); [intros; symmetry; apply E|]. clear E.
  induction F as [|f F IH]; simpl.
  - intros c. replace (form n (fun _ _ => 0) c) with 0; [lra|]. unfold form. symmetry. transitivity (sumn n (fun _ => 0 * 0)); [|rewrite sumn_scal; ring].
    apply sumn_ext. intros i _. transitivity (sumn n (fun j => 0 * c j)); [apply sumn_ext; intros; ring|rewrite sumn_scal; ring].
  - apply semi_plus; [apply semi_one|exact IH].
Qed.
Lemma fold_app l k : fold_right Rplus 0 (l ++ k) = fold_right Rplus 0 l + fold_right Rplus 0 k.
Proof. induction l as [|a l IH]; simpl; [ring|]. rewrite IH. ring. Qed.
Lemma gram_plus K L : gram K -> gram L -> gram (fun i j => K i j + L i j).
Proof. intros (F & A) (G & B). exists (F ++ G). intros i j. rewrite A, B, map_app, fold_app. reflexivity. Qed.
Lemma gram_mult K L : gram K -> gram L -> gram (fun i j => K i j * L i j).
Proof.
  intros (F & A) (G & B). exists (flat_map (fun f => map (fun g i => f i * g i) G) F). intros i j. rewrite A, B. clear A B.
  induction F as [|f F IH]; simpl; [ring|]. rewrite map_app, fold_app, Rmult_plus_distr_r, IH. f_equal.
  rewrite map_map, <- fold_scal. f_equal. apply map_ext. intros g. ring.
Qed.
Lemma gram_feature f : gram (fun i j => f i * f j).
Proof. exists [f]. intros i j. simpl. ring. Qed.
Lemma gram_const a : 0 <= a -> gram (fun _ _ => a).
Proof. intros H. exists [fun _ => sqrt a]. intros i j. simpl. rewrite sqrt_sqrt by exact H. ring. Qed.
Lemma gram_ext K L : (forall i j, K i j = L i j) -> gram K -> gram L.
Proof. intros H (F & A). exists F. intros i j. rewrite <- H. apply A. Qed.
Lemma gram_pow K k : gram K -> gram (fun i j => K i j ^ k).
Proof. intros G. induction k as [|k IH]; simpl; [apply gram_const; lra|]. apply gram_mult; auto. Qed.
Lemma gram_sum K a N : gram K -> (forall k, 0 <= a k) -> gram (fun i j => sum_n (fun k => a k * K i j ^ k) N).
Proof.
  intros G A. induction N as [|N IH].
  - apply gram_ext with (fun i j => a O * K i j ^ 0); [intros; now rewrite sum_O|]. apply gram_mult; [apply gram_const, A|apply gram_pow, G].
  - apply gram_ext with (fun i j => sum_n (fun k => a k * K i j ^ k) N + a (S N) * K i j ^ (S N)); [intros; rewrite sum_Sn; reflexivity|].
    apply gram_plus; [exact IH|]. apply (gram_mult (fun _ _ => a (S N))); [apply gram_const, A|apply gram_pow, G].
Qed.
Lemma exp_lim x : is_lim_seq (fun N => sum_n (fun k => / INR (Factorial.fact k) * x ^ k) N) (exp x).
Proof.
  assert (H := is_exp_Reals x). unfold is_pseries, is_series in H. unfold is_lim_seq. simpl in H |- *.
  eapply filterlim_ext; [|exact H]. intros N. apply sum_n_ext. intros k. unfold scal. simpl. unfold mult. simpl. rewrite pow_n_pow. ring.
Qed.
Lemma gram_exp n K : gram K -> semidefinite n (fun i j => exp (K i j)).
Proof.
  intros G. apply (semi_lim n (fun N i j => sum_n (fun k => / INR (Factorial.fact k) * K i j ^ k) N)).
  - intros N. apply gram_semi, gram_sum; [exact G|]. intros k. left. apply Rinv_0_lt_compat, INR_fact_lt_0.
  - intros i j _ _. apply exp_lim.
Qed.

(** The Gaussian kernel of points with m coordinates. *)
Lemma gram_dot (x : nat -> nat -> R) (w : nat -> R) m : (forall k, 0 <= w k) -> gram (fun i j => sumn m (fun k => w k * (x i k * x j k))).
Proof.
  intros W. induction m as [|m IH].
  - exists []. intros i j. reflexivity.
  - apply gram_ext with (fun i j => sumn m (fun k => w k * (x i k * x j k)) + w m * (x i m * x j m)); [intros; now rewrite sumn_S|].
    apply gram_plus; [exact IH|]. apply (gram_mult (fun _ _ => w m)); [apply gram_const, W|apply (gram_feature (fun i => x i m))].
Qed.
Lemma gauss_semi n m (x : nat -> nat -> R) (w : nat -> R) : (forall k, 0 <= w k) -> semidefinite n (fun i j => exp (- sumn m (fun k => w k * Rsqr (x i k - x j k)))).
Proof.
  intros W. set (q := fun i => sumn m (fun k => w k * Rsqr (x i k))).
  apply (semi_ext n (fun i j => exp (- q i) * exp (- q j) * exp (2 * sumn m (fun k => w k * (x i k * x j k))))).
  - intros i j _ _. rewrite <- !exp_plus. f_equal. unfold q.
    replace (sumn m (fun k => w k * Rsqr (x i k - x j k))) with (sumn m (fun k => w k * Rsqr (x i k)) + sumn m (fun k => w k * Rsqr (x j k)) - 2 * sumn m (fun k => w k * (x i k * x j k))); [ring|].
    rewrite <- sumn_scal. unfold Rminus. replace (- sumn m (fun i0 => 2 * (w i0 * (x i i0 * x j i0)))) with (sumn m (fun i0 => -1 * (2 * (w i0 * (x i i0 * x j i0))))) by (rewrite sumn_scal; ring).
    rewrite <- !sumn_plus. apply sumn_ext. intros k _. unfold Rsqr. ring.
  - apply (semi_scale n (fun i j => exp (2 * sumn m (fun k => w k * (x i k * x j k)))) (fun i => exp (- q i))). apply gram_exp.
    apply (gram_mult (fun _ _ => 2)); [apply gram_const; lra|apply gram_dot, W].
Qed.
