(** Strictly positive definite matrices: the Gaussian kernel at different points, and mixtures. *)
From Coq Require Import Reals Lra Lia List Arith.
From Coquelicot Require Import Coquelicot.
From Verif Require Import Lib_Normal Lib_Sum Spec_Psd Lib_Psd Lib_Mixture Lib_Schur.
Import ListNotations.
Open Scope R_scope.

Lemma definite_ext n K L : (forall i j, (i < n)%nat -> (j < n)%nat -> K i j = L i j) -> definite n K -> definite n L.
Proof. intros H D c N. rewrite <- (form_ext n K L c H). now apply D. Qed.
(** A vector at which the form vanishes is in the kernel of the matrix. *)
Lemma semi_kernel n K c : symm n K -> semidefinite n K -> form n K c = 0 -> forall j, (j < n)%nat -> sumn n (fun i => c i * K i j) = 0.
Proof.
  intros SY PS Z j Hj. set (b := sumn n (fun i => c i * K i j)). destruct (Req_dec b 0) as [E|N]; auto. exfalso.
  assert (Q : forall s, 0 <= 2 * s * b + s * s * K j j).
  { intros s. specialize (PS (fun i => c i + s * identity j i)). replace (2 * s * b + s * s * K j j) with (form n K (fun i => c i + s * identity j i)); [exact PS|].
    unfold form.
    rewrite (sumn_ext n _ (fun i => sumn n (fun l => c i * c l * K i l) + s * (c i * K i j) + identity j i * (s * (sumn n (fun l => c l * K i l) + s * K i j)))).
    - rewrite !sumn_plus, sumn_scal, sumn_identity by auto. change (sumn n (fun i => sumn n (fun l => c i * c l * K i l))) with (form n K c). rewrite Z. fold b.
      rewrite (sumn_ext n (fun l => c l * K j l) (fun i => c i * K i j)) by (intros i Hi; now rewrite (SY j i)). fold b. ring.
    - intros i Hi. rewrite (sumn_ext n _ (fun l => c i * c l * K i l + (s * identity j i) * (c l * K i l) + identity j l * (s * (c i + s * identity j i) * K i l))) by (intros; ring).
      rewrite !sumn_plus, sumn_scal, sumn_identity by auto. ring. }
  destruct (Rle_lt_dec (K j j) 0) as [L|L].
  - specialize (Q (- b)). assert (0 < b * b) by (destruct (Rdichotomy _ _ N); nra). nra.
  - specialize (Q (- b / K j j)). replace (2 * (- b / K j j) * b + - b / K j j * (- b / K j j) * K j j) with (- (b * b / K j j)) in Q by (field; lra).
    assert (0 < b * b / K j j) by (apply Rdiv_lt_0_compat; auto; destruct (Rdichotomy _ _ N); nra). lra.
Qed.
Lemma gram_symm n G : gram G -> symm n G.
Proof. intros (F & E) i j _ _. rewrite !E. f_equal. apply map_ext. intros f. ring. Qed.
(** If the form of the exponential vanishes, so do the forms of all powers. *)
Lemma powers_vanish n G c : gram G -> form n (fun i j => exp (G i j)) c = 0 -> forall k, form n (fun i j => G i j ^ k) c = 0.
Proof.
  intros GG Z k. set (P := fun N => sum_n (fun k => / INR (Factorial.fact k) * form n (fun i j => G i j ^ k) c) N).
  assert (NN : forall k, 0 <= / INR (Factorial.fact k) * form n (fun i j => G i j ^ k) c).
  { intros l. apply Rmult_le_pos; [left; apply Rinv_0_lt_compat, INR_fact_lt_0|]. apply gram_semi, gram_pow, GG. }
  assert (EP : forall N, form n (fun i j => sum_n (fun k => / INR (Factorial.fact k) * G i j ^ k) N) c = P N).
  { unfold P. induction N as [|N IH].
    - rewrite sum_O. rewrite <- form_scal. apply form_ext. intros. now rewrite sum_O.
    - rewrite sum_Sn. rewrite <- IH. change (plus (form n (fun i j => sum_n (fun k0 => / INR (Factorial.fact k0) * G i j ^ k0) N) c) (/ INR (Factorial.fact (S N)) * form n (fun i j => G i j ^ S N) c))
        with (form n (fun i j => sum_n (fun k0 => / INR (Factorial.fact k0) * G i j ^ k0) N) c + / INR (Factorial.fact (S N)) * form n (fun i j => G i j ^ S N) c).
      rewrite <- form_scal, <- form_plus. apply form_ext. intros. now rewrite sum_Sn. }
  assert (L : is_lim_seq P (form n (fun i j => exp (G i j)) c)).
  { eapply is_lim_seq_ext; [exact EP|]. apply form_lim. intros. apply exp_lim. }
  assert (I : forall N, P N <= P (S N)) by (intros N; unfold P; rewrite sum_Sn; unfold plus; simpl; specialize (NN (S N)); simpl in NN; lra).
  assert (B : forall N, P N <= 0) by (intros N; rewrite <- Z; apply (is_lim_seq_incr_compare P _ L I N)).
  assert (T : / INR (Factorial.fact k) * form n (fun i j => G i j ^ k) c <= P k).
  { unfold P. destruct k as [|k]; [rewrite sum_O; apply Rle_refl|]. rewrite sum_Sn. unfold plus. simpl.
    assert (0 <= sum_n (fun k0 => / INR (Factorial.fact k0) * form n (fun i j => G i j ^ k0) c) k); [|simpl in *; lra].
    clear - NN. induction k as [|k IH]; [rewrite sum_O; apply NN|]. rewrite sum_Sn. unfold plus. simpl. specialize (NN (S k)). simpl in NN. lra. }
  specialize (B k). specialize (NN k). assert (E : / INR (Factorial.fact k) * form n (fun i j => G i j ^ k) c = 0) by lra.
  apply Rmult_integral in E as [E|E]; auto. exfalso. revert E. apply Rgt_not_eq, Rinv_0_lt_compat, INR_fact_lt_0.
Qed.
Lemma sumn_lim_zero n (c r : nat -> R) : (forall i, (i < n)%nat -> c i = 0 \/ Rabs (r i) < 1) -> is_lim_seq (fun k => sumn n (fun i => c i * r i ^ k)) 0.
Proof.
  intros H. replace 0 with (sumn n (fun i => 0 * 0)) by (rewrite sumn_scal; ring). apply sumn_lim. intros i Hi. rewrite Rmult_0_l. destruct (H i Hi) as [->|A].
  - apply is_lim_seq_ext with (fun _ => 0); [intros; ring|apply is_lim_seq_const].
  - replace (Finite 0) with (Rbar_mult (c i) 0) by (simpl; f_equal; ring). apply (is_lim_seq_scal_l (fun k => r i ^ k) (c i) 0). now apply is_lim_seq_geom.
Qed.
(** The index of a nonzero entry with the largest diagonal element. *)
Lemma largest n (c d : nat -> R) : (exists i, (i < n)%nat /\ c i <> 0) -> exists j, (j < n)%nat /\ c j <> 0 /\ forall i, (i < n)%nat -> c i <> 0 -> d i <= d j.
Proof.
  induction n as [|n IH]; intros (i & Hi & Ni); [lia|]. destruct (Req_dec (c n) 0) as [Z|N].
  - destruct IH as (j & Hj & Nj & B); [exists i; split; auto; destruct (Nat.eq_dec i n); [congruence|lia]|]. exists j. repeat split; auto. intros l Hl Nl. destruct (Nat.eq_dec l n); [congruence|]. apply B; auto. lia.
  - assert (D : (forall l, (l < n)%nat -> c l = 0) \/ exists l, (l < n)%nat /\ c l <> 0).
    { clear. induction n as [|n IH]; [left; intros; lia|]. destruct IH as [A|(l & Hl & Nl)]; [|right; exists l; split; auto]. destruct (Req_dec (c n) 0) as [Z|N]; [left|right; exists n; split; auto].
      intros l Hl. destruct (Nat.eq_dec l n) as [->|]; auto. apply A. lia. }
    destruct D as [A|D].
    + exists n. repeat split; auto. intros l Hl Nl. destruct (Nat.eq_dec l n) as [->|]; [lra|]. exfalso. apply Nl, A. lia.
    + destruct (IH D) as (j & Hj & Nj & B). destruct (Rle_lt_dec (d n) (d j)) as [L|L].
      * exists j. repeat split; auto. intros l Hl Nl. destruct (Nat.eq_dec l n) as [->|]; auto. apply B; auto. lia.
      * exists n. repeat split; auto. intros l Hl Nl. destruct (Nat.eq_dec l n) as [->|]; [lra|]. assert (d l <= d j) by (apply B; auto; lia). lra.
Qed.
(** The exponential of a matrix of scalar products of different vectors. *)
Lemma exp_definite n G : gram G -> (forall i j, (i < n)%nat -> (j < n)%nat -> i <> j -> 0 < G i i - 2 * G i j + G j j) -> definite n (fun i j => exp (G i j)).
Proof.
  intros GG DI c N. destruct (Rle_lt_or_eq_dec _ _ (gram_exp n G GG c)) as [P|Z]; auto. exfalso.
  set (H := fun i j => 1 + G i j). assert (GH : gram H) by (apply (gram_plus (fun _ _ => 1)); auto; apply gram_const; lra).
  assert (ZH : form n (fun i j => exp (H i j)) c = 0).
  { rewrite (form_ext n _ (fun i j => exp 1 * exp (G i j)) c) by (intros; unfold H; now rewrite exp_plus). rewrite form_scal, <- Z. ring. }
  destruct (largest n c (fun i => G i i) N) as (j & Hj & Nj & B).
  assert (PG : forall i, 0 <= G i i) by (intros i; destruct GG as (F & E); rewrite E; clear; induction F; simpl; [lra|nra]).
  assert (QG : forall i l, 0 <= G i i + 2 * G i l + G l l).
  { intros i l. destruct GG as (F & E). rewrite !E. clear. induction F as [|f F IH]; simpl; [lra|]. assert (0 <= (f i + f l) * (f i + f l)) by apply Rle_0_sqr. nra. }
  set (r := fun i => H i j / H j j). assert (PH : 0 < H j j) by (unfold H; specialize (PG j); lra).
  assert (K : forall k, sumn n (fun i => c i * r i ^ k) = 0).
  { intros k. assert (V := semi_kernel n (fun i j => H i j ^ k) c (gram_symm n _ (gram_pow H k GH)) (gram_semi n _ (gram_pow H k GH)) (powers_vanish n H c GH ZH k) j Hj). cbv beta in V.
    rewrite (sumn_ext n _ (fun i => / (H j j ^ k) * (c i * H i j ^ k))).
    - rewrite sumn_scal, V. ring.
    - intros i _. unfold r, Rdiv. rewrite Rpow_mult_distr, pow_inv. ring. }
  assert (RJ : r j = 1) by (unfold r; field; lra).
  assert (RI : forall i, (i < n)%nat -> i <> j -> c i = 0 \/ Rabs (r i) < 1).
  { intros i Hi Ni. destruct (Req_dec (c i) 0) as [E|E]; [now left|right]. specialize (B i Hi E). specialize (DI i j Hi Hj Ni). specialize (QG i j). unfold r. apply Rabs_def1.
    - apply Rmult_lt_reg_r with (H j j); auto. unfold Rdiv. rewrite Rmult_assoc, Rinv_l, Rmult_1_r by lra. unfold H. lra.
    - apply Rmult_lt_reg_r with (H j j); auto. unfold Rdiv. rewrite Rmult_assoc, Rinv_l, Rmult_1_r by lra. unfold H. specialize (PG j). lra. }
  set (c' := fun i => if (i =? j)%nat then 0 else c i).
  assert (L0 : is_lim_seq (fun k => sumn n (fun i => c' i * r i ^ k)) 0).
  { apply sumn_lim_zero. intros i Hi. unfold c'. destruct (Nat.eqb_spec i j); [now left|]. now apply RI. }
  assert (LC : is_lim_seq (fun k => sumn n (fun i => c' i * r i ^ k)) (- c j)).
  { apply is_lim_seq_ext with (fun _ => - c j); [|apply is_lim_seq_const]. intros k. specialize (K k).
    rewrite (sumn_ext n _ (fun i => c' i * r i ^ k + identity j i * (c i * r i ^ k))) in K.
    - rewrite sumn_plus, (sumn_identity n (fun i => c i * r i ^ k)) in K by auto. rewrite RJ, pow1 in K. lra.
    - intros i _. unfold c', identity. rewrite (Nat.eqb_sym j i). destruct (Nat.eqb_spec i j); ring. }
  assert (U := is_lim_seq_unique _ _ L0). rewrite (is_lim_seq_unique _ _ LC) in U. inversion U. lra.
Qed.
Lemma gauss_definite n m (x : nat -> nat -> R) (w : nat -> R) : (forall k, 0 <= w k) -> (forall k, (k < m)%nat -> 0 < w k) ->
  (forall i j, (i < n)%nat -> (j < n)%nat -> i <> j -> exists k, (k < m)%nat /\ x i k <> x j k) ->
  definite n (fun i j => exp (- sumn m (fun k => w k * Rsqr (x i k - x j k)))).
Proof.
  intros W WP D. set (q := fun i => sumn m (fun k => w k * Rsqr (x i k))). set (G := fun i j => 2 * sumn m (fun k => w k * (x i k * x j k))).
  assert (SD : forall i j, sumn m (fun k => w k * Rsqr (x i k - x j k)) = q i + q j - G i j).
  { intros i j. unfold q, G, Rminus. rewrite <- sumn_scal. replace (- sumn m (fun i0 => 2 * (w i0 * (x i i0 * x j i0)))) with (sumn m (fun i0 => -1 * (2 * (w i0 * (x i i0 * x j i0))))) by (rewrite sumn_scal; ring).
    rewrite <- !sumn_plus. apply sumn_ext. intros k _. unfold Rsqr. ring. }
  assert (GG : gram G) by (apply (gram_mult (fun _ _ => 2)); [apply gram_const; lra|apply gram_dot, W]).
  assert (QG : forall i, 2 * q i = G i i) by (intros i; unfold q, G; f_equal; apply sumn_ext; intros; unfold Rsqr; ring).
  assert (DE : definite n (fun i j => exp (G i j))).
  { apply exp_definite; auto. intros i j Hi Hj N. rewrite <- !QG. destruct (D i j Hi Hj N) as (k & Hk & Nk).
    assert (P : 0 < sumn m (fun k => w k * Rsqr (x i k - x j k))); [|rewrite SD in P; lra].
    clear - W WP Hk Nk. induction m as [|m IH]; [lia|]. rewrite sumn_S. assert (NN : forall p, 0 <= sumn p (fun k => w k * Rsqr (x i k - x j k))) by (intros p; apply sumn_nonneg; intros l; apply Rmult_le_pos; [apply W|apply Rle_0_sqr]).
    destruct (Nat.eq_dec k m) as [->|].
    - assert (0 < w m * Rsqr (x i m - x j m)) by (apply Rmult_lt_0_compat; [apply WP; lia|apply Rlt_0_sqr; lra]). specialize (NN m). lra.
    - assert (0 < sumn m (fun k => w k * Rsqr (x i k - x j k))) by (apply IH; [intros; apply WP; lia|lia]). assert (0 <= w m * Rsqr (x i m - x j m)) by (apply Rmult_le_pos; [apply W|apply Rle_0_sqr]). lra. }
  intros c (i & Hi & Ni). assert (P := DE (fun i => c i * exp (- q i))). cbv beta in P.
  replace (form n (fun i j => exp (- sumn m (fun k => w k * Rsqr (x i k - x j k)))) c) with (form n (fun i j => exp (G i j)) (fun i => c i * exp (- q i))).
  - apply P. exists i. split; auto. apply Rmult_integral_contrapositive_currified; auto. apply Rgt_not_eq, exp_pos.
  - unfold form. apply sumn_ext. intros a _. apply sumn_ext. intros b _. rewrite SD. replace (- (q a + q b - G a b)) with (- q a + - q b + G a b) by ring. rewrite !exp_plus. ring.
Qed.

Section MixStrict.
  Variables (n : nat) (b L : nat -> nat -> R).
  Hypothesis Hb : forall i j, 0 <= b i j.
  Hypothesis HG : forall a, 0 < a -> definite n (fun i j => exp (- (a * (b i j * b i j))) * L i j).
  Lemma rising_strict (f df : R -> R) x y : 0 < x -> x < y -> (forall u, 0 < u -> is_derive f u (df u)) -> (forall u, 0 < u -> 0 < df u) -> f x < f y.
  Proof.
    intros Hx Lt D P. destruct (MVT_gen f x y df) as (u & Hu & E).
    - intros u Hu. apply D. rewrite Rmin_left in Hu by lra. lra.
    - intros u Hu. apply derivable_continuous_pt. exists (df u). apply is_derive_Reals, D. rewrite Rmin_left in Hu by lra. lra.
    - rewrite Rmin_left in Hu by lra. assert (0 < df u) by (apply P; lra). nra.
  Qed.
  Lemma mix_strict (F dF : R -> R -> R) (w : R -> R) (h : R -> R) : (forall b u, 0 < u -> is_derive (F b) u (dF b u)) -> (forall b u, dF b u = w u * En b u) -> (forall u, 0 < u -> 0 < w u) ->
    (forall b, 0 <= b -> is_lim_seq (fun N => F b (up N) - F b (dn N)) (h b)) -> definite n (fun i j => h (b i j) * L i j).
  Proof.
    intros D E W LIM c NZ. set (f := fun u => form n (fun i j => F (b i j) u * L i j) c).
    assert (S : forall x y, 0 < x -> x < y -> f x < f y).
    { intros x y Hx Hy. apply (rising_strict f (fun u => form n (fun i j => dF (b i j) u * L i j) c)); auto; unfold f.
      - intros u Hu. apply (form_derive n (fun u i j => F (b i j) u * L i j)). intros i j.
        replace (dF (b i j) u * L i j) with (L i j * dF (b i j) u) by ring. apply is_derive_ext with (fun u => L i j * F (b i j) u); [intros; apply Rmult_comm|].
        apply (is_derive_scal (F (b i j)) u (L i j)), D, Hu.
      - intros u Hu. rewrite (form_ext n _ (fun i j => (w u * exp (- (u * u) / 2)) * (exp (- (/ (2 * (u * u)) * (b i j * b i j))) * L i j)) c).
        + rewrite form_scal. apply Rmult_lt_0_compat; [apply Rmult_lt_0_compat; [apply W, Hu|apply exp_pos]|]. apply HG; auto. apply Rinv_0_lt_compat. nra.
        + intros i j _ _. rewrite E. unfold En. replace (- (u * u + b i j * b i j / (u * u)) / 2) with (- (u * u) / 2 + - (/ (2 * (u * u)) * (b i j * b i j))) by (field; lra). rewrite exp_plus. ring. }
    assert (LF : is_lim_seq (fun N => f (up N) - f (dn N)) (form n (fun i j => h (b i j) * L i j) c)).
    { apply is_lim_seq_ext with (fun N => form n (fun i j => (F (b i j) (up N) - F (b i j) (dn N)) * L i j) c).
      - intros N. unfold f. rewrite (form_ext n _ (fun i j => F (b i j) (up N) * L i j + -1 * (F (b i j) (dn N) * L i j)) c) by (intros; ring). rewrite form_plus, form_scal. ring.
      - apply form_lim. intros i j _ _. apply is_lim_seq_ext with (fun N => L i j * (F (b i j) (up N) - F (b i j) (dn N))); [intros; ring|]. rewrite Rmult_comm.
        apply (is_lim_seq_scal_l _ (L i j) (h (b i j))), LIM, Hb. }
    assert (M : forall x y, 0 < x -> x <= y -> f x <= f y) by (intros x y Hx [Lt| ->]; [left; now apply S|lra]).
    assert (I : forall N, f (up N) - f (dn N) <= f (up (Datatypes.S N)) - f (dn (Datatypes.S N))).
    { intros N. destruct (dn_le N (Datatypes.S N) ltac:(lia)) as (A & B).
      pose proof (M _ _ (proj1 (dn_bounds (Datatypes.S N))) A). pose proof (M _ _ (up_pos N) B). lra. }
    apply Rlt_le_trans with (f (up 1) - f (dn 1)); [|apply (is_lim_seq_incr_compare _ _ LF I 1%nat)].
    assert (f (dn 1) < f (up 1)); [|lra]. apply S; [apply dn_bounds|]. unfold dn, up. simpl. lra.
  Qed.
  Lemma mix_exp_strict : definite n (fun i j => exp (- b i j) * L i j).
  Proof.
    apply (mix_strict F0 (fun b u => 2 / s2 * En b u) (fun _ => 2 / s2) (fun b => exp (- b))); [apply F0_derive|reflexivity| |apply F0_lim].
    intros u _. apply Rdiv_lt_0_compat; [lra|apply s2_pos].
  Qed.
  Lemma mix_matern_strict : definite n (fun i j => (1 + b i j) * exp (- b i j) * L i j).
  Proof.
    apply (mix_strict F1 (fun b u => 2 / s2 * (u * u * En b u)) (fun u => 2 / s2 * (u * u)) (fun b => (1 + b) * exp (- b))); [apply F1_derive|intros; ring| |apply F1_lim].
    intros u Hu. apply Rmult_lt_0_compat; [apply Rdiv_lt_0_compat; [lra|apply s2_pos]|nra].
  Qed.
End MixStrict.
