(** Cholesky factors as functions of the matrix: recursion, uniqueness, derivative of the logarithm of the determinant and of
    quadratic forms.  Matrices are functions of the indices; only the entries below [n] count. *)
From Coq Require Import Reals List Arith Lia Lra.
From Coquelicot Require Import Coquelicot.
From Verif Require Import Lib_Sum.
Open Scope R_scope.

Definition lower (n : nat) (L : nat -> nat -> R) : Prop := forall i j, (i < j < n)%nat -> L i j = 0.
Definition factor (n : nat) (A L : nat -> nat -> R) : Prop :=
  lower n L /\ (forall i, (i < n)%nat -> 0 < L i i) /\
  forall i j, (i < n)%nat -> (j < n)%nat -> sumn n (fun k => L i k * L j k) = A i j.

Lemma sumn_cut n m f : (m <= n)%nat -> (forall k, (m <= k < n)%nat -> f k = 0) -> sumn n f = sumn m f.
Proof.
  intros L H. induction n as [|n IH]; [now replace m with 0%nat by lia|]. destruct (Nat.eq_dec m (S n)) as [->|N]; auto.
  rewrite sumn_S, IH, H by (auto; try lia; intros; apply H; lia). ring.
Qed.
Lemma sumn_ex_derive n (f : nat -> R -> R) x : (forall i, (i < n)%nat -> ex_derive (f i) x) -> ex_derive (fun u => sumn n (fun i => f i u)) x.
Proof. intros H. exists (sumn n (fun i => Derive (f i) x)). apply sumn_derive. intros i Hi. apply Derive_correct. auto. Qed.
Lemma locally_all n (P : nat -> R -> Prop) x : (forall i, (i < n)%nat -> locally x (P i)) -> locally x (fun t => forall i, (i < n)%nat -> P i t).
Proof.
  induction n as [|n IH]; intros H; [apply filter_forall; intros; lia|].
  apply (filter_imp (fun t => (forall i, (i < n)%nat -> P i t) /\ P n t)).
  - intros t (A & B) i Hi. destruct (Nat.eq_dec i n) as [->|]; auto. apply A. lia.
  - apply filter_and; auto.
Qed.
Lemma locally_pos f x : ex_derive f x -> 0 < f x -> locally x (fun t => 0 < f t).
Proof.
  intros D P. apply (ex_derive_continuous f) in D. apply (D (fun v => 0 < v)). apply open_gt. auto.
Qed.

(** The recursion: the first [j] columns. *)
Definition pivot (A M : nat -> nat -> R) (j : nat) : R := A j j - sumn j (fun k => M j k * M j k).
Fixpoint chol (A : nat -> nat -> R) (j : nat) : nat -> nat -> R :=
  match j with
  | O => fun _ _ => 0
  | S j => let M := chol A j in
      fun i c => if (c =? j)%nat then
        (if (i <? j)%nat then 0 else if (i =? j)%nat then sqrt (pivot A M j) else (A i j - sumn j (fun k => M i k * M j k)) / sqrt (pivot A M j))
        else M i c
  end.
Definition pivots (n : nat) (A : nat -> nat -> R) : Prop := forall j, (j < n)%nat -> 0 < pivot A (chol A j) j.

Lemma chol_unique n A L : factor n A L -> forall j, (j <= n)%nat ->
  (forall i c, (i < n)%nat -> (c < j)%nat -> chol A j i c = L i c) /\ (forall c, (c < j)%nat -> pivot A (chol A c) c = L c c * L c c).
Proof.
  intros (LO & DI & EQ). induction j as [|j IH]; intros Hj; [split; intros; lia|]. destruct IH as (I1 & I2); [lia|].
  assert (E : forall i, (j <= i < n)%nat -> sumn j (fun k => chol A j i k * chol A j j k) + L i j * L j j = A i j).
  { intros i Hi. rewrite <- EQ by lia. rewrite (sumn_cut n (S j)) by (try lia; intros k Hk; rewrite (LO j k) by lia; ring).
    rewrite sumn_S. f_equal. apply sumn_ext. intros k Hk. rewrite !I1 by lia. auto. }
  assert (Pj : pivot A (chol A j) j = L j j * L j j) by (unfold pivot; rewrite <- (E j) by lia; ring).
  assert (Sj : sqrt (pivot A (chol A j) j) = L j j) by (rewrite Pj; apply sqrt_square; left; apply DI; lia).
  split.
  - intros i c Hi Hc. cbn [chol]. destruct (Nat.eqb_spec c j) as [->|]; [|apply I1; lia].
    destruct (Nat.ltb_spec i j); [symmetry; apply LO; lia|]. rewrite Sj. destruct (Nat.eqb_spec i j) as [->|]; auto.
    rewrite <- (E i) by lia. specialize (DI j ltac:(lia)). field. lra.
  - intros c Hc. destruct (Nat.eq_dec c j) as [->|]; auto. apply I2. lia.
Qed.
Lemma factor_pivots n A L : factor n A L -> pivots n A.
Proof.
  intros F j Hj. rewrite (proj2 (chol_unique n A L F n (le_n n)) j Hj). destruct F as (_ & D & _). specialize (D j Hj). nra.
Qed.
Lemma chol_eq n A L i c : factor n A L -> (i < n)%nat -> (c < n)%nat -> L i c = chol A n i c.
Proof. intros F Hi Hc. symmetry. apply (chol_unique n A L F n); auto. Qed.
(** A column does not change after it has been made. *)
Lemma chol_keep A j m i c : (c < j)%nat -> (j <= m)%nat -> chol A m i c = chol A j i c.
Proof.
  intros Hc. induction m as [|m IH]; intros Hm; [lia|]. destruct (Nat.eq_dec j (S m)) as [->|]; auto.
  cbn [chol]. destruct (Nat.eqb_spec c m); [lia|]. apply IH. lia.
Qed.
Lemma chol_col A n j i : (j < n)%nat -> chol A n i j =
  (if (i <? j)%nat then 0 else if (i =? j)%nat then sqrt (pivot A (chol A j) j) else (A i j - sumn j (fun k => chol A j i k * chol A j j k)) / sqrt (pivot A (chol A j) j)).
Proof. intros H. rewrite (chol_keep A (S j)) by lia. cbn [chol]. now rewrite Nat.eqb_refl. Qed.
Lemma chol_factor n A : (forall i j, (i < n)%nat -> (j < n)%nat -> A i j = A j i) -> pivots n A -> factor n A (chol A n).
Proof.
  intros SY P.
  assert (LO : forall i j, (i < j < n)%nat -> chol A n i j = 0).
  { intros i j H. rewrite chol_col by lia. destruct (Nat.ltb_spec i j); [auto|lia]. }
  assert (DI : forall j, (j < n)%nat -> chol A n j j = sqrt (pivot A (chol A j) j)).
  { intros j H. rewrite chol_col by lia. rewrite Nat.ltb_irrefl, Nat.eqb_refl. auto. }
  assert (EQ : forall i j, (j <= i < n)%nat -> sumn n (fun k => chol A n i k * chol A n j k) = A i j).
  { intros i j H. rewrite (sumn_cut n (S j)) by (try lia; intros k Hk; rewrite (LO j k) by lia; ring). rewrite sumn_S.
    assert (E : sumn j (fun k => chol A n i k * chol A n j k) = sumn j (fun k => chol A j i k * chol A j j k)).
    { apply sumn_ext. intros k Hk. rewrite !(chol_keep A j n) by lia. auto. }
    rewrite E, (DI j) by lia. assert (Q := P j ltac:(lia)). destruct (Nat.eq_dec i j) as [->|N].
    - rewrite DI by lia. rewrite sqrt_sqrt by lra. unfold pivot. ring.
    - rewrite (chol_col A n j i) by lia. destruct (Nat.ltb_spec i j); [lia|]. destruct (Nat.eqb_spec i j); [lia|].
      pose proof (sqrt_lt_R0 _ Q). field. lra. }
  split; [exact LO|split].
  - intros i Hi. rewrite DI by auto. apply sqrt_lt_R0, P; auto.
  - intros i j Hi Hj. destruct (Nat.le_gt_cases j i); [apply EQ; lia|]. rewrite SY by auto. rewrite <- (EQ j i) by lia. apply sumn_ext. intros; ring.
Qed.

(** Differentiability. *)
Lemma sqrt_ex_derive f x : ex_derive f x -> 0 < f x -> ex_derive (fun t => sqrt (f t)) x.
Proof. intros H P. auto_derive. auto. Qed.
Lemma chol_ex_derive n (A : R -> nat -> nat -> R) x : (forall i j, (i < n)%nat -> (j < n)%nat -> ex_derive (fun t => A t i j) x) -> pivots n (A x) ->
  forall j, (j <= n)%nat -> (forall i c, (i < n)%nat -> (c < j)%nat -> ex_derive (fun t => chol (A t) j i c) x) /\
    (forall c, (c < j)%nat -> ex_derive (fun t => pivot (A t) (chol (A t) c) c) x).
Proof.
  intros D P. induction j as [|j IH]; intros Hj; [split; intros; lia|]. destruct IH as (I1 & I2); [lia|].
  assert (Dp : ex_derive (fun t => pivot (A t) (chol (A t) j) j) x).
  { unfold pivot. apply @ex_derive_minus; [apply D; lia|]. apply (sumn_ex_derive j (fun k t => chol (A t) j j k * chol (A t) j j k)). intros k Hk. apply ex_derive_mult; apply I1; lia. }
  assert (Ds := sqrt_ex_derive _ _ Dp (P j ltac:(lia))). assert (Ps := sqrt_lt_R0 _ (P j ltac:(lia))).
  split.
  - intros i c Hi Hc. cbn [chol]. destruct (Nat.eqb_spec c j) as [->|]; [|apply I1; lia].
    destruct (Nat.ltb_spec i j); [apply ex_derive_const|]. destruct (Nat.eqb_spec i j) as [->|]; auto.
    apply ex_derive_div; auto; [|lra]. apply @ex_derive_minus; [apply D; lia|].
    apply (sumn_ex_derive j (fun k t => chol (A t) j i k * chol (A t) j j k)). intros k Hk. apply ex_derive_mult; apply I1; lia.
  - intros c Hc. destruct (Nat.eq_dec c j) as [->|]; auto. apply I2. lia.
Qed.
Lemma pivots_locally n (A : R -> nat -> nat -> R) x : (forall i j, (i < n)%nat -> (j < n)%nat -> ex_derive (fun t => A t i j) x) -> pivots n (A x) ->
  locally x (fun t => pivots n (A t)).
Proof. intros D P. apply locally_all. intros j Hj. apply locally_pos; [|apply P; auto]. apply (chol_ex_derive n A x D P n); auto. Qed.

(** Forward substitution. *)
Fixpoint fsub (L : nat -> nat -> R) (b : nat -> R) (i : nat) : nat -> R :=
  match i with
  | O => fun _ => 0
  | S i => let x := fsub L b i in fun c => if (c =? i)%nat then (b i - sumn i (fun k => L i k * x k)) / L i i else x c
  end.
Lemma fsub_unique n L b x : lower n L -> (forall i, (i < n)%nat -> L i i <> 0) -> (forall i, (i < n)%nat -> sumn n (fun k => L i k * x k) = b i) ->
  forall i, (i <= n)%nat -> forall c, (c < i)%nat -> fsub L b i c = x c.
Proof.
  intros LO DI EQ. induction i as [|i IH]; intros Hi c Hc; [lia|]. cbn [fsub]. destruct (Nat.eqb_spec c i) as [->|]; [|apply IH; lia].
  rewrite <- EQ by lia. rewrite (sumn_cut n (S i)) by (try lia; intros k Hk; rewrite (LO i k) by lia; ring). rewrite sumn_S.
  rewrite (sumn_ext i (fun k => L i k * fsub L b i k) (fun k => L i k * x k)) by (intros k Hk; rewrite IH by lia; auto).
  specialize (DI i ltac:(lia)). field. auto.
Qed.
Lemma fsub_ex_derive n (L : R -> nat -> nat -> R) (b : R -> nat -> R) x : (forall i j, (i < n)%nat -> (j < n)%nat -> ex_derive (fun t => L t i j) x) ->
  (forall i, (i < n)%nat -> ex_derive (fun t => b t i) x) -> (forall i, (i < n)%nat -> L x i i <> 0) ->
  forall i, (i <= n)%nat -> forall c, (c < i)%nat -> ex_derive (fun t => fsub (L t) (b t) i c) x.
Proof.
  intros D B Z. induction i as [|i IH]; intros Hi c Hc; [lia|]. cbn [fsub]. destruct (Nat.eqb_spec c i) as [->|]; [|apply IH; lia].
  apply ex_derive_div; [|apply D; lia|apply Z; lia]. apply @ex_derive_minus; [apply B; lia|].
  apply (sumn_ex_derive i (fun k t => L t i k * fsub (L t) (b t) i k)). intros k Hk. apply ex_derive_mult; [apply D; lia|apply IH; lia].
Qed.
Lemma fsub_keep L b j m c : (c < j)%nat -> (j <= m)%nat -> fsub L b m c = fsub L b j c.
Proof.
  intros Hc. induction m as [|m IH]; intros Hm; [lia|]. destruct (Nat.eq_dec j (S m)) as [->|]; auto.
  cbn [fsub]. destruct (Nat.eqb_spec c m); [lia|]. apply IH. lia.
Qed.
Lemma fsub_solves n L b : lower n L -> (forall i, (i < n)%nat -> L i i <> 0) -> forall i, (i < n)%nat -> sumn n (fun k => L i k * fsub L b n k) = b i.
Proof.
  intros LO DI i Hi. rewrite (sumn_cut n (S i)) by (try lia; intros k Hk; rewrite (LO i k) by lia; ring). rewrite sumn_S.
  rewrite (sumn_ext i _ (fun k => L i k * fsub L b i k)) by (intros k Hk; rewrite (fsub_keep L b i n k) by lia; auto).
  rewrite (fsub_keep L b (S i) n i) by lia. cbn [fsub]. rewrite Nat.eqb_refl. specialize (DI i Hi). field. auto.
Qed.

(** ** The derivatives of the logarithm of the determinant and of the quadratic form, for a differentiable family of matrices.
    [M] is the inverse of the factor at [x]: the entries of M are those of L^-1. *)
Definition trace_of (n : nat) (B D : nat -> nat -> R) : R := sumn n (fun i => sumn n (fun j => B i j * D i j)).
Definition form (n : nat) (D : nat -> nat -> R) (g : nat -> R) : R := sumn n (fun i => sumn n (fun j => g i * D i j * g j)).

Lemma lower_inverse n L M : lower n L -> (forall i, (i < n)%nat -> L i i <> 0) ->
  (forall i j, (i < n)%nat -> (j < n)%nat -> sumn n (fun k => L i k * M k j) = identity i j) ->
  lower n M /\ (forall i, (i < n)%nat -> M i i = / L i i) /\ (forall i j, (i < n)%nat -> (j < n)%nat -> sumn n (fun k => M i k * L k j) = identity i j).
Proof.
  intros LO DI EQ.
  assert (LM : forall j i, (i < j < n)%nat -> M i j = 0).
  { intros j. induction i as [i IH] using lt_wf_ind. intros H. specialize (EQ i j ltac:(lia) ltac:(lia)).
    rewrite (sumn_cut n (S i)) in EQ by (try lia; intros k Hk; rewrite (LO i k) by lia; ring). rewrite sumn_S in EQ.
    rewrite sumn_zero in EQ by (intros k Hk; rewrite IH by lia; ring). unfold identity in EQ. destruct (Nat.eqb_spec i j); [lia|].
    specialize (DI i ltac:(lia)). assert (Z : L i i * M i j = 0) by lra. apply Rmult_integral in Z as [Z|Z]; [congruence|auto]. }
  assert (DM : forall i, (i < n)%nat -> M i i = / L i i).
  { intros i Hi. specialize (EQ i i Hi Hi). rewrite (sumn_cut n (S i)) in EQ by (try lia; intros k Hk; rewrite (LO i k) by lia; ring). rewrite sumn_S in EQ.
    rewrite sumn_zero in EQ by (intros k Hk; rewrite (LM i k) by lia; ring). unfold identity in EQ. rewrite Nat.eqb_refl in EQ.
    specialize (DI i Hi). apply (Rmult_eq_reg_l (L i i)); auto. rewrite Rinv_r by auto. lra. }
  split; [intros i j H; apply LM; auto|]. split; auto.
  (* the left inverse of M is L: solve the triangular system column by column *)
  set (N := fun i j => sumn n (fun k => M i k * L k j)).
  assert (EN : forall i j, (i < n)%nat -> (j < n)%nat -> sumn n (fun k => L i k * N k j) = L i j).
  { intros i j Hi Hj. unfold N. rewrite (sumn_ext n _ (fun k => sumn n (fun l => L i k * M k l * L l j))).
    2:{ intros k Hk. rewrite <- sumn_scal. apply sumn_ext. intros; ring. }
    rewrite sumn_swap. rewrite (sumn_ext n _ (fun l => identity i l * L l j)).
    2:{ intros l Hl. rewrite sumn_scal_r. now rewrite EQ. }
    exact (sumn_identity n (fun l => L l j) i Hi). }
  intros i j Hi Hj. change (N i j = identity i j).
  rewrite <- (fsub_unique n L (fun i => L i j) (fun k => N k j) LO DI (fun i Hi => EN i j Hi Hj) n (le_n n) i Hi).
  apply (fsub_unique n L (fun i => L i j) (fun k => identity k j)); auto.
  intros k Hk. rewrite (sumn_ext n _ (fun l => identity j l * L k l)) by (intros l Hl; unfold identity; rewrite (Nat.eqb_sym l j); ring). exact (sumn_identity n (fun l => L k l) j Hj).
Qed.

Section Family.
Variables (n : nat) (A L : R -> nat -> nat -> R) (x : R) (dA : nat -> nat -> R).
Hypothesis (DA : forall i j, (i < n)%nat -> (j < n)%nat -> is_derive (fun t => A t i j) x (dA i j)).
Hypothesis (FL : locally x (fun t => factor n (A t) (L t))).

Lemma family_at : factor n (A x) (L x).
Proof. now apply locally_singleton in FL. Qed.
Lemma family_ex i j : (i < n)%nat -> (j < n)%nat -> ex_derive (fun t => L t i j) x.
Proof.
  intros Hi Hj. assert (P := factor_pivots _ _ _ family_at).
  destruct (chol_ex_derive n A x) with (j := n) as (E & _); auto; [intros a b Ha Hb; exists (dA a b); auto|].
  apply (ex_derive_ext_loc (fun t => chol (A t) n i j)); [|apply E; auto].
  apply (filter_imp _ _ (fun t F => eq_sym (chol_eq n (A t) (L t) i j F Hi Hj)) FL).
Qed.
Let dL i j := Derive (fun t => L t i j) x.
Lemma dL_ok i j : (i < n)%nat -> (j < n)%nat -> is_derive (fun t => L t i j) x (dL i j).
Proof. intros. apply Derive_correct. now apply family_ex. Qed.
Lemma dL_lower : lower n dL.
Proof.
  intros i j H. unfold dL. rewrite (Derive_ext_loc _ (fun _ => 0)); [apply Derive_const|].
  apply (filter_imp _ _ (fun t F => proj1 F i j H) FL).
Qed.
Lemma dL_eq i j : (i < n)%nat -> (j < n)%nat -> sumn n (fun k => dL i k * L x j k + L x i k * dL j k) = dA i j.
Proof.
  intros Hi Hj. rewrite <- (is_derive_unique _ _ _ (DA i j Hi Hj)). symmetry.
  rewrite (Derive_ext_loc _ (fun t => sumn n (fun k => L t i k * L t j k))).
  - apply is_derive_unique. apply (sumn_derive n (fun k t => L t i k * L t j k)). intros k Hk.
    apply (is_derive_mult (fun t => L t i k) (fun t => L t j k)); try (apply dL_ok; auto). intros; apply Rmult_comm.
  - apply (filter_imp _ _ (fun t F => eq_sym (proj2 (proj2 F) i j Hi Hj)) FL).
Qed.

Definition logdet (t : R) : R := 2 * sumn n (fun i => ln (L t i i)).
Variable B : nat -> nat -> R.
Hypothesis (HB : forall i j, (i < n)%nat -> (j < n)%nat -> sumn n (fun k => A x i k * B k j) = identity i j).

(** The inverse of the factor, by forward substitution. *)
Let M (i j : nat) : R := fsub (L x) (fun k => identity k j) n i.
Lemma M_ok : lower n M /\ (forall i, (i < n)%nat -> M i i = / L x i i) /\ (forall i j, (i < n)%nat -> (j < n)%nat -> sumn n (fun k => M i k * L x k j) = identity i j).
Proof.
  destruct family_at as (LO & DI & _). assert (DN : forall i, (i < n)%nat -> L x i i <> 0) by (intros i Hi; specialize (DI i Hi); lra).
  apply lower_inverse; auto. intros i j Hi Hj. now apply (fsub_solves n (L x) (fun k => identity k j)).
Qed.
Lemma B_eq i j : (i < n)%nat -> (j < n)%nat -> B i j = sumn n (fun c => M c i * M c j).
Proof.
  intros Hi Hj. destruct M_ok as (_ & _ & ML). destruct family_at as (_ & _ & FA).
  (* M A = L^T, hence L^T B = M, hence B = M^T M *)
  assert (MA : forall c k, (c < n)%nat -> (k < n)%nat -> sumn n (fun a => M c a * A x a k) = L x k c).
  { intros c k Hc Hk. rewrite (sumn_ext n _ (fun a => sumn n (fun l => M c a * L x a l * L x k l))).
    2:{ intros a Ha. rewrite <- FA by auto. rewrite <- sumn_scal. apply sumn_ext. intros; ring. }
    rewrite sumn_swap. rewrite (sumn_ext n _ (fun l => identity c l * L x k l)). 2:{ intros l Hl. rewrite sumn_scal_r. now rewrite ML. }
    exact (sumn_identity n (fun l => L x k l) c Hc). }
  assert (LB : forall c, (c < n)%nat -> sumn n (fun k => L x k c * B k j) = M c j).
  { intros c Hc. rewrite (sumn_ext n _ (fun k => sumn n (fun a => M c a * (A x a k * B k j)))).
    2:{ intros k Hk. rewrite <- MA by auto. rewrite <- sumn_scal_r. apply sumn_ext. intros; ring. }
    rewrite sumn_swap. rewrite (sumn_ext n _ (fun a => identity j a * M c a)).
    2:{ intros a Ha. rewrite sumn_scal, HB by auto. unfold identity. rewrite (Nat.eqb_sym a j). ring. }
    exact (sumn_identity n (fun a => M c a) j Hj). }
  symmetry. rewrite (sumn_ext n _ (fun c => sumn n (fun k => M c i * L x k c * B k j))).
  2:{ intros c Hc. rewrite <- LB by auto. rewrite <- sumn_scal. apply sumn_ext. intros; ring. }
  rewrite sumn_swap. rewrite (sumn_ext n _ (fun k => identity i k * B k j)); [exact (sumn_identity n (fun k => B k j) i Hi)|].
  intros k Hk. rewrite sumn_scal_r. f_equal.
  (* L M = 1 *)
  destruct family_at as (LO & DI & _). pose proof (fsub_solves n (L x) (fun k => identity k i) LO ltac:(intros a Ha; specialize (DI a Ha); lra) k Hk) as E.
  cbv beta in E. fold (identity k i) in E. unfold identity. rewrite (Nat.eqb_sym i k). unfold identity in E. rewrite <- E. apply sumn_ext. intros c Hc. unfold M, identity. ring.
Qed.

Lemma logdet_derive : is_derive logdet x (trace_of n B dA).
Proof.
  destruct M_ok as (LM & DM & ML). destruct family_at as (LO & DI & _).
  evar_last.
  { apply (is_derive_scal (fun t => sumn n (fun i => ln (L t i i))) x 2). apply (sumn_derive n (fun i t => ln (L t i i)) (fun i => dL i i / L x i i)).
    intros i Hi. evar_last. { apply (is_derive_comp ln (fun t => L t i i)); [apply is_derive_ln; auto|apply dL_ok; auto]. } unfold scal; cbn; unfold mult; cbn. unfold Rdiv. ring. }
  unfold trace_of. symmetry.
  transitivity (sumn n (fun i => sumn n (fun j => sumn n (fun k => sumn n (fun c => M c i * M c j * (dL i k * L x j k + L x i k * dL j k)))))).
  { apply sumn_ext. intros i Hi. apply sumn_ext. intros j Hj. rewrite B_eq, <- dL_eq by auto. rewrite <- sumn_scal_r. rewrite sumn_swap. apply sumn_ext. intros k Hk.
    rewrite <- sumn_scal. auto. }
  assert (H1 : forall (f : nat -> nat -> nat -> nat -> R), sumn n (fun i => sumn n (fun j => sumn n (fun k => sumn n (fun c => f i j k c)))) = sumn n (fun c => sumn n (fun k => sumn n (fun i => sumn n (fun j => f i j k c))))).
  { intros f. rewrite (sumn_ext n _ (fun i => sumn n (fun k => sumn n (fun c => sumn n (fun j => f i j k c))))).
    2:{ intros i Hi. rewrite sumn_swap. apply sumn_ext. intros k Hk. apply sumn_swap. }
    rewrite sumn_swap. rewrite (sumn_ext n _ (fun k => sumn n (fun c => sumn n (fun i => sumn n (fun j => f i j k c))))) by (intros k Hk; apply sumn_swap). apply sumn_swap. }
  rewrite H1.
  rewrite <- sumn_scal. apply sumn_ext. intros c Hc.
  (* for fixed c: sum over k, i, j *)
  transitivity (sumn n (fun k => 2 * (identity c k * sumn n (fun i => M c i * dL i k)))).
  { apply sumn_ext. intros k Hk.
    transitivity (sumn n (fun i => M c i * dL i k) * sumn n (fun j => M c j * L x j k) + sumn n (fun i => M c i * L x i k) * sumn n (fun j => M c j * dL j k)).
    - rewrite <- !sumn_scal_r, <- sumn_plus. apply sumn_ext. intros i Hi. rewrite <- !sumn_scal, <- sumn_plus. apply sumn_ext. intros; ring.
    - rewrite !ML by auto. ring. }
  rewrite sumn_scal. rewrite sumn_identity by auto. f_equal.
  rewrite (sumn_cut n (S c)) by (try lia; intros k Hk; rewrite (LM c k) by lia; ring). rewrite sumn_S.
  rewrite sumn_zero by (intros k Hk; rewrite (dL_lower k c) by lia; ring). rewrite DM by auto. unfold Rdiv. ring.
Qed.

(** The quadratic form e^T A^-1 e of a constant vector, computed by a triangular solve. *)
Variables (e : nat -> R) (z : R -> nat -> R) (g : nat -> R).
Hypothesis (Hz : locally x (fun t => forall i, (i < n)%nat -> sumn n (fun k => L t i k * z t k) = e i)).
Hypothesis (Hg : forall i, (i < n)%nat -> sumn n (fun k => L x k i * g k) = z x i).
Lemma z_ex i : (i < n)%nat -> ex_derive (fun t => z t i) x.
Proof.
  intros Hi. apply (ex_derive_ext_loc (fun t => fsub (L t) e n i)).
  - apply (filter_imp (fun t => factor n (A t) (L t) /\ forall i, (i < n)%nat -> sumn n (fun k => L t i k * z t k) = e i)).
    + intros t ((LO & DI & _) & E). apply (fsub_unique n (L t) e (z t)); auto. intros k Hk. specialize (DI k Hk). lra.
    + apply filter_and; auto.
  - apply (fsub_ex_derive n L (fun _ => e)); auto; [apply family_ex|intros; apply ex_derive_const|].
    intros k Hk. destruct family_at as (_ & DI & _). specialize (DI k Hk). lra.
Qed.
Lemma quad_derive : is_derive (fun t => sumn n (fun i => z t i * z t i)) x (- form n dA g).
Proof.
  set (dz := fun i => Derive (fun t => z t i) x).
  assert (Dz : forall i, (i < n)%nat -> is_derive (fun t => z t i) x (dz i)) by (intros; apply Derive_correct; now apply z_ex).
  assert (E : forall i, (i < n)%nat -> sumn n (fun k => dL i k * z x k + L x i k * dz k) = 0).
  { intros i Hi. rewrite <- (Derive_const (e i) x). rewrite <- (Derive_ext_loc (fun t => sumn n (fun k => L t i k * z t k)) (fun _ => e i)).
    - symmetry. apply is_derive_unique. apply (sumn_derive n (fun k t => L t i k * z t k)). intros k Hk.
      apply (is_derive_mult (fun t => L t i k) (fun t => z t k)); [apply dL_ok; auto|apply Dz; auto|intros; apply Rmult_comm].
    - revert Hz. apply filter_imp. intros t F. exact (F i Hi). }
  evar_last.
  { apply (sumn_derive n (fun i t => z t i * z t i) (fun i => dz i * z x i + z x i * dz i)). intros i Hi.
    apply (is_derive_mult (fun t => z t i) (fun t => z t i)); [apply Dz; auto|apply Dz; auto|intros; apply Rmult_comm]. }
  (* z' = - L^-1 L' z, tested with g: g^T L' z + z^T z' = 0 *)
  assert (T : sumn n (fun i => g i * sumn n (fun k => dL i k * z x k)) + sumn n (fun k => z x k * dz k) = 0).
  { transitivity (sumn n (fun i => g i * sumn n (fun k => dL i k * z x k + L x i k * dz k))).
    - rewrite (sumn_ext n (fun i => g i * sumn n (fun k => dL i k * z x k + L x i k * dz k)) (fun i => g i * sumn n (fun k => dL i k * z x k) + sumn n (fun k => L x i k * g i * dz k))).
      2:{ intros i Hi. rewrite sumn_plus, Rmult_plus_distr_l. f_equal. rewrite <- sumn_scal. apply sumn_ext. intros; ring. }
      rewrite sumn_plus. f_equal. rewrite (sumn_swap n n (fun i k => L x i k * g i * dz k)). apply sumn_ext. intros k Hk. rewrite sumn_scal_r, Hg by auto. auto.
    - rewrite sumn_zero; auto. intros i Hi. rewrite E by auto. ring. }
  assert (Fm : form n dA g = 2 * sumn n (fun i => g i * sumn n (fun k => dL i k * z x k))).
  { unfold form. rewrite (sumn_ext n _ (fun i => sumn n (fun k => g i * dL i k * z x k + g i * L x i k * sumn n (fun j => dL j k * g j)))).
    2:{ intros i Hi. rewrite (sumn_ext n _ (fun j => sumn n (fun k => g i * (dL i k * L x j k + L x i k * dL j k) * g j))).
        2:{ intros j Hj. rewrite <- dL_eq by auto. rewrite <- sumn_scal, <- sumn_scal_r. auto. }
        rewrite sumn_swap. apply sumn_ext. intros k Hk. rewrite <- (Hg k) by auto. rewrite <- !sumn_scal, <- sumn_plus. apply sumn_ext. intros; ring. }
    rewrite (sumn_ext n _ (fun i => sumn n (fun k => g i * dL i k * z x k) + sumn n (fun k => g i * L x i k * sumn n (fun j => dL j k * g j)))) by (intros; apply sumn_plus).
    rewrite sumn_plus. rewrite (sumn_ext n (fun i => g i * sumn n (fun k => dL i k * z x k)) (fun i => sumn n (fun k => g i * dL i k * z x k))).
    2:{ intros i Hi. rewrite <- sumn_scal. apply sumn_ext. intros; ring. }
    rewrite (sumn_swap n n (fun i k => g i * L x i k * sumn n (fun j => dL j k * g j))).
    rewrite (sumn_ext n (fun j => sumn n (fun i => g i * L x i j * sumn n (fun j0 => dL j0 j * g j0))) (fun k => sumn n (fun j => g j * dL j k * z x k))).
    2:{ intros k Hk. rewrite sumn_scal_r. rewrite (sumn_ext n _ (fun i => L x i k * g i)) by (intros; ring). rewrite Hg by auto. rewrite <- sumn_scal. apply sumn_ext. intros; ring. }
    rewrite (sumn_swap n n (fun k j => g j * dL j k * z x k)). ring. }
  rewrite Fm. rewrite (sumn_ext n _ (fun i => 2 * (z x i * dz i))) by (intros; ring). rewrite sumn_scal. lra.
Qed.
End Family.
