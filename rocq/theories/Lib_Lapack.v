(** The contracts of the linear algebra routines can be met. *)
From Coq Require Import Reals List Arith Lia Lra ZArith.
From Coquelicot Require Import Coquelicot.
From Verif Require Import Lib_Sum Lib_Chol Lib_GLS Model_Likelihood Spec_Likelihood.
Open Scope R_scope.

(** Back substitution. *)
Fixpoint bsub (G : nat -> nat -> R) (m : nat) (b : nat -> R) : nat -> R :=
  match m with
  | O => fun _ => 0
  | S m => fun c => if (c =? m)%nat then b m / G m m else bsub G m (fun a => b a - G a m * (b m / G m m)) c
  end.
Lemma bsub_solves G : forall m (b : nat -> R), upper m G -> (forall a, (a < m)%nat -> G a a <> 0) -> forall a, (a < m)%nat -> sumn m (fun c => G a c * bsub G m b c) = b a.
Proof.
  induction m as [|m IH]; intros b U D a Ha; [lia|]. rewrite sumn_S. cbn [bsub]. rewrite Nat.eqb_refl.
  rewrite (sumn_ext m _ (fun c => G a c * bsub G m (fun a => b a - G a m * (b m / G m m)) c)) by (intros c Hc; destruct (Nat.eqb_spec c m); [lia|auto]).
  destruct (Nat.eq_dec a m) as [->|N].
  - rewrite sumn_zero by (intros c Hc; rewrite U by lia; ring). specialize (D m ltac:(lia)). field. auto.
  - rewrite (IH (fun a => b a - G a m * (b m / G m m))) by (try lia; try (intros x z H; apply U; lia); intros x Hx; apply D; lia). ring.
Qed.

(** A positive definite matrix has positive pivots. *)
Lemma chol_row A m i c : pivots m A -> (c < m)%nat -> (c < i)%nat -> sumn m (fun k => chol A m i k * chol A m c k) = A i c.
Proof.
  intros P Hc Hi. assert (LO : forall k, (c < k < m)%nat -> chol A m c k = 0) by (intros k H; rewrite chol_col by lia; destruct (Nat.ltb_spec c k); [auto|lia]).
  rewrite (sumn_cut m (S c)) by (try lia; intros k Hk; rewrite (LO k) by lia; ring). rewrite sumn_S.
  rewrite (sumn_ext c _ (fun k => chol A c i k * chol A c c k)) by (intros k Hk; rewrite !(chol_keep A c m) by lia; auto).
  rewrite !chol_col by lia. rewrite Nat.ltb_irrefl, Nat.eqb_refl. destruct (Nat.ltb_spec i c); [lia|]. destruct (Nat.eqb_spec i c); [lia|].
  pose proof (sqrt_lt_R0 _ (P c Hc)). field. lra.
Qed.
Definition quad (n : nat) (A : nat -> nat -> R) (v : nat -> R) : R := sumn n (fun i => sumn n (fun j => v i * A i j * v j)).
Lemma positive_definite_pivots n A : symmetric n A -> (forall v, (exists i, (i < n)%nat /\ v i <> 0) -> 0 < quad n A v) -> pivots n A.
Proof.
  intros SY PD j. induction j as [j IH] using lt_wf_ind. intros Hj.
  assert (P : pivots j A) by (intros c Hc; apply IH; lia).
  assert (FA : factor j A (chol A j)) by (apply chol_factor; auto; intros; apply SY; lia).
  set (L := chol A j) in *. set (l := fun k => L j k). destruct FA as (LO & DI & EQ).
  set (U := fun r s => L s r). set (u := bsub U j l).
  assert (Hu : forall k, (k < j)%nat -> sumn j (fun a => L a k * u a) = l k).
  { intros k Hk. apply (bsub_solves U j l); auto; [intros r s H; apply LO; lia|]. intros r Hr. unfold U. specialize (DI r Hr). lra. }
  set (w := fun k => if (k =? j)%nat then 1 else if (k <? j)%nat then - u k else 0).
  assert (W1 : w j = 1) by (unfold w; now rewrite Nat.eqb_refl).
  assert (W2 : forall k, (k < j)%nat -> w k = - u k) by (intros k H; unfold w; destruct (Nat.eqb_spec k j); [lia|]; destruct (Nat.ltb_spec k j); [auto|lia]).
  assert (W3 : forall k, (j < k)%nat -> w k = 0) by (intros k H; unfold w; destruct (Nat.eqb_spec k j); [lia|]; destruct (Nat.ltb_spec k j); [lia|auto]).
  assert (Q := PD w ltac:(exists j; split; [auto|rewrite W1; lra])). unfold quad in Q.
  rewrite (sumn_cut n (S j)) in Q by (try lia; intros k Hk; apply sumn_zero; intros b Hb; rewrite (W3 k) by lia; ring).
  rewrite (sumn_ext (S j) _ (fun i => sumn (S j) (fun b => w i * A i b * w b))) in Q by (intros i Hi; apply sumn_cut; [lia|]; intros k Hk; rewrite (W3 k) by lia; ring).
  rewrite sumn_S in Q. rewrite (sumn_ext j _ (fun i => sumn j (fun b => u i * A i b * u b) - u i * A i j)) in Q.
  2:{ intros i Hi. rewrite sumn_S, W1, (W2 i) by auto. rewrite (sumn_ext j _ (fun b => u i * A i b * u b)) by (intros b Hb; rewrite (W2 b) by auto; ring). ring. }
  rewrite sumn_S, W1 in Q. rewrite (sumn_ext j (fun j0 => 1 * A j j0 * w j0) (fun b => -1 * (u b * A b j))) in Q by (intros b Hb; rewrite (W2 b), (SY j b) by lia; ring).
  rewrite sumn_minus, sumn_scal in Q.
  assert (E1 : sumn j (fun i => sumn j (fun b => u i * A i b * u b)) = sumn j (fun k => l k * l k)).
  { rewrite (sumn_ext j _ (fun i => sumn j (fun k => sumn j (fun b => u i * L i k * (L b k * u b))))).
    2:{ intros i Hi. rewrite sumn_swap. apply sumn_ext. intros b Hb. rewrite <- EQ by auto. rewrite <- sumn_scal, <- sumn_scal_r. apply sumn_ext. intros; ring. }
    rewrite (sumn_swap j j (fun i k => sumn j (fun b => u i * L i k * (L b k * u b)))). apply sumn_ext. intros k Hk.
    rewrite (sumn_ext j _ (fun i => L i k * u i * l k)) by (intros i Hi; rewrite sumn_scal, Hu by auto; ring). rewrite sumn_scal_r, Hu by auto. ring. }
  assert (E2 : sumn j (fun i => u i * A i j) = sumn j (fun k => l k * l k)).
  { rewrite (sumn_ext j _ (fun i => sumn j (fun k => L i k * u i * l k))).
    2:{ intros i Hi. rewrite (SY i j) by lia. rewrite <- (chol_row A j j i P Hi Hi). fold L. rewrite <- sumn_scal. apply sumn_ext. intros; unfold l; ring. }
    rewrite sumn_swap. apply sumn_ext. intros k Hk. rewrite sumn_scal_r, Hu by auto. ring. }
  rewrite E1, E2 in Q. unfold pivot. fold L. change (fun k => L j k * L j k) with (fun k => l k * l k). lra.
Qed.

(** An orthogonal factorisation from the factor of the normal equations. *)
Definition normal (n : nat) (M : nat -> nat -> R) (a b : nat) : R := sumn n (fun i => M i a * M i b).
Lemma sum_squares_zero n f : sumn n (fun i => f i * f i) <= 0 -> forall i, (i < n)%nat -> f i = 0.
Proof.
  induction n as [|n IH]; intros H i Hi; [lia|]. rewrite sumn_S in H.
  assert (0 <= sumn n (fun i => f i * f i)) by (apply sumn_nonneg; intros; apply Rle_0_sqr). pose proof (Rle_0_sqr (f n)) as Q. unfold Rsqr in Q.
  destruct (Nat.eq_dec i n) as [->|]; [|apply IH; [lra|lia]]. assert (Z : f n * f n = 0) by lra. apply Rmult_integral in Z. tauto.
Qed.
Lemma normal_factor_exists n p M : independent n p M -> factor p (normal n M) (chol (normal n M) p).
Proof.
  intros I. assert (SY : symmetric p (normal n M)) by (intros a b _ _; apply sumn_ext; intros; ring).
  apply chol_factor; auto. apply positive_definite_pivots; auto. intros v (c & Hc & Hv).
  assert (E : quad p (normal n M) v = sumn n (fun i => sumn p (fun a => M i a * v a) * sumn p (fun a => M i a * v a))).
  { unfold quad, normal. rewrite (sumn_ext p _ (fun a => sumn n (fun i => sumn p (fun b => v a * (M i a * M i b) * v b)))).
    2:{ intros a Ha. rewrite sumn_swap. apply sumn_ext. intros b Hb. rewrite <- sumn_scal, <- sumn_scal_r. apply sumn_ext. intros; ring. }
    rewrite sumn_swap. apply sumn_ext. intros i Hi. rewrite <- sumn_scal_r. apply sumn_ext. intros a Ha. rewrite <- sumn_scal. apply sumn_ext. intros; ring. }
  rewrite E. apply Rnot_le_lt. intros H. apply Hv. apply (I v); auto. intros i Hi. exact (sum_squares_zero n (fun i => sumn p (fun a => M i a * v a)) H i Hi).
Qed.
Definition my_qr (n p : nat) (M : matrix) : matrix * matrix :=
  let L := chol (normal n M) p in (fun i => fsub L (M i) p, fun a b => L b a).
Lemma my_qr_ok n p M : independent n p M -> is_qr n p M (fst (my_qr n p M)) (snd (my_qr n p M)).
Proof.
  intros I. assert (F := normal_factor_exists n p M I). unfold my_qr. cbn [fst snd]. set (L := chol (normal n M) p) in *. destruct F as (LO & DI & EQ).
  assert (DN : forall a, (a < p)%nat -> L a a <> 0) by (intros a Ha; specialize (DI a Ha); lra).
  set (Q := fun i => fsub L (M i) p).
  assert (HQ : forall i c, (c < p)%nat -> sumn p (fun k => L c k * Q i k) = M i c) by (intros i c Hc; apply (fsub_solves p L (M i)); auto).
  split; [|split].
  - intros i c Hi Hc. rewrite <- (HQ i c Hc). apply sumn_ext. intros; unfold Q; ring.
  - set (N := fun a b => sumn n (fun i => Q i a * Q i b)).
    (* L N = L^T columns: sum_k L a k * (sum_b N k b L c b) = L L^T *)
    assert (E1 : forall a c, (a < p)%nat -> (c < p)%nat -> sumn p (fun k => L a k * sumn p (fun b => N k b * L c b)) = sumn p (fun k => L a k * L c k)).
    { intros a c Ha Hc. rewrite EQ by auto. unfold normal. rewrite (sumn_ext n _ (fun i => sumn p (fun k => L a k * Q i k) * sumn p (fun b => L c b * Q i b))) by (intros i Hi; rewrite !HQ by auto; auto).
      rewrite (sumn_ext p _ (fun k => sumn n (fun i => L a k * Q i k * sumn p (fun b => L c b * Q i b)))).
      2:{ intros k Hk. unfold N. rewrite (sumn_ext p _ (fun b => sumn n (fun i => Q i k * (L c b * Q i b)))) by (intros b Hb; rewrite <- sumn_scal_r; apply sumn_ext; intros; ring).
        rewrite sumn_swap, <- sumn_scal. apply sumn_ext. intros i Hi. rewrite sumn_scal. ring. }
      rewrite sumn_swap. apply sumn_ext. intros i Hi. rewrite sumn_scal_r. auto. }
    assert (E2 : forall k c, (k < p)%nat -> (c < p)%nat -> sumn p (fun b => N k b * L c b) = L c k).
    { intros k c Hk Hc. rewrite <- (fsub_unique p L (fun a => sumn p (fun k => L a k * L c k)) (fun k => sumn p (fun b => N k b * L c b)) LO DN (fun a Ha => E1 a c Ha Hc) p (le_n p) k Hk).
      apply (fsub_unique p L (fun a => sumn p (fun k => L a k * L c k)) (fun k => L c k)); auto. }
    intros a b Ha Hb. change (N a b = identity a b).
    rewrite <- (fsub_unique p L (fun c => L c a) (fun b => N a b) LO DN (fun c Hc => eq_trans (sumn_ext p _ _ (fun k _ => Rmult_comm _ _)) (E2 a c Ha Hc)) p (le_n p) b Hb).
    apply (fsub_unique p L (fun c => L c a) (fun b => identity a b)); auto. intros c Hc.
    rewrite (sumn_ext p _ (fun k => identity a k * L c k)) by (intros; ring). exact (sumn_identity p (fun k => L c k) a Ha).
  - intros a b H. apply LO. lia.
Qed.

Definition all_pivots (n : nat) (A : matrix) : bool := List.forallb (fun j => if Rlt_dec 0 (pivot A (chol A j) j) then true else false) (List.seq 0 n).
Lemma all_pivots_ok n A : all_pivots n A = true <-> pivots n A.
Proof.
  unfold all_pivots. rewrite List.forallb_forall. split.
  - intros H j Hj. specialize (H j ltac:(apply List.in_seq; lia)). destruct (Rlt_dec 0 (pivot A (chol A j) j)); [auto|discriminate].
  - intros H j Hj. apply List.in_seq in Hj. specialize (H j ltac:(lia)). destruct (Rlt_dec 0 (pivot A (chol A j) j)); tauto.
Qed.
Definition my_cholesky (n : nat) (A : matrix) : option matrix := if all_pivots n A then Some (chol A n) else None.
Definition my_lower (n : nat) (L : matrix) (b : nat -> R) : nat -> R := fsub L b n.
Definition my_upper (n : nat) (U : matrix) (b : nat -> R) : nat -> R := bsub U n b.
Definition my_cho_solve (n : nat) (L B : matrix) : matrix := fun i j => bsub (fun a b => L b a) n (fsub L (fun k => B k j) n) i.
(** The rank of a projection is its trace. *)
Definition my_rank (n : nat) (A : matrix) : nat := Z.to_nat (Int_part (sumn n (fun i => A i i))).

Lemma lapack_exists : lapack my_cholesky my_qr my_lower my_upper my_cho_solve my_rank.
Proof.
  split.
  - intros n A L SY H. unfold my_cholesky in H. destruct (all_pivots n A) eqn:E; [|discriminate]. inversion H. apply chol_factor; auto. now apply all_pivots_ok.
  - intros n A L SY H. unfold my_cholesky. apply factor_pivots in H. apply all_pivots_ok in H. rewrite H. discriminate.
  - apply my_qr_ok.
  - intros n L b i LO DI Hi. now apply (fsub_solves n L b).
  - intros n U b i UP DI Hi. now apply (bsub_solves U n b).
  - intros n L B i j LO DI Hi Hj. set (w := fsub L (fun k => B k j) n).
    assert (H1 : forall c, (c < n)%nat -> sumn n (fun k => L k c * my_cho_solve n L B k j) = w c).
    { intros c Hc. apply (bsub_solves (fun a b => L b a) n w); auto. intros a b H. apply LO. lia. }
    rewrite <- (fsub_solves n L (fun k => B k j) LO DI i Hi). fold w.
    rewrite (sumn_ext n _ (fun k => sumn n (fun c => L i c * (L k c * my_cho_solve n L B k j)))) by (intros k Hk; rewrite <- sumn_scal_r; apply sumn_ext; intros; ring).
    rewrite sumn_swap. apply sumn_ext. intros c Hc. rewrite sumn_scal, H1 by auto. auto.
  - intros n p Q H. unfold my_rank. rewrite sumn_swap. rewrite (sumn_ext p _ (fun _ => 1)).
    + rewrite sumn_const, Rmult_1_r, Int_part_INR, Nat2Z.id. auto.
    + intros a Ha. rewrite H by auto. unfold identity. now rewrite Nat.eqb_refl.
Qed.
