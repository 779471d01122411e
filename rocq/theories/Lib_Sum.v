(** Finite sums of real numbers and the identity matrix. *)
From Coq Require Import Reals Lra Lia List Arith.
From Coquelicot Require Import Coquelicot.
Import ListNotations.
Open Scope R_scope.

Definition sumn (n : nat) (f : nat -> R) : R := fold_right Rplus 0 (map f (seq 0 n)).
Definition identity (i j : nat) : R := if Nat.eqb i j then 1 else 0.

Lemma sumn_ext n f h : (forall i, (i < n)%nat -> f i = h i) -> sumn n f = sumn n h.
Proof. intros H. unfold sumn. f_equal. apply map_ext_in. intros i Hi. apply in_seq in Hi. apply H. lia. Qed.
Lemma fold_plus {A} (f h : A -> R) l : fold_right Rplus 0 (map (fun i => f i + h i) l) = fold_right Rplus 0 (map f l) + fold_right Rplus 0 (map h l).
Proof. induction l as [|a l IH]; simpl; [ring|]. rewrite IH. ring. Qed.
Lemma fold_scal {A} c (f : A -> R) l : fold_right Rplus 0 (map (fun i => c * f i) l) = c * fold_right Rplus 0 (map f l).
Proof. induction l as [|a l IH]; simpl; [ring|]. rewrite IH. ring. Qed.
Lemma sumn_plus n f h : sumn n (fun i => f i + h i) = sumn n f + sumn n h.
Proof. apply fold_plus. Qed.
Lemma sumn_scal n c f : sumn n (fun i => c * f i) = c * sumn n f.
Proof. apply fold_scal. Qed.
Lemma sumn_scal_r n c f : sumn n (fun i => f i * c) = sumn n f * c.
Proof. rewrite Rmult_comm, <- sumn_scal. apply sumn_ext. intros; ring. Qed.
Lemma fold_swap {A B} (f : A -> B -> R) l k :
  fold_right Rplus 0 (map (fun a => fold_right Rplus 0 (map (f a) k)) l) = fold_right Rplus 0 (map (fun b => fold_right Rplus 0 (map (fun a => f a b) l)) k).
Proof.
  induction l as [|a l IH]; simpl.
  - induction k as [|b k IHk]; simpl; [reflexivity|]. rewrite <- IHk. ring.
  - rewrite IH, <- fold_plus. reflexivity.
Qed.
Lemma sumn_swap n m (f : nat -> nat -> R) : sumn n (fun i => sumn m (f i)) = sumn m (fun j => sumn n (fun i => f i j)).
Proof. apply fold_swap. Qed.
Lemma sumn_identity n f i : (i < n)%nat -> sumn n (fun j => identity i j * f j) = f i.
Proof.
  intros Hi. unfold sumn. assert (G : forall l, NoDup l -> In i l -> fold_right Rplus 0 (map (fun j => identity i j * f j) l) = f i).
  { induction l as [|a l IH]; simpl; intros ND HI; [destruct HI|]. apply NoDup_cons_iff in ND as [Na ND].
    destruct (Nat.eq_dec i a) as [<-|N].
    - unfold identity at 1. rewrite Nat.eqb_refl.
      assert (Z : fold_right Rplus 0 (map (fun j => identity i j * f j) l) = 0).
      { clear - Na. induction l as [|b l IH]; simpl; [reflexivity|]. unfold identity at 1. destruct (Nat.eqb_spec i b); [subst; exfalso; apply Na; now left|].
        rewrite IH; [ring|]. intros H; apply Na; now right. }
      rewrite Z. ring.
    - destruct HI as [HI|HI]; [congruence|]. unfold identity at 1. destruct (Nat.eqb_spec i a); [congruence|]. rewrite IH; auto. ring. }
  apply G; [apply seq_NoDup|apply in_seq; lia].
Qed.
Lemma sumn_nonneg n f : (forall i, 0 <= f i) -> 0 <= sumn n f.
Proof. intros H. unfold sumn. induction (seq 0 n); simpl; [lra|]. specialize (H a). lra. Qed.
Lemma sumn_derive n (f : nat -> R -> R) (d : nat -> R) x : (forall i, (i < n)%nat -> is_derive (f i) x (d i)) -> is_derive (fun u => sumn n (fun i => f i u)) x (sumn n d).
Proof.
  intros H. unfold sumn. assert (G : forall l, (forall i, In i l -> (i < n)%nat) -> is_derive (fun u => fold_right Rplus 0 (map (fun i => f i u) l)) x (fold_right Rplus 0 (map d l))).
  { induction l as [|a l IH]; simpl; intros Hl; [auto_derive; [exact I|reflexivity]|].
    apply (is_derive_plus (f a) (fun u => fold_right Rplus 0 (map (fun i => f i u) l))); [apply H, Hl; now left|]. apply IH. intros; apply Hl; now right. }
  apply G. intros i Hi. apply in_seq in Hi. lia.
Qed.

Lemma sumn_S n f : sumn (S n) f = sumn n f + f n.
Proof.
  unfold sumn. rewrite seq_S, map_app. simpl. generalize (map f (seq 0 n)). intros l. induction l as [|a l IH]; simpl; [ring|]. rewrite IH. ring.
Qed.
Lemma sumn_0 f : sumn 0 f = 0.
Proof. reflexivity. Qed.
Lemma sumn_le n f h : (forall i, (i < n)%nat -> f i <= h i) -> sumn n f <= sumn n h.
Proof. induction n as [|n IH]; intros H; [rewrite !sumn_0; lra|]. rewrite !sumn_S. assert (f n <= h n) by (apply H; lia). assert (sumn n f <= sumn n h) by (apply IH; intros; apply H; lia). lra. Qed.
Lemma sumn_const n c : sumn n (fun _ => c) = INR n * c.
Proof. induction n as [|n IH]; [rewrite sumn_0; simpl; ring|]. rewrite sumn_S, IH, S_INR. ring. Qed.
Lemma sumn_pos n f : (0 < n)%nat -> (forall i, (i < n)%nat -> 0 < f i) -> 0 < sumn n f.
Proof.
  destruct n as [|n]; [lia|]. intros _ H. rewrite sumn_S. assert (0 < f n) by (apply H; lia).
  assert (0 <= sumn n f) by (rewrite <- (Rmult_0_r (INR n)), <- sumn_const; apply sumn_le; intros; left; apply H; lia). lra.
Qed.
Lemma sumn_minus n f h : sumn n (fun i => f i - h i) = sumn n f - sumn n h.
Proof. rewrite (sumn_ext _ _ (fun i => f i + -1 * h i)) by (intros; ring). rewrite sumn_plus, sumn_scal. ring. Qed.
Lemma sumn_zero n f : (forall i, (i < n)%nat -> f i = 0) -> sumn n f = 0.
Proof. intros H. rewrite (sumn_ext _ _ (fun _ => 0)) by assumption. rewrite sumn_const. ring. Qed.
