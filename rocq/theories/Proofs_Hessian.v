(** Lemmas about the Hessian of the predicted mean. *)
From Coq Require Import Reals List Arith Bool Lra Lia.
From Coquelicot Require Import Coquelicot.
From Verif Require Import Model_Kernel Spec_Kernel Proofs_Kernel Properties_KernelGrad Model_Hessian Spec_Hessian.
Import ListNotations.
Open Scope R_scope.

Lemma sequence_total {A B} (f : A -> option B) (h : A -> B) l : (forall a, In a l -> f a = Some (h a)) -> sequence (map f l) = Some (map h l).
Proof. intros H. rewrite <- (sequence_map (map h l)), map_map. f_equal. apply map_ext_in. auto. Qed.
Lemma dot_zeros n b : dot (repeat 0 n) b = 0.
Proof. unfold dot. revert b. induction n as [|n IH]; intros [|c b]; cbn; auto. unfold sum in *. cbn. rewrite IH. ring. Qed.
Lemma dot_map_d {A} (e de : A -> R -> R) (l : list A) (c : list R) (u : R) :
  (forall a, In a l -> is_derive (e a) u (de a u)) ->
  is_derive (fun v => dot (map (fun a => e a v) l) c) u (dot (map (fun a => de a u) l) c).
Proof.
  unfold dot, sum. revert c. induction l as [|a l IH]; intros [|b c] H; cbn; try exact (is_derive_const 0 u).
  apply (is_derive_plus (fun v => e a v * b)); [|apply IH; intros; apply H; right; auto].
  apply (ex_base _ _ (de a u * b)); [|reflexivity].
  pose proof (H a (or_introl eq_refl)) as D. auto_derive; [exists (de a u); exact D|]. replace (Derive (fun x => e a x) u) with (de a u) by (symmetry; now apply is_derive_unique). ring.
Qed.
Lemma dot_ext {A} (f h : A -> R) l c : (forall a, In a l -> f a = h a) -> dot (map f l) c = dot (map h l) c.
Proof. intros H. unfold dot. do 2 f_equal. apply map_ext_in; auto. Qed.

(** The derivative of a trend: the coefficient of the coordinate. *)
Definition slope (t : trend) (b : list R) (l : nat) : R := match t with LinearT => nth (S l) b 0 | _ => 0 end.
Lemma dot_coord x j : forall b v, (j < length x)%nat -> length b = length x ->
  dot (set_coord x j v) b = dot x b - nth j x 0 * nth j b 0 + v * nth j b 0.
Proof.
  unfold dot, sum. revert j. induction x as [|a x IH]; intros [|j] [|c b] v Hj L; cbn in *; try lia.
  - ring.
  - unfold set_coord in *. cbn. rewrite IH by lia. ring.
Qed.
Lemma slope_d t b x j u : t <> Quadratic -> (j < length x)%nat -> length b = n_dim t (length x) ->
  is_derive (fun v => dot (basis t (set_coord x j v)) b) u (slope t b j).
Proof.
  intros N Hj L. destruct t; [|destruct b as [|b0 b]; [discriminate|]|congruence].
  - cbn [basis slope]. exact (is_derive_const _ u).
  - cbn [n_dim length] in L. apply (is_derive_ext (fun v => 1 * b0 + (dot x b - nth j x 0 * nth j b 0 + v * nth j b 0))).
    + intros v. rewrite <- dot_coord by lia. unfold dot, sum. reflexivity.
    + cbn [slope nth]. auto_derive; auto. ring.
Qed.
Lemma dot_coord_any z j l : (j < length z)%nat -> forall u, nth l (set_coord z j u) 0 = if (l =? j)%nat then u else nth l z 0.
Proof. intros. apply nth_set_coord; auto. Qed.

(** One term of the mean, of its gradient and of its Hessian, for the squared exponential. *)
Definition term (th z t : list R) : R := exp (- sum3 wsq th z t).
Definition term1 (th z : list R) (l : nat) (t : list R) : R := -2 * term th z t * (nth l th 0 * (nth l z 0 - nth l t 0)).
Definition term2 (th z : list R) (k l : nat) (t : list R) : R :=
  -2 * ((-2 * term th z t * (nth k th 0 * (nth k z 0 - nth k t 0))) * (nth l th 0 * (nth l z 0 - nth l t 0)) + term th z t * (if (k =? l)%nat then nth k th 0 else 0)).
Lemma set_coord_twice x j u v : (j < length x)%nat -> set_coord (set_coord x j u) j v = set_coord x j v.
Proof.
  intros H. apply (nth_ext _ _ 0 0); [rewrite !set_coord_length; rewrite ?set_coord_length; auto|].
  intros i Hi. rewrite !nth_set_coord; rewrite ?set_coord_length; auto. destruct (i =? j)%nat; auto.
Qed.
Lemma term_d th x t j : (j < length x)%nat -> length th = length x -> length t = length x ->
  is_derive (fun u => term th (set_coord x j u) t) (nth j x 0) (term1 th x j t).
Proof.
  intros Hj L1 L2. apply (ex_base _ _ _ _ (exp_d _ _ _ (wsq_d th x t j Hj L1 L2))). rewrite set_coord_same by auto. unfold term1, term. set (e := exp _). ring.
Qed.
Lemma term1_d th x t k l : (k < length x)%nat -> length th = length x -> length t = length x ->
  is_derive (fun u => term1 th (set_coord x k u) l t) (nth k x 0) (term2 th x k l t).
Proof.
  intros Hk L1 L2. pose proof (term_d th x t k Hk L1 L2) as D. set (E := fun u => term th (set_coord x k u) t). change (is_derive E (nth k x 0) (term1 th x k t)) in D.
  assert (Ex : E (nth k x 0) = term th x t) by (unfold E; now rewrite set_coord_same).
  unfold term2. rewrite <- Ex. destruct (Nat.eqb_spec k l) as [->|Nl].
  - apply (is_derive_ext (fun u => -2 * E u * (nth l th 0 * (u - nth l t 0)))). { intros u. unfold term1, E. now rewrite nth_set_coord, Nat.eqb_refl by auto. }
    unfold term1 in D. rewrite <- Ex in D. clear Ex. clearbody E.
    auto_derive; [eexists; exact D|]. match type of D with is_derive _ _ ?d => match goal with |- context [Derive ?f ?y] => replace (Derive f y) with d by (symmetry; apply is_derive_unique; exact D) end end. ring.
  - apply (is_derive_ext (fun u => -2 * E u * (nth l th 0 * (nth l x 0 - nth l t 0)))). { intros u. unfold term1, E. rewrite nth_set_coord by auto. destruct (Nat.eqb_spec l k); [congruence|reflexivity]. }
    unfold term1 in D. rewrite <- Ex in D. clear Ex. clearbody E.
    auto_derive; [eexists; exact D|]. match type of D with is_derive _ _ ?d => match goal with |- context [Derive ?f ?y] => replace (Derive f y) with d by (symmetry; apply is_derive_unique; exact D) end end. ring.
Qed.

Lemma mean_sq g n z : kern g = SqExp -> rectangular (X g) n -> length (theta g) = n -> length z = n ->
  mean g z = Some (dot (basis (tr g) z) (beta g) + dot (map (term (theta g) z) (X g)) (gamma g)).
Proof.
  intros K HX Ht Hz. unfold mean. rewrite K. rewrite (sequence_total _ (term (theta g) z)); auto.
  intros t Hi. unfold rectangular in HX. rewrite Forall_forall in HX. pose proof (HX t Hi). rewrite sq_at; [|lia|right; lia]. rewrite each_full by lia. reflexivity.
Qed.
Lemma map2_map_l {A B C} (f : B -> A -> C) (h : A -> B) l : map2 f (map h l) l = map (fun a => f (h a) a) l.
Proof. induction l; cbn; congruence. Qed.
Lemma corr_part_sq g n x : kern g = SqExp -> rectangular (X g) n -> length (theta g) = n -> length x = n ->
  exists H, corr_part g x = Some H /\ forall k l, (k < n)%nat -> (l < n)%nat -> H k l = dot (map (term2 (theta g) x k l) (X g)) (gamma g).
Proof.
  intros K HX Ht Hx. unfold corr_part. rewrite K. unfold corr_Hessian. destruct (Nat.ltb_spec (length (theta g)) (length x)); [lia|].
  rewrite (sequence_total _ (term (theta g) x)).
  2:{ intros t Hi. unfold rectangular in HX. rewrite Forall_forall in HX. pose proof (HX t Hi). rewrite sq_at; [|lia|right; lia]. rewrite each_full by lia. reflexivity. }
  eexists. split; [reflexivity|]. intros k l Hk Hl. rewrite map2_map_l, map_map. apply dot_ext. intros t Hi.
  unfold rectangular in HX. rewrite Forall_forall in HX. pose proof (HX t Hi). rewrite !diff_nth by lia. reflexivity.
Qed.
