(** Lemmas about the dimension-sweep algorithm (C21). *)
From Coq Require Import List Bool Arith ZArith QArith Permutation Sorted Lia Lqa Setoid.
From Verif Require Import Lib_List Model_Pareto Model_HV Spec_HV Proofs_HVmeasure.
Import ListNotations.
Open Scope nat_scope.

(** * Doubly linked lists *)
Fixpoint chain (f g : nat -> nat) (l : list nat) : Prop :=
  match l with a :: (b :: _) as t => f a = b /\ g b = a /\ chain f g t | _ => True end.
Lemma chain_app f g A a B : chain f g (A ++ a :: B) <-> chain f g (A ++ [a]) /\ chain f g (a :: B).
Proof.
  induction A as [|x A IH]; simpl app; [simpl; tauto|].
  destruct A as [|y A]; simpl app in *; [simpl; destruct B; tauto|].
  change (f x = y /\ g y = x /\ chain f g (y :: A ++ a :: B) <-> (f x = y /\ g y = x /\ chain f g (y :: A ++ [a])) /\ chain f g (a :: B)).
  rewrite IH. tauto.
Qed.
Lemma chain_cong f g f' g' l : (forall z, f z = f' z) -> (forall z, g z = g' z) -> chain f g l -> chain f' g' l.
Proof.
  intros Hf Hg. induction l as [|a l IH]; [auto|]. destruct l as [|b l]; [auto|].
  intros [H1 [H2 H3]]. split; [now rewrite <- Hf|]. split; [now rewrite <- Hg|]. now apply IH.
Qed.
Lemma chain_upd f g p v s w l : ~ In p (removelast l) -> ~ In s (tl l) -> chain f g l -> chain (upd f p v) (upd g s w) l.
Proof.
  induction l as [|a l IH]; [auto|]. destruct l as [|b l]; [auto|]. intros Hp Hs [H1 [H2 H3]].
  split; [|split].
  - unfold upd. destruct (Nat.eqb_spec a p) as [->|]; [|exact H1]. exfalso. apply Hp. simpl. now left.
  - unfold upd. destruct (Nat.eqb_spec b s) as [->|]; [|exact H2]. exfalso. apply Hs. simpl. now left.
  - apply IH; [|simpl in Hs |- *; tauto|exact H3]. intros H. apply Hp. simpl. right. exact H.
Qed.

Section Lists.
Variables (n m : nat) (data : nat -> nat -> Q).
Notation remove := (remove m data).
Notation reinsert := (reinsert m data).

Definition linked (st : mlist) (k : nat) (L : list nat) : Prop := chain (nx st k) (pv st k) (n :: L ++ [n]).
Definition leq (st st' : mlist) : Prop := forall k z, nx st k z = nx st' k z /\ pv st k z = pv st' k z.
Lemma leq_refl st : leq st st. Proof. now intros k z. Qed.
Lemma leq_trans a b c : leq a b -> leq b c -> leq a c.
Proof. intros H1 H2 k z. destruct (H1 k z), (H2 k z). split; congruence. Qed.
Lemma leq_sym a b : leq a b -> leq b a.
Proof. intros H k z. destruct (H k z). split; congruence. Qed.
Lemma linked_leq st st' k L : leq st st' -> linked st k L -> linked st' k L.
Proof. intros H. apply chain_cong; intros z; apply H. Qed.

(** ** remove and reinsert *)
Definition rm1 (x : nat) st k := let p := pv st k x in let s := nx st k x in set_pv (set_nx st k p s) k s p.
Definition ri1 (x : nat) st k := let st := set_nx st k (pv st k x) x in set_pv st k (nx st k x) x.
Lemma rm_links x i st k z :
  nx (fold_left (rm1 x) (seq 0 i) st) k z = (if (k <? i) && (z =? pv st k x) then nx st k x else nx st k z) /\
  pv (fold_left (rm1 x) (seq 0 i) st) k z = (if (k <? i) && (z =? nx st k x) then pv st k x else pv st k z).
Proof.
  revert k z. induction i as [|i IH]; intros k z; [now simpl|].
  rewrite seq_S, fold_left_app. simpl fold_left. set (st' := fold_left (rm1 x) (seq 0 i) st) in *.
  assert (Hi : forall z, nx st' i z = nx st i z /\ pv st' i z = pv st i z).
  { intros w. destruct (IH i w) as [E1 E2]. rewrite Nat.ltb_irrefl in E1, E2. now split. }
  unfold rm1. simpl nx. simpl pv. unfold upd2, upd.
  destruct (Nat.eqb_spec k i) as [->|N].
  - rewrite (proj2 (Nat.ltb_lt i (S i))) by lia. simpl andb. rewrite (proj1 (Hi x)), (proj2 (Hi x)).
    destruct (Hi z) as [-> ->]. split; reflexivity.
  - destruct (IH k z) as [-> ->].
    assert (E : (k <? S i) = (k <? i)) by (destruct (Nat.ltb_spec k (S i)), (Nat.ltb_spec k i); auto; lia). rewrite E. now split.
Qed.
Lemma remove_links st x i k z :
  nx (remove st x i) k z = (if (k <? i) && (z =? pv st k x) then nx st k x else nx st k z) /\
  pv (remove st x i) k z = (if (k <? i) && (z =? nx st k x) then pv st k x else pv st k z).
Proof. exact (rm_links x i st k z). Qed.
Lemma ri_links x i st k z : (forall k, k < i -> pv st k x <> x) ->
  nx (fold_left (ri1 x) (seq 0 i) st) k z = (if (k <? i) && (z =? pv st k x) then x else nx st k z) /\
  pv (fold_left (ri1 x) (seq 0 i) st) k z = (if (k <? i) && (z =? nx st k x) then x else pv st k z).
Proof.
  revert k z. induction i as [|i IH]; intros k z Hx; [now simpl|].
  rewrite seq_S, fold_left_app. simpl fold_left. set (st' := fold_left (ri1 x) (seq 0 i) st) in *.
  assert (Hx' : forall k, k < i -> pv st k x <> x) by (intros; apply Hx; lia).
  assert (Hi : forall z, nx st' i z = nx st i z /\ pv st' i z = pv st i z).
  { intros w. destruct (IH i w Hx') as [E1 E2]. rewrite Nat.ltb_irrefl in E1, E2. now split. }
  unfold ri1. simpl nx. simpl pv. unfold upd2, upd.
  destruct (Nat.eqb_spec k i) as [->|N].
  - rewrite (proj2 (Nat.ltb_lt i (S i))) by lia. simpl andb. rewrite Nat.eqb_refl, (proj1 (Hi x)), (proj2 (Hi x)).
    destruct (Hi z) as [-> ->]. destruct (Nat.eqb_spec x (pv st i x)) as [E|_]; [exfalso; apply (Hx i); [lia|now symmetry]|].
    split; reflexivity.
  - destruct (IH k z Hx') as [-> ->].
    assert (E : (k <? S i) = (k <? i)) by (destruct (Nat.ltb_spec k (S i)), (Nat.ltb_spec k i); auto; lia). rewrite E. now split.
Qed.
Lemma reinsert_links st x i k z : (forall k, k < i -> pv st k x <> x) ->
  nx (reinsert st x i) k z = (if (k <? i) && (z =? pv st k x) then x else nx st k z) /\
  pv (reinsert st x i) k z = (if (k <? i) && (z =? nx st k x) then x else pv st k z).
Proof. exact (ri_links x i st k z). Qed.

(** the other fields *)
Lemma rm_rest x i st : ign (fold_left (rm1 x) (seq 0 i) st) = ign st /\ ar (fold_left (rm1 x) (seq 0 i) st) = ar st /\
  vol (fold_left (rm1 x) (seq 0 i) st) = vol st /\ bd (fold_left (rm1 x) (seq 0 i) st) = bd st.
Proof.
  generalize (seq 0 i). intros l. revert st. induction l as [|k l IH]; intros st; [simpl; auto|]. simpl. destruct (IH (rm1 x st k)) as [-> [-> [-> ->]]].
  unfold rm1. simpl. auto.
Qed.
Lemma ri_rest x i st : ign (fold_left (ri1 x) (seq 0 i) st) = ign st /\ ar (fold_left (ri1 x) (seq 0 i) st) = ar st /\
  vol (fold_left (ri1 x) (seq 0 i) st) = vol st /\ bd (fold_left (ri1 x) (seq 0 i) st) = bd st.
Proof.
  generalize (seq 0 i). intros l. revert st. induction l as [|k l IH]; intros st; [simpl; auto|]. simpl. destruct (IH (ri1 x st k)) as [-> [-> [-> ->]]].
  unfold ri1. simpl. auto.
Qed.
Lemma remove_rest st x i : ign (remove st x i) = ign st /\ ar (remove st x i) = ar st /\ vol (remove st x i) = vol st /\
  forall k, bd (remove st x i) k = if k <? m then minb (bd st k) (data x k) else bd st k.
Proof.
  destruct (rm_rest x i st) as [E1 [E2 [E3 E4]]]. split; [exact E1|]. split; [exact E2|]. split; [exact E3|].
  intros k. change (bd (remove st x i) k) with (if k <? m then minb (bd (fold_left (rm1 x) (seq 0 i) st) k) (data x k) else bd (fold_left (rm1 x) (seq 0 i) st) k).
  now rewrite E4.
Qed.
Lemma reinsert_rest st x i : ign (reinsert st x i) = ign st /\ ar (reinsert st x i) = ar st /\ vol (reinsert st x i) = vol st /\
  forall k, bd (reinsert st x i) k = if k <? m then minb (bd st k) (data x k) else bd st k.
Proof.
  destruct (ri_rest x i st) as [E1 [E2 [E3 E4]]]. split; [exact E1|]. split; [exact E2|]. split; [exact E3|].
  intros k. change (bd (reinsert st x i) k) with (if k <? m then minb (bd (fold_left (ri1 x) (seq 0 i) st) k) (data x k) else bd (fold_left (ri1 x) (seq 0 i) st) k).
  now rewrite E4.
Qed.
Lemma remove_leq st st' x i : leq st st' -> leq (remove st x i) (remove st' x i).
Proof.
  intros H k z. destruct (remove_links st x i k z) as [-> ->]. destruct (remove_links st' x i k z) as [-> ->].
  destruct (H k z) as [-> ->]. destruct (H k x) as [-> ->]. now split.
Qed.

(** a node that is in list k *)
Definition is_in (st : mlist) (k x : nat) : Prop :=
  nx st k (pv st k x) = x /\ pv st k (nx st k x) = x /\ pv st k x <> x /\ nx st k x <> x.
Lemma linked_in st k A x B : NoDup (n :: A ++ x :: B) -> linked st k (A ++ x :: B) ->
  is_in st k x /\ pv st k x = last (n :: A) n /\ nx st k x = hd n (B ++ [n]).
Proof.
  intros ND H. unfold linked in H. rewrite <- app_assoc in H. simpl app in H. rewrite app_comm_cons in H.
  destruct (exists_last (l := n :: A) ltac:(discriminate)) as [A' [p EA]]. rewrite EA in *.
  destruct (B ++ [n]) as [|s B'] eqn:EB; [destruct B; discriminate|].
  rewrite last_last. simpl hd. rewrite <- app_assoc in H. simpl app in H.
  apply chain_app in H. destruct H as [_ H]. destruct H as [H1 [H2 H3]]. destruct H3 as [H3 [H4 _]].
  assert (Hp : In p (n :: A)) by (rewrite EA; apply in_or_app; right; now left).
  assert (Hs : In s (B ++ [n])) by (rewrite EB; now left).
  assert (Nx : ~ In x (n :: A) /\ ~ In x B).
  { change (n :: A ++ x :: B) with ((n :: A) ++ x :: B) in ND. apply NoDup_remove_2 in ND. split; intros I; apply ND; apply in_or_app; auto. }
  assert (px : p <> x) by (intros ->; tauto).
  assert (sx : s <> x). { intros ->. apply in_app_or in Hs. destruct Hs as [Hs|[Hs|[]]]; [tauto|]. apply (proj1 Nx). now left. }
  split; [|split; congruence]. split; [congruence|]. split; [congruence|]. split; congruence.
Qed.
Lemma remove_linked st k i A x B : k < i -> NoDup (n :: A ++ x :: B) -> linked st k (A ++ x :: B) ->
  linked (remove st x i) k (A ++ B).
Proof.
  intros Hk ND H. destruct (linked_in _ _ _ _ _ ND H) as [_ [Ep Es]].
  unfold linked in *. rewrite <- app_assoc in *. simpl app in H. rewrite app_comm_cons in *.
  assert (Q : chain (upd (nx st k) (pv st k x) (nx st k x)) (upd (pv st k) (nx st k x) (pv st k x)) ((n :: A) ++ B ++ [n])).
  2:{ revert Q. apply chain_cong; intros z; destruct (remove_links st x i k z) as [R1 R2]; rewrite ?R1, ?R2, (proj2 (Nat.ltb_lt k i) Hk); reflexivity. }
  rewrite Ep, Es.
  destruct (exists_last (l := n :: A) ltac:(discriminate)) as [A' [p EA]].
  destruct (B ++ [n]) as [|s B'] eqn:EB; [destruct B; discriminate|].
  rewrite EA, last_last. simpl hd. rewrite EA in H. rewrite <- app_assoc in H. simpl app in H.
  apply chain_app in H. destruct H as [H1 H2]. destruct H2 as [_ [_ H2]]. change (x :: s :: B') with ([x] ++ s :: B') in H2.
  apply (proj1 (chain_app _ _ [x] s B')) in H2. destruct H2 as [_ H2].
  assert (ND1 : NoDup (A' ++ [p])).
  { rewrite <- EA. apply NoDup_remove_1 with (a := x) (l := n :: A) (l' := B) in ND. simpl in ND. exact (NoDup_app_l (n :: A) B ND). }
  assert (ND2 : NoDup (s :: B')).
  { rewrite <- EB.
    inversion ND as [|? ? N1 N2]; subst. apply NoDup_app_r in N2. inversion N2 as [|? ? N3 N4]; subst.
    apply (Permutation_NoDup (l := n :: B)); [apply Permutation_cons_append|]. constructor; [|exact N4].
    intros I. apply N1. apply in_or_app. right. now right. }
  assert (sA : ~ In s A).
  { intros I. assert (Hs : In s (B ++ [n])) by (rewrite EB; now left). inversion ND as [|? ? N1 N2]; subst.
    apply in_app_or in Hs. destruct Hs as [Hs|[->|[]]].
    - exact (NoDup_app_dis A (x :: B) s N2 I (or_intror Hs)).
    - apply N1. apply in_or_app. now left. }
  assert (pB : ~ In p B).
  { intros I. assert (Hp : In p (n :: A)) by (rewrite EA; apply in_or_app; right; now left). inversion ND as [|? ? N1 N2]; subst.
    destruct Hp as [->|Hp].
    - apply N1. apply in_or_app. right. now right.
    - exact (NoDup_app_dis A (x :: B) p N2 Hp (or_intror I)). }
  rewrite <- app_assoc. simpl app. apply chain_app. split.
  - apply chain_upd; [| |exact H1].
    + rewrite removelast_last. apply NoDup_remove_2 in ND1. now rewrite app_nil_r in ND1.
    + rewrite <- EA. exact sA.
  - split; [unfold upd; now rewrite Nat.eqb_refl|]. split; [unfold upd; now rewrite Nat.eqb_refl|].
    apply chain_upd; [| |exact H2].
    + rewrite <- EB, removelast_last. exact pB.
    + simpl. now inversion ND2.
Qed.
Lemma remove_linked_other st k i x L : i <= k -> linked st k L -> linked (remove st x i) k L.
Proof.
  intros Hk. apply chain_cong; intros z; destruct (remove_links st x i k z) as [R1 R2]; rewrite ?R1, ?R2, (proj2 (Nat.ltb_ge k i) Hk); reflexivity.
Qed.
(** dancing links *)
Lemma dance st st1 x i : (forall k, k < i -> is_in st k x) -> leq st1 (remove st x i) -> leq (reinsert st1 x i) st.
Proof.
  intros H E k z.
  assert (E1 : forall k, k < i -> pv st1 k x = pv st k x /\ nx st1 k x = nx st k x).
  { intros j Hj. destruct (E j x) as [-> ->]. destruct (remove_links st x i j x) as [-> ->]. destruct (H j Hj) as [_ [_ [N1 N2]]].
    rewrite (proj2 (Nat.eqb_neq x (pv st j x))) by congruence. rewrite (proj2 (Nat.eqb_neq x (nx st j x))) by congruence.
    rewrite andb_false_r. now split. }
  destruct (reinsert_links st1 x i k z) as [-> ->].
  { intros j Hj. destruct (E1 j Hj) as [-> _]. apply (H j Hj). }
  destruct (E k z) as [-> ->]. destruct (remove_links st x i k z) as [-> ->].
  destruct (Nat.ltb_spec k i) as [Hk|Hk]; simpl andb; [|now split].
  destruct (E1 k Hk) as [-> ->]. destruct (H k Hk) as [I1 [I2 _]].
  split.
  - destruct (Nat.eqb_spec z (pv st k x)) as [->|]; congruence.
  - destruct (Nat.eqb_spec z (nx st k x)) as [->|]; congruence.
Qed.
End Lists.
