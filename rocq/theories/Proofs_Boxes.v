(** Lemmas about Model_Boxes.v: binary partitioning. *)
From Coq Require Import List Bool Arith ZArith QArith Qminmax Permutation Lia Lqa.
From Verif Require Import Lib_List Model_Pareto Spec_Pareto Proofs_Pareto Model_Boxes Spec_Boxes.
Import ListNotations.
Open Scope nat_scope.

Definition leE (e : ext) (q : Q) : bool := match e with NInf => true | Val a => Qle_bool a q | PInf => false end.
Definition ltE (q : Q) (e : ext) : bool := match e with NInf => false | Val a => Qltb q a | PInf => true end.
Lemma leE_neg e q : ltE q e = negb (leE e q).
Proof. destruct e; reflexivity. Qed.
Lemma Qle_bool_spec a b : Qle_bool a b = true <-> (a <= b)%Q.
Proof. apply Qle_bool_iff. Qed.

(** *** sums and counts *)
Definition occ {A} (f : A -> bool) (l : list A) : nat := length (filter f l).
Lemma occ_app {A} (f : A -> bool) l r : occ f (l ++ r) = occ f l + occ f r.
Proof. unfold occ. rewrite filter_app, app_length. reflexivity. Qed.
Lemma occ_cons {A} (f : A -> bool) a l : occ f (a :: l) = (if f a then 1 else 0) + occ f l.
Proof. unfold occ. simpl. destruct (f a); reflexivity. Qed.
Lemma occ_one {A} (f : A -> bool) l : occ f l = 1 -> exists a c b, l = a ++ c :: b /\ f c = true /\ forall d, In d (a ++ b) -> f d = false.
Proof.
  induction l as [|x l IH]; [discriminate|]. rewrite occ_cons. destruct (f x) eqn:E; intros H.
  - exists [], x, l. split; [reflexivity|]. split; [exact E|]. simpl. intros d Hd.
    destruct (f d) eqn:Ed; [|reflexivity]. assert (In d (filter f l)) by (apply filter_In; auto).
    unfold occ in H. destruct (filter f l); [destruct H0|simpl in H; lia].
  - destruct (IH H) as (a&c&b&->&Hc&Hd). exists (x :: a), c, b. split; [reflexivity|]. split; [exact Hc|].
    intros d [<-|K]; auto.
Qed.
Lemma occ_zero {A} (f : A -> bool) l : occ f l = 0 -> forall d, In d l -> f d = false.
Proof.
  intros H d Hd. destruct (f d) eqn:Ed; [|reflexivity]. assert (In d (filter f l)) by (apply filter_In; auto).
  unfold occ in H. destruct (filter f l); [destruct H0|simpl in H; lia].
Qed.

(** *** minima and maxima *)
Lemma fold_Qmin l : forall a, (fold_left Qmin l a <= a)%Q /\ forall v, In v l -> (fold_left Qmin l a <= v)%Q.
Proof.
  induction l as [|b l IH]; intros a; simpl; [split; [lra|intros v []]|].
  destruct (IH (Qmin a b)) as [A B]. pose proof (Q.le_min_l a b). pose proof (Q.le_min_r a b).
  split; [lra|]. intros v [->|H1]; [lra|auto].
Qed.
Lemma fold_Qmax l : forall a, (a <= fold_left Qmax l a)%Q /\ forall v, In v l -> (v <= fold_left Qmax l a)%Q.
Proof.
  induction l as [|b l IH]; intros a; simpl; [split; [lra|intros v []]|].
  destruct (IH (Qmax a b)) as [A B]. pose proof (Q.le_max_l a b). pose proof (Q.le_max_r a b).
  split; [lra|]. intros v [->|H1]; [lra|auto].
Qed.
Lemma vmin_le c v : In v c -> (vmin c <= v)%Q.
Proof. destruct c as [|a l]; [intros []|]. simpl. destruct (fold_Qmin l a). intros [->|H1]; auto. Qed.
Lemma vmax_ge c v : In v c -> (v <= vmax c)%Q.
Proof. destruct c as [|a l]; [intros []|]. simpl. destruct (fold_Qmax l a). intros [->|H1]; auto. Qed.

Lemma nth_error_indexed {A} (l : list A) i : nth_error (indexed l) i = option_map (pair i) (nth_error l i).
Proof.
  unfold indexed. rewrite nth_error_combine, nth_error_seq.
  destruct (nth_error l i) eqn:E.
  - assert (i < length l) by (apply nth_error_Some; congruence). destruct (Nat.ltb_spec i (length l)); [reflexivity|lia].
  - apply nth_error_None in E. destruct (Nat.ltb_spec i (length l)); [lia|reflexivity].
Qed.

Lemma forallb_indexed {A} (f : nat * A -> bool) l :
  forallb f (indexed l) = true <-> forall j a, nth_error l j = Some a -> f (j, a) = true.
Proof.
  rewrite forallb_forall. split.
  - intros H j a E. apply H. apply nth_error_In with j. rewrite nth_error_indexed, E. reflexivity.
  - intros H [j a] K. apply In_nth_error in K. destruct K as (n&K). rewrite nth_error_indexed in K.
    destruct (nth_error l n) eqn:E; [|discriminate]. injection K as <- <-. apply H, E.
Qed.
Lemma nth_error_update {A} n (f : A -> A) l j :
  nth_error (update_nth n f l) j = option_map (fun a => if j =? n then f a else a) (nth_error l j).
Proof.
  unfold update_nth. rewrite nth_error_map, nth_error_indexed. destruct (nth_error l j); reflexivity.
Qed.
Lemma update_length {A} n (f : A -> A) l : length (update_nth n f l) = length l.
Proof. unfold update_nth, indexed. rewrite map_length, combine_length, seq_length. lia. Qed.

(** *** products of natural numbers *)
Definition nprod (l : list nat) : nat := fold_right Nat.mul 1 l.
Lemma nprod_pos l : (forall d, In d l -> 1 <= d) -> 1 <= nprod l.
Proof.
  induction l as [|a l IH]; intros H; simpl; [lia|]. specialize (IH (fun d Hd => H d (or_intror Hd))).
  specialize (H a (or_introl eq_refl)). nia.
Qed.
Lemma update_split {A} (a : list A) d b f : update_nth (length a) f (a ++ d :: b) = a ++ f d :: b.
Proof.
  apply nth_error_ext. intros i. rewrite nth_error_update.
  destruct (Nat.lt_trichotomy i (length a)) as [L|[->|L]].
  - rewrite !nth_error_app1 by exact L. destruct (Nat.eqb_spec i (length a)); [lia|]. destruct (nth_error a i); reflexivity.
  - rewrite !nth_error_app2, Nat.sub_diag, Nat.eqb_refl by lia. reflexivity.
  - rewrite !nth_error_app2 by lia. destruct (Nat.eqb_spec i (length a)); [lia|].
    destruct (i - length a) as [|k] eqn:E; [lia|]. simpl. destruct (nth_error b k); reflexivity.
Qed.
Lemma nprod_app a b : nprod (a ++ b) = nprod a * nprod b.
Proof. induction a as [|x a IH]; simpl; [lia|]. rewrite IH. lia. Qed.
Lemma nprod_update l k x y : nth_error l k = Some (x + y) ->
  nprod l = nprod (update_nth k (fun _ => x) l) + nprod (update_nth k (fun _ => y) l).
Proof.
  intros H. apply nth_error_split in H. destruct H as (a&b&->&<-). rewrite !update_split, !nprod_app. simpl.
  fold (nprod b). nia.
Qed.

(** *** the sorted columns *)
Section Sorted.
  Variable argsort : list Q -> list nat.
  Variable argmax : list nat -> nat.
  Hypothesis HS : sorts argsort.
  Hypothesis HM : finds_max argmax.
  Variable m : nat.
  Variable P : list vec.
  Variable ref : vec.
  Notation n := (length P).
  Hypothesis HP : rectangular m P.
  Hypothesis HB : forall p j, In p P -> j < m -> (nth j p 0 < - nth j ref 0)%Q.

  Notation idx j := (aug_idx argsort P j).
  Notation atp := (at_pos argsort P).
  Definition W (j pos : nat) : ext := bound_at P ref (atp j pos) j.
  Definition A (j pos : nat) : Q := aug_at m P (atp j pos) j.

  Lemma col_len j : length (col j P) = n.
  Proof. apply map_length. Qed.
  Lemma col_nth j i p : nth_error P i = Some p -> nth i (col j P) 0%Q = nth j p 0%Q.
  Proof. intros H. apply nth_error_nth. unfold col. rewrite nth_error_map, H. reflexivity. Qed.
  Lemma sort_len j : length (argsort (col j P)) = n.
  Proof. destruct (HS (col j P)) as [H _]. apply Permutation_length in H. rewrite seq_length, col_len in H. exact H. Qed.
  Lemma sort_lt j k i : nth_error (argsort (col j P)) k = Some i -> i < n.
  Proof.
    intros H. destruct (HS (col j P)) as [K _]. apply nth_error_In in H. apply (Permutation_in _ K) in H.
    apply in_seq in H. rewrite col_len in H. lia.
  Qed.
  Lemma atp_0 j : atp j 0 = 0.
  Proof. reflexivity. Qed.
  Lemma atp_mid j k : k < n -> exists i, nth_error (argsort (col j P)) k = Some i /\ atp j (S k) = S i.
  Proof.
    intros H. assert (L : k < length (argsort (col j P))) by (rewrite sort_len; exact H).
    destruct (lt_nth_error _ _ L) as (i&E). exists i. split; [exact E|].
    unfold at_pos, aug_idx. cbn [nth]. rewrite app_nth1 by (rewrite map_length; exact L).
    apply nth_error_nth. rewrite nth_error_map, E. reflexivity.
  Qed.
  Lemma atp_top j : atp j (S n) = S n.
  Proof.
    unfold at_pos, aug_idx. cbn [nth]. rewrite app_nth2; rewrite map_length, sort_len; [|lia].
    rewrite Nat.sub_diag. reflexivity.
  Qed.

  (** the value at an inner position *)
  Lemma mid_val j k : j < m -> k < n -> exists p, In p P /\ W j (S k) = Val (nth j p 0%Q) /\ A j (S k) = nth j p 0%Q.
  Proof.
    intros Hj Hk. destruct (atp_mid j k Hk) as (i&E&F). assert (Hi := sort_lt _ _ _ E).
    destruct (lt_nth_error _ _ Hi) as (p&Ep). exists p. split; [eapply nth_error_In; eauto|].
    unfold W, A. rewrite F. split.
    - unfold bound_at. rewrite Ep. reflexivity.
    - unfold aug_at, aug_pareto. cbn [nth]. rewrite app_nth1 by exact Hi. rewrite (nth_error_nth _ _ [] Ep). reflexivity.
  Qed.
  Lemma pos_of p j : In p P -> exists k, k < n /\ W j (S k) = Val (nth j p 0%Q) /\ A j (S k) = nth j p 0%Q.
  Proof.
    intros H. destruct (In_nth_error _ _ H) as (i&E). destruct (HS (col j P)) as [K _].
    assert (I : In i (argsort (col j P))).
    { apply (Permutation_in _ (Permutation_sym K)). apply in_seq. rewrite col_len. split; [lia|]. simpl. apply nth_error_Some. congruence. }
    destruct (In_nth_error _ _ I) as (k&Ek). assert (Hk : k < n) by (rewrite <- (sort_len j); apply nth_error_Some; congruence).
    exists k. split; [exact Hk|]. destruct (atp_mid j k Hk) as (i'&E'&F). assert (i' = i) by congruence. subst i'.
    unfold W, A. rewrite F. split.
    - unfold bound_at. rewrite E. reflexivity.
    - unfold aug_at, aug_pareto. cbn [nth]. rewrite app_nth1 by (apply nth_error_Some; congruence).
      rewrite (nth_error_nth _ _ [] E). reflexivity.
  Qed.
  Lemma bot_val j : j < m -> A j 0 = (vmin (col j P) - 1)%Q /\ W j 0 = NInf.
  Proof.
    intros H. split; [|reflexivity]. unfold A. rewrite atp_0. unfold aug_at, aug_pareto. cbn [nth]. unfold ideal.
    apply nth_error_nth. rewrite nth_error_map, nth_error_seq. destruct (Nat.ltb_spec j m); [reflexivity|lia].
  Qed.
  Lemma top_val j : j < m -> A j (S n) = (vmax (col j P) + 1)%Q /\ W j (S n) = Val (- nth j ref 0)%Q.
  Proof.
    intros H. unfold A, W. rewrite atp_top. split.
    - unfold aug_at, aug_pareto. cbn [nth]. rewrite app_nth2, Nat.sub_diag by lia. cbn [nth]. unfold anti_ideal.
      apply nth_error_nth. rewrite nth_error_map, nth_error_seq. destruct (Nat.ltb_spec j m); [reflexivity|lia].
    - unfold bound_at. destruct (nth_error P n) eqn:E; [|reflexivity]. apply nth_error_lt in E. lia.
  Qed.
  Lemma col_in j p : In p P -> In (nth j p 0%Q) (col j P).
  Proof. intros H. unfold col. apply in_map_iff. exists p; auto. Qed.

  Lemma A_mid_mono j a b : a <= b -> b < n -> (A j (S a) <= A j (S b))%Q.
  Proof.
    intros L H. destruct (Nat.eq_dec a b) as [->|N]; [lra|].
    destruct (atp_mid j a) as (i&Ei&Fi); [lia|]. destruct (atp_mid j b H) as (i'&Ei'&Fi').
    destruct (HS (col j P)) as [_ K]. specialize (K a b i i' ltac:(lia) Ei Ei').
    assert (Hi := sort_lt _ _ _ Ei). assert (Hi' := sort_lt _ _ _ Ei').
    destruct (lt_nth_error _ _ Hi) as (p&Ep). destruct (lt_nth_error _ _ Hi') as (q&Eq).
    rewrite (col_nth j i p Ep), (col_nth j i' q Eq) in K.
    unfold A. rewrite Fi, Fi'. unfold aug_at, aug_pareto. cbn [nth]. rewrite !app_nth1 by assumption.
    rewrite (nth_error_nth _ _ [] Ep), (nth_error_nth _ _ [] Eq). exact K.
  Qed.

  Lemma A_mono j a b : j < m -> a <= b -> b <= S n -> (A j a <= A j b)%Q.
  Proof.
    intros Hj L H. destruct (Nat.eq_dec a b) as [->|N]; [lra|].
    destruct a as [|a].
    - destruct (bot_val j Hj) as [-> _]. destruct b as [|b]; [lia|]. destruct (Nat.eq_dec b n) as [->|Nb].
      + destruct (top_val j Hj) as [-> _].
        assert (Z : P = [] \/ exists p, In p P) by (destruct P as [|p l]; [auto|right; exists p; left; reflexivity]).
        destruct Z as [Z|(p&Hp)].
        * unfold col. rewrite Z. simpl. lra.
        * pose proof (vmin_le _ _ (col_in j p Hp)). pose proof (vmax_ge _ _ (col_in j p Hp)). lra.
      + destruct (mid_val j b Hj ltac:(lia)) as (p&Hp&_&->). pose proof (vmin_le _ _ (col_in j p Hp)). lra.
    - destruct b as [|b]; [lia|]. destruct (Nat.eq_dec b n) as [->|Nb].
      + destruct (top_val j Hj) as [-> _]. destruct (mid_val j a Hj ltac:(lia)) as (p&Hp&_&->).
        pose proof (vmax_ge _ _ (col_in j p Hp)). lra.
      + apply A_mid_mono; lia.
  Qed.

  Lemma W_mono j a b w : j < m -> a <= b -> b <= S n -> leE (W j b) w = true -> leE (W j a) w = true.
  Proof.
    intros Hj L H. destruct (Nat.eq_dec a b) as [->|N]; [auto|].
    destruct a as [|a]; [reflexivity|]. destruct b as [|b]; [lia|].
    destruct (mid_val j a Hj ltac:(lia)) as (p&Hp&-> &Ap).
    destruct (Nat.eq_dec b n) as [->|Nb].
    - destruct (top_val j Hj) as [_ ->]. simpl. rewrite !Qle_bool_spec. specialize (HB p j Hp Hj). lra.
    - destruct (mid_val j b Hj ltac:(lia)) as (q&Hq&-> &Aq). simpl. rewrite !Qle_bool_spec.
      pose proof (A_mid_mono j a b ltac:(lia) ltac:(lia)). rewrite Ap, Aq in *. lra.
  Qed.

  (** (a) a bound not above a front value, (b) a bound above it *)
  Lemma up_le j hi p w : j < m -> hi <= S n -> In p P -> (A j hi <= nth j p 0)%Q -> ltE w (W j hi) = true -> (w < nth j p 0)%Q.
  Proof.
    intros Hj H Hp L K. destruct hi as [|hi]; [discriminate K|]. destruct (Nat.eq_dec hi n) as [->|N].
    - destruct (top_val j Hj) as [E _]. rewrite E in L. pose proof (vmax_ge _ _ (col_in j p Hp)). lra.
    - destruct (mid_val j hi Hj ltac:(lia)) as (q&Hq&Wq&Aq). rewrite Aq in L. rewrite Wq in K. simpl in K.
      apply Qltb_iff in K. lra.
  Qed.
  Lemma lo_gt j lo p w : j < m -> lo <= S n -> In p P -> (nth j p 0 < A j lo)%Q -> leE (W j lo) w = true -> (nth j p 0 <= w)%Q.
  Proof.
    intros Hj H Hp L K. destruct lo as [|lo].
    - destruct (bot_val j Hj) as [E _]. rewrite E in L. pose proof (vmin_le _ _ (col_in j p Hp)). lra.
    - destruct (Nat.eq_dec lo n) as [->|N].
      + destruct (top_val j Hj) as [_ E]. rewrite E in K. simpl in K. apply Qle_bool_spec in K.
        specialize (HB p j Hp Hj). lra.
      + destruct (mid_val j lo Hj ltac:(lia)) as (q&Hq&Wq&Aq). rewrite Aq in L. rewrite Wq in K. simpl in K.
        apply Qle_bool_spec in K. lra.
  Qed.
  (** (c) a front value below the upper bound of a cell of adjacent positions *)
  Lemma adjacent j lo p w : j < m -> S lo <= S n -> In p P -> (nth j p 0 < A j (S lo))%Q -> leE (W j lo) w = true -> (nth j p 0 <= w)%Q.
  Proof.
    intros Hj H Hp L K. destruct (pos_of p j Hp) as (k&Hk&Wk&Ak). rewrite <- Ak in L.
    destruct (le_lt_dec (S lo) (S k)) as [Q|Q].
    - pose proof (A_mono j (S lo) (S k) Hj Q ltac:(lia)). lra.
    - assert (M := W_mono j (S k) lo w Hj ltac:(lia) ltac:(lia) K). rewrite Wk in M. simpl in M.
      apply Qle_bool_spec in M. exact M.
  Qed.
  (** (d) positions with equal values bound an empty interval *)
  Lemma equal_empty j lo hi w : j < m -> lo < hi -> hi <= S n -> (A j hi <= A j lo)%Q ->
    leE (W j lo) w = true -> ltE w (W j hi) = true -> False.
  Proof.
    intros Hj L H E K1 K2. destruct lo as [|lo].
    - destruct (bot_val j Hj) as [B _]. rewrite B in E. destruct hi as [|hi]; [lia|].
      destruct (Nat.eq_dec hi n) as [->|N].
      + destruct (top_val j Hj) as [T _]. rewrite T in E.
        assert (Z : P = [] \/ exists p, In p P) by (destruct P as [|p l]; [auto|right; exists p; left; reflexivity]).
        destruct Z as [Z|(p&Hp)].
        * unfold col in E. rewrite Z in E. simpl in E. lra.
        * pose proof (vmin_le _ _ (col_in j p Hp)). pose proof (vmax_ge _ _ (col_in j p Hp)). lra.
      + destruct (mid_val j hi Hj ltac:(lia)) as (q&Hq&Wq&Aq). rewrite Aq in E. pose proof (vmin_le _ _ (col_in j q Hq)). lra.
    - destruct (mid_val j lo Hj ltac:(lia)) as (p&Hp&Wp&Ap). rewrite Ap in E. rewrite Wp in K1. simpl in K1. apply Qle_bool_spec in K1.
      destruct hi as [|hi]; [lia|]. destruct (Nat.eq_dec hi n) as [->|N].
      + destruct (top_val j Hj) as [T _]. rewrite T in E. pose proof (vmax_ge _ _ (col_in j p Hp)). lra.
      + destruct (mid_val j hi Hj ltac:(lia)) as (q&Hq&Wq&Aq). rewrite Aq in E. rewrite Wq in K2. simpl in K2. apply Qltb_iff in K2. lra.
  Qed.

  (** *** cells *)
  Notation cell := (list (nat * nat)).
  Definition inpos (w : vec) (c : cell) : bool :=
    forallb (fun jc => leE (W (fst jc) (fst (snd jc))) (nth (fst jc) w 0%Q) && ltE (nth (fst jc) w 0%Q) (W (fst jc) (snd (snd jc)))) (indexed c).
  Definition inidx (w : vec) (c : cell) : bool :=
    forallb (fun jc => leE (bound_at P ref (fst (snd jc)) (fst jc)) (nth (fst jc) w 0%Q)
                       && ltE (nth (fst jc) w 0%Q) (bound_at P ref (snd (snd jc)) (fst jc))) (indexed c).
  Definition valid (c : cell) : Prop := length c = m /\ forall j lu, nth_error c j = Some lu -> fst lu < snd lu <= S n.
  Definition coveredb (w p : vec) : bool := forallb (fun j => Qle_bool (nth j p 0%Q) (nth j w 0%Q)) (seq 0 m).
  Definition nd (w : vec) : bool := negb (existsb (coveredb w) P).

  Lemma cell_idx_nth c j : nth_error (cell_idx argsort P c) j = option_map (fun lu => (atp j (fst lu), atp j (snd lu))) (nth_error c j).
  Proof. unfold cell_idx. rewrite nth_error_map, nth_error_indexed. destruct (nth_error c j); reflexivity. Qed.
  Lemma lower_nth c j : nth_error (lower_vals argsort m P c) j = option_map (fun lu => A j (fst lu)) (nth_error c j).
  Proof. unfold lower_vals. rewrite nth_error_map, nth_error_indexed, cell_idx_nth. destruct (nth_error c j); reflexivity. Qed.
  Lemma upper_nth c j : nth_error (upper_vals argsort m P c) j = option_map (fun lu => A j (snd lu)) (nth_error c j).
  Proof. unfold upper_vals. rewrite nth_error_map, nth_error_indexed, cell_idx_nth. destruct (nth_error c j); reflexivity. Qed.
  Lemma indexed_len {T} (l : list T) : length (indexed l) = length l.
  Proof. unfold indexed. rewrite combine_length, seq_length. lia. Qed.
  Lemma lower_len c : length (lower_vals argsort m P c) = length c.
  Proof. unfold lower_vals, cell_idx. rewrite map_length, indexed_len, map_length, indexed_len. reflexivity. Qed.
  Lemma upper_len c : length (upper_vals argsort m P c) = length c.
  Proof. unfold upper_vals, cell_idx. rewrite map_length, indexed_len, map_length, indexed_len. reflexivity. Qed.

  Lemma inpos_iff w c : inpos w c = true <->
    forall j lu, nth_error c j = Some lu -> leE (W j (fst lu)) (nth j w 0%Q) = true /\ ltE (nth j w 0%Q) (W j (snd lu)) = true.
  Proof.
    unfold inpos. rewrite forallb_indexed. split; intros H j lu E; specialize (H j lu E); cbn [fst snd] in *.
    - apply andb_true_iff in H. exact H.
    - apply andb_true_iff. exact H.
  Qed.
  Lemma inidx_pos w c : inidx w (cell_idx argsort P c) = inpos w c.
  Proof.
    apply eq_true_iff_eq. rewrite inpos_iff. unfold inidx. rewrite forallb_indexed. split; intros H j lu E.
    - specialize (H j (atp j (fst lu), atp j (snd lu))). rewrite cell_idx_nth, E in H. specialize (H eq_refl).
      cbn [fst snd] in H. apply andb_true_iff in H. exact H.
    - rewrite cell_idx_nth in E. destruct (nth_error c j) as [lu'|] eqn:F; [|discriminate]. injection E as <-.
      cbn [fst snd]. apply andb_true_iff. exact (H j lu' F).
  Qed.
  Lemma covered_iff w p : coveredb w p = true <-> forall j, j < m -> (nth j p 0 <= nth j w 0)%Q.
  Proof.
    unfold coveredb. rewrite forallb_forall. split.
    - intros H j Hj. apply Qle_bool_spec, H, in_seq. lia.
    - intros H j Hj. apply in_seq in Hj. apply Qle_bool_spec, H. lia.
  Qed.
  Lemma nd_false w : nd w = false <-> exists p, In p P /\ forall j, j < m -> (nth j p 0 <= nth j w 0)%Q.
  Proof.
    unfold nd. rewrite negb_false_iff, existsb_exists. split; intros (p&H&K); exists p; split; auto; apply covered_iff; exact K.
  Qed.

  Lemma accept w c : valid c -> forallb (fun p => any2 Qle_bool (upper_vals argsort m P c) p) P = true ->
    inpos w c = true -> nd w = true.
  Proof.
    intros (L&V) H K. destruct (nd w) eqn:E; [reflexivity|]. exfalso. apply nd_false in E. destruct E as (p&Hp&E).
    rewrite forallb_forall in H. specialize (H p Hp). apply any2_iff in H. destruct H as (j&a&b&Ha&Hb&Hab).
    rewrite upper_nth in Ha. destruct (nth_error c j) as [lu|] eqn:F; [|discriminate]. cbn [option_map] in Ha.
    assert (a = A j (snd lu)) by congruence. subst a. apply Qle_bool_spec in Hab.
    assert (Hj : j < m) by (rewrite <- L; eapply nth_error_lt; eauto).
    assert (B : nth j p 0%Q = b) by (apply nth_error_nth; exact Hb). rewrite <- B in Hab.
    destruct (proj1 (inpos_iff w c) K j lu F) as [_ K2]. specialize (V j lu F).
    assert (U := up_le j (snd lu) p _ Hj ltac:(lia) Hp Hab K2). specialize (E j Hj). lra.
  Qed.
  Lemma any2_none v p : length v = m -> In p P -> any2 Qle_bool v p = false ->
    forall j a, nth_error v j = Some a -> (nth j p 0 < a)%Q.
  Proof.
    intros L Hp H j a Ha. assert (Hj : j < length p) by (rewrite (HP p Hp), <- L; eapply nth_error_lt; eauto).
    destruct (lt_nth_error _ _ Hj) as (b&Hb). rewrite (nth_error_nth p j 0%Q Hb).
    destruct (Qlt_le_dec b a) as [|D]; [assumption|]. exfalso.
    assert (T : any2 Qle_bool v p = true); [|congruence]. apply any2_iff. exists j, a, b. split; [exact Ha|]. split; [exact Hb|].
    apply Qle_bool_spec. exact D.
  Qed.
  Lemma forallb_false {T} (f : T -> bool) l : forallb f l = false -> exists x, In x l /\ f x = false.
  Proof.
    induction l as [|a l IH]; simpl; [discriminate|]. destruct (f a) eqn:E; simpl.
    - intros H. destruct (IH H) as (x&?&?). exists x; auto.
    - intros _. exists a; auto.
  Qed.
  Lemma reject w c : valid c -> forallb (fun p => any2 Qle_bool (lower_vals argsort m P c) p) P = false ->
    inpos w c = true -> nd w = false.
  Proof.
    intros (L&V) H K. apply forallb_false in H. destruct H as (p&Hp&H). apply nd_false. exists p. split; [exact Hp|].
    intros j Hj. rewrite <- L in Hj. destruct (lt_nth_error _ _ Hj) as (lu&F). rewrite L in Hj.
    assert (G := any2_none _ p ltac:(rewrite lower_len; exact L) Hp H j (A j (fst lu))). rewrite lower_nth, F in G. specialize (G eq_refl).
    destruct (proj1 (inpos_iff w c) K j lu F) as [K1 _]. specialize (V j lu F).
    apply (lo_gt j (fst lu) p); auto. lia.
  Qed.
  Lemma unit_cell w c : valid c -> forallb (fun p => any2 Qle_bool (upper_vals argsort m P c) p) P = false ->
    existsb (fun d => 1 <? d) (map (fun lu => snd lu - fst lu) c) = false ->
    inpos w c = true -> nd w = false.
  Proof.
    intros (L&V) H U K. apply forallb_false in H. destruct H as (p&Hp&H). apply nd_false. exists p. split; [exact Hp|].
    intros j Hj. rewrite <- L in Hj. destruct (lt_nth_error _ _ Hj) as (lu&F). rewrite L in Hj.
    assert (G := any2_none _ p ltac:(rewrite upper_len; exact L) Hp H j (A j (snd lu))). rewrite upper_nth, F in G. specialize (G eq_refl).
    destruct (proj1 (inpos_iff w c) K j lu F) as [K1 _]. specialize (V j lu F).
    assert (D : snd lu = S (fst lu)).
    { assert (~ 1 < snd lu - fst lu); [|lia]. intros D. assert (T : existsb (fun d => 1 <? d) (map (fun lu => snd lu - fst lu) c) = true); [|congruence].
      apply existsb_exists. exists (snd lu - fst lu). split; [apply in_map_iff; exists lu; split; [reflexivity|eapply nth_error_In; eauto]|].
      apply Nat.ltb_lt. exact D. }
    rewrite D in *. apply (adjacent j (fst lu) p); auto. lia.
  Qed.

  Lemma prod_nonneg l : (forall v, In v l -> (0 <= v)%Q) -> (0 <= prod l)%Q /\ ((forall v, In v l -> (0 < v)%Q) -> (0 < prod l)%Q).
  Proof.
    induction l as [|a l IH]; intros H; simpl; [split; intros; lra|].
    destruct IH as [I1 I2]; [intros v Hv; apply H; right; exact Hv|]. fold (prod l).
    split; [apply Qmult_le_0_compat; auto; apply H; left; reflexivity|].
    intros K. apply Qmult_lt_0_compat; [apply K; left; reflexivity|]. apply I2. intros v Hv. apply K. right; exact Hv.
  Qed.
  Lemma total_pos : (0 < prod (map (fun ab => (snd ab - fst ab)%Q) (combine (ideal m P) (anti_ideal m P))))%Q.
  Proof.
    assert (G : forall v, In v (map (fun ab : Q * Q => (snd ab - fst ab)%Q) (combine (ideal m P) (anti_ideal m P))) -> (0 < v)%Q).
    { intros v Hv. apply in_map_iff in Hv. destruct Hv as ([a b]&<-&Hv). apply In_nth_error in Hv. destruct Hv as (j&Hv).
      rewrite nth_error_combine in Hv. unfold ideal, anti_ideal in Hv. rewrite !nth_error_map, nth_error_seq in Hv.
      destruct (Nat.ltb_spec j m) as [Hj|]; [|discriminate]. cbn [option_map] in Hv. injection Hv as <- <-. cbn [fst snd].
      assert (Z : P = [] \/ exists p, In p P) by (destruct P as [|p l]; [auto|right; exists p; left; reflexivity]).
      destruct Z as [Z|(p&Hp)].
      - unfold col. rewrite Z. simpl. lra.
      - pose proof (vmin_le _ _ (col_in j p Hp)). pose proof (vmax_ge _ _ (col_in j p Hp)). lra. }
    apply prod_nonneg; [|exact G]. intros v Hv. apply Qlt_le_weak, G, Hv.
  Qed.
  Lemma flat_cell w c alpha : valid c -> (alpha <= 0)%Q ->
    Qltb alpha (prod (map (fun ab => (snd ab - fst ab)%Q) (combine (lower_vals argsort m P c) (upper_vals argsort m P c))) /
      prod (map (fun ab => (snd ab - fst ab)%Q) (combine (ideal m P) (anti_ideal m P)))) = false ->
    inpos w c = false.
  Proof.
    intros (L&V) Ha H. apply Qltb_false in H.
    set (vols := map (fun ab : Q * Q => (snd ab - fst ab)%Q) (combine (lower_vals argsort m P c) (upper_vals argsort m P c))) in *.
    pose proof total_pos as T.
    set (tot := prod (map (fun ab : Q * Q => (snd ab - fst ab)%Q) (combine (ideal m P) (anti_ideal m P)))) in *.
    assert (NN : forall v, In v vols -> (0 <= v)%Q).
    { intros v Hv. apply in_map_iff in Hv. destruct Hv as ([a b]&<-&Hv). apply In_nth_error in Hv. destruct Hv as (j&Hv).
      rewrite nth_error_combine, lower_nth, upper_nth in Hv. destruct (nth_error c j) as [lu|] eqn:F; [|discriminate].
      cbn [option_map] in Hv. injection Hv as <- <-. cbn [fst snd]. specialize (V j lu F).
      assert (Hj : j < m) by (rewrite <- L; eapply nth_error_lt; eauto).
      pose proof (A_mono j (fst lu) (snd lu) Hj ltac:(lia) ltac:(lia)). lra. }
    destruct (inpos w c) eqn:K; [|reflexivity]. exfalso.
    assert (PP : (0 < prod vols)%Q).
    { apply prod_nonneg; [exact NN|]. intros v Hv. apply in_map_iff in Hv. destruct Hv as ([a b]&<-&Hv). apply In_nth_error in Hv. destruct Hv as (j&Hv).
      rewrite nth_error_combine, lower_nth, upper_nth in Hv. destruct (nth_error c j) as [lu|] eqn:F; [|discriminate].
      cbn [option_map] in Hv. injection Hv as <- <-. cbn [fst snd]. specialize (V j lu F).
      assert (Hj : j < m) by (rewrite <- L; eapply nth_error_lt; eauto).
      destruct (Qlt_le_dec (A j (fst lu)) (A j (snd lu))) as [|D]; [lra|]. exfalso.
      destruct (proj1 (inpos_iff w c) K j lu F) as [K1 K2].
      exact (equal_empty j (fst lu) (snd lu) _ Hj ltac:(lia) ltac:(lia) D K1 K2). }
    assert (Z : (0 < prod vols / tot)%Q) by (apply Qlt_shift_div_l; lra). lra.
  Qed.

  Lemma half_bounds l : 2 <= l -> 1 <= half l < l.
  Proof.
    intros H. unfold half. pose proof (Nat.div_mod l 2 ltac:(lia)) as E. pose proof (Nat.mod_upper_bound l 2 ltac:(lia)).
    destruct (Nat.even l) eqn:Ev; [|destruct (Nat.even (l / 2))].
    - lia.
    - lia.
    - assert (l mod 2 = 1).
      { assert (l mod 2 <> 0); [|lia]. intros Z. assert (Nat.even l = true); [|congruence]. rewrite E, Z, Nat.add_0_r.
        rewrite Nat.even_mul. reflexivity. }
      lia.
  Qed.

  Definition dist (c : cell) : list nat := map (fun lu => snd lu - fst lu) c.
  Lemma dist_nth c j : nth_error (dist c) j = option_map (fun lu => snd lu - fst lu) (nth_error c j).
  Proof. apply nth_error_map. Qed.
  Definition mu (stack : list cell) : nat := list_sum (map (fun c => 2 * nprod (dist c) - 1) stack).
  Lemma valid_prod c : valid c -> 1 <= nprod (dist c).
  Proof.
    intros (L&V). apply nprod_pos. intros d Hd. apply in_map_iff in Hd. destruct Hd as (lu&<-&H).
    apply In_nth_error in H. destruct H as (j&H). specialize (V j lu H). lia.
  Qed.

  Section Split.
    Variables (c : cell) (k lo hi mid : nat).
    Hypothesis HV : valid c.
    Hypothesis Hk : nth_error c k = Some (lo, hi).
    Hypothesis Hmid : lo < mid < hi.
    Let c1 := update_nth k (fun lu => (fst lu, mid)) c.
    Let c2 := update_nth k (fun lu => (mid, snd lu)) c.

    Lemma split_valid : valid c1 /\ valid c2.
    Proof.
      destruct HV as (L&V). split; (split; [unfold c1, c2; rewrite update_length; exact L|]); intros j lu E; unfold c1, c2 in E;
        rewrite nth_error_update in E; destruct (nth_error c j) as [lu'|] eqn:F; try discriminate; cbn [option_map] in E;
        injection E as <-; specialize (V j lu' F); destruct (Nat.eqb_spec j k) as [->|N]; cbn [fst snd]; auto;
        rewrite Hk in F; injection F as <-; cbn [fst snd] in *; lia.
    Qed.
    Lemma split_mu : nprod (dist c) = nprod (dist c1) + nprod (dist c2).
    Proof.
      rewrite (nprod_update (dist c) k (mid - lo) (hi - mid)).
      - f_equal; f_equal; apply nth_error_ext; intros j; unfold c1, c2; rewrite nth_error_update, !dist_nth, nth_error_update;
          destruct (nth_error c j) as [lu|] eqn:F; try reflexivity; cbn [option_map]; destruct (Nat.eqb_spec j k) as [->|N]; try reflexivity;
          rewrite Hk in F; injection F as <-; reflexivity.
      - rewrite dist_nth, Hk. cbn [option_map fst snd]. f_equal. lia.
    Qed.
    Lemma split_in w : (if inpos w c then 1 else 0) = (if inpos w c1 then 1 else 0) + (if inpos w c2 then 1 else 0).
    Proof.
      destruct HV as (L&V). assert (Vk := V k _ Hk). cbn [fst snd] in Vk.
      assert (Hkm : k < m) by (rewrite <- L; eapply nth_error_lt; eauto).
      assert (E1 : forall j, nth_error c1 j = if j =? k then Some (lo, mid) else nth_error c j).
      { intros j. unfold c1. rewrite nth_error_update. destruct (Nat.eqb_spec j k) as [->|N]; [rewrite Hk; reflexivity|].
        destruct (nth_error c j); reflexivity. }
      assert (E2 : forall j, nth_error c2 j = if j =? k then Some (mid, hi) else nth_error c j).
      { intros j. unfold c2. rewrite nth_error_update. destruct (Nat.eqb_spec j k) as [->|N]; [rewrite Hk; reflexivity|].
        destruct (nth_error c j); reflexivity. }
      set (v := nth k w 0%Q).
      destruct (leE (W k mid) v) eqn:M.
      - assert (F1 : inpos w c1 = false).
        { destruct (inpos w c1) eqn:K; [|reflexivity]. destruct (proj1 (inpos_iff w c1) K k (lo, mid)) as [_ K2]; [rewrite E1, Nat.eqb_refl; reflexivity|].
          cbn [snd] in K2. rewrite leE_neg in K2. fold v in K2. rewrite M in K2. discriminate. }
        assert (F2 : inpos w c2 = inpos w c); [|rewrite F1, F2; reflexivity].
        apply eq_true_iff_eq. rewrite !inpos_iff. split; intros H j lu F.
        + destruct (Nat.eqb_spec j k) as [->|N].
          * destruct (H k (mid, hi)) as [G1 G2]; [rewrite E2, Nat.eqb_refl; reflexivity|]. rewrite Hk in F. injection F as <-.
            cbn [fst snd] in *. split; [|exact G2]. apply (W_mono k lo mid); auto; lia.
          * apply H. rewrite E2. destruct (Nat.eqb_spec j k); [contradiction|exact F].
        + rewrite E2 in F. destruct (Nat.eqb_spec j k) as [->|N].
          * injection F as <-. destruct (H k (lo, hi) Hk) as [G1 G2]. cbn [fst snd] in *. split; [exact M|exact G2].
          * apply H. exact F.
      - assert (F2 : inpos w c2 = false).
        { destruct (inpos w c2) eqn:K; [|reflexivity]. destruct (proj1 (inpos_iff w c2) K k (mid, hi)) as [K2 _]; [rewrite E2, Nat.eqb_refl; reflexivity|].
          cbn [fst] in K2. fold v in K2. congruence. }
        assert (F1 : inpos w c1 = inpos w c); [|rewrite F1, F2, Nat.add_0_r; reflexivity].
        apply eq_true_iff_eq. rewrite !inpos_iff. split; intros H j lu F.
        + destruct (Nat.eqb_spec j k) as [->|N].
          * destruct (H k (lo, mid)) as [G1 G2]; [rewrite E1, Nat.eqb_refl; reflexivity|]. rewrite Hk in F. injection F as <-.
            cbn [fst snd] in *. split; [exact G1|]. rewrite leE_neg in *. apply negb_true_iff in G2. apply negb_true_iff.
            destruct (leE (W k hi) (nth k w 0%Q)) eqn:G; [|reflexivity]. apply (W_mono k mid hi) in G; [congruence|assumption|lia|lia].
          * apply H. rewrite E1. destruct (Nat.eqb_spec j k); [contradiction|exact F].
        + rewrite E1 in F. destruct (Nat.eqb_spec j k) as [->|N].
          * injection F as <-. destruct (H k (lo, hi) Hk) as [G1 G2]. cbn [fst snd] in *. split; [exact G1|].
            rewrite leE_neg. fold v. rewrite M. reflexivity.
          * apply H. exact F.
    Qed.
  End Split.

  Lemma loop_spec alpha : forall fuel stack acc, (forall c, In c stack -> valid c) -> mu stack <= fuel ->
    exists res, bp_loop argsort argmax fuel m alpha P stack acc = Some res /\
      forall w, occ (inidx w) res <= occ (inidx w) acc + (if nd w then occ (inpos w) stack else 0) /\
        ((alpha <= 0)%Q -> occ (inidx w) res = occ (inidx w) acc + (if nd w then occ (inpos w) stack else 0)).
  Proof.
    induction fuel as [|fuel IH]; intros [|c stack] acc HV Hmu; cbn [bp_loop].
    - exists acc. split; [reflexivity|]. intros w. assert (Z : occ (inpos w) [] = 0) by reflexivity. rewrite Z. destruct (nd w); split; intros; lia.
    - exfalso. pose proof (valid_prod c (HV c (or_introl eq_refl))). unfold mu in Hmu. cbn [map list_sum fold_right] in Hmu. lia.
    - exists acc. split; [reflexivity|]. intros w. assert (Z : occ (inpos w) [] = 0) by reflexivity. rewrite Z. destruct (nd w); split; intros; lia.
    - assert (Vc := HV c (or_introl eq_refl)). assert (HV' : forall d, In d stack -> valid d) by (intros d Hd; apply HV; right; exact Hd).
      assert (Pc := valid_prod c Vc).
      assert (Hmu' : mu stack <= fuel) by (unfold mu in *; cbn [map list_sum fold_right] in Hmu; fold (list_sum (map (fun c => 2 * nprod (dist c) - 1) stack)) in Hmu; lia).
      destruct (forallb (fun p => any2 Qle_bool (upper_vals argsort m P c) p) P) eqn:E1.
      + destruct (IH stack (acc ++ [cell_idx argsort P c]) HV' Hmu') as (res&->&H). exists res. split; [reflexivity|].
        intros w. specialize (H w). rewrite occ_app, occ_cons, inidx_pos in H. rewrite occ_cons.
        assert (Z : occ (inidx w) [] = 0) by reflexivity. rewrite Z in H.
        destruct H as [H1 H2].
        destruct (inpos w c) eqn:K; [assert (NW := accept w c Vc E1 K); rewrite NW in H1, H2 |- *|destruct (nd w)];
          (split; [lia|intros HA; specialize (H2 HA); lia]).
      + assert (DROP : (forall w, (alpha <= 0)%Q -> inpos w c = true -> nd w = false) ->
          exists res, bp_loop argsort argmax fuel m alpha P stack acc = Some res /\
          forall w, occ (inidx w) res <= occ (inidx w) acc + (if nd w then occ (inpos w) (c :: stack) else 0) /\
          ((alpha <= 0)%Q -> occ (inidx w) res = occ (inidx w) acc + (if nd w then occ (inpos w) (c :: stack) else 0))).
        { intros D. destruct (IH stack acc HV' Hmu') as (res&->&H). exists res. split; [reflexivity|].
          intros w. specialize (H w). rewrite occ_cons. destruct H as [H1 H2].
          split.
          - destruct (nd w); lia.
          - intros HA. specialize (H2 HA). specialize (D w HA). destruct (inpos w c); [rewrite (D eq_refl) in *; lia|destruct (nd w); lia]. }
        destruct (forallb (fun p => any2 Qle_bool (lower_vals argsort m P c) p) P) eqn:E2.
        2:{ apply DROP. intros w _. apply reject; assumption. }
        destruct (existsb (fun d => 1 <? d) (map (fun lu => snd lu - fst lu) c)) eqn:E3; cbn [andb].
        2:{ apply DROP. intros w _. apply unit_cell; assumption. }
        destruct (Qltb alpha _) eqn:E4.
        2:{ apply DROP. intros w HA K. rewrite (flat_cell w c alpha Vc HA E4) in K. discriminate. }
        clear DROP. fold (dist c) in *. set (k := argmax (dist c)) in *.
        assert (NE : dist c <> []) by (destruct (dist c); [discriminate|congruence]).
        destruct (HM (dist c) NE) as [M1 M2]. fold k in M1, M2.
        apply existsb_exists in E3. destruct E3 as (d&Hd&Ed). apply Nat.ltb_lt in Ed. specialize (M2 d Hd).
        destruct (lt_nth_error _ _ M1) as (dk&Dk). rewrite (nth_error_nth _ _ 0 Dk) in *.
        assert (Dk' := Dk). rewrite dist_nth in Dk'. destruct (nth_error c k) as [[lo hi]|] eqn:F; [|discriminate].
        cbn [option_map fst snd] in Dk'. injection Dk' as Dk'.
        destruct Vc as (L&V). assert (Vk := V k _ F). cbn [fst snd] in Vk.
        destruct (half_bounds dk ltac:(lia)) as [B1 B2].
        set (mid := lo + (dk - half dk)).
        assert (Hmid : lo < mid < hi) by (unfold mid; lia).
        assert (X1 : update_nth k (fun lu => (fst lu, snd lu - half dk)) c = update_nth k (fun lu => (fst lu, mid)) c).
        { apply nth_error_ext. intros j. rewrite !nth_error_update. destruct (nth_error c j) as [lu|] eqn:G; [|reflexivity].
          cbn [option_map]. destruct (Nat.eqb_spec j k) as [->|]; [|reflexivity]. rewrite F in G. injection G as <-.
          cbn [fst snd]. unfold mid. do 2 f_equal. lia. }
        assert (X2 : update_nth k (fun lu => (fst lu + (dk - half dk), snd lu)) c = update_nth k (fun lu => (mid, snd lu)) c).
        { apply nth_error_ext. intros j. rewrite !nth_error_update. destruct (nth_error c j) as [lu|] eqn:G; [|reflexivity].
          cbn [option_map]. destruct (Nat.eqb_spec j k) as [->|]; [|reflexivity]. rewrite F in G. injection G as <-. reflexivity. }
        rewrite X1, X2. set (c1 := update_nth k (fun lu => (fst lu, mid)) c). set (c2 := update_nth k (fun lu => (mid, snd lu)) c).
        destruct (split_valid c k lo hi mid (conj L V) F Hmid) as [V1 V2]. fold c1 in V1. fold c2 in V2.
        assert (SM := split_mu c k lo hi mid F Hmid). fold c1 c2 in SM.
        pose proof (valid_prod c1 V1). pose proof (valid_prod c2 V2).
        destruct (IH (c2 :: c1 :: stack) acc) as (res&->&H').
        * intros e [<-|[<-|He]]; auto.
        * unfold mu in *. cbn [map list_sum fold_right] in *. fold (list_sum (map (fun c => 2 * nprod (dist c) - 1) stack)) in *. lia.
        * exists res. split; [reflexivity|]. intros w. specialize (H' w). rewrite !occ_cons in *.
          assert (SI := split_in c k lo hi mid (conj L V) F Hmid w). fold c1 c2 in SI.
          destruct (nd w); destruct H' as [H1 H2]; (split; [lia|intros HA; specialize (H2 HA); lia]).
  Qed.
End Sorted.
