(** Lemmas about buffers, views and selections (Model_Sol.v). *)
From Coq Require Import Bool Arith ZArith QArith String List Lia.
From Verif Require Import Lib_List Model_Var Model_Opt Model_Sol Spec_Sol.
Import ListNotations.
Open Scope nat_scope.

(** ** Selections *)
Lemma selects_fun {A} (l : list A) ps a b : selects l ps a -> selects l ps b -> a = b.
Proof.
  intro H. revert b. induction H as [|p x ps a E H IH]; intros b K; inversion K; subst; auto.
  f_equal. congruence. apply IH; auto.
Qed.

Lemma selects_length {A} (l : list A) ps a : selects l ps a -> List.length a = List.length ps.
Proof. induction 1; simpl; auto. Qed.

Lemma selects_map {A B} (f : A -> B) l ps a : selects l ps a -> selects (map f l) ps (map f a).
Proof.
  induction 1 as [|p x ps a E H IH]; simpl; constructor; auto.
  rewrite nth_error_map, E. reflexivity.
Qed.

Lemma selects_app {A} (l : list A) ps qs a b : selects l ps a -> selects l qs b -> selects l (ps ++ qs) (a ++ b).
Proof. apply Forall2_app. Qed.

Lemma selects_range {A} (l : list A) ps a : selects l ps a -> Forall (fun p => p < List.length l) ps.
Proof.
  induction 1; constructor; auto. apply nth_error_Some. congruence.
Qed.

Lemma selects_nth {A} (l : list A) ps a i p : selects l ps a -> nth_error ps i = Some p -> nth_error a i = nth_error l p.
Proof.
  intro H. revert i. induction H as [|q x ps a E H IH]; intros [|i] K; simpl in *; try discriminate.
  - injection K as <-. auto.
  - apply IH; auto.
Qed.

Lemma read_selects {A} (b : list A) ps : Forall (fun p => p < List.length b) ps -> selects b ps (read b ps).
Proof.
  induction 1 as [|p ps L _ IH]; simpl. constructor.
  destruct (nth_error b p) eqn:E.
  - simpl. constructor; auto.
  - apply nth_error_None in E. lia.
Qed.

Lemma read_eq {A} (b : list A) ps a : selects b ps a -> read b ps = a.
Proof.
  intro H. apply selects_fun with b ps; auto. apply read_selects. eapply selects_range; eauto.
Qed.

Lemma read_length {A} (b : list A) ps : Forall (fun p => p < List.length b) ps -> List.length (read b ps) = List.length ps.
Proof. intro H. eapply selects_length, read_selects; auto. Qed.

Lemma read_app {A} (b : list A) ps qs : read b (ps ++ qs) = read b ps ++ read b qs.
Proof. unfold read. apply flat_map_app. Qed.

Lemma read_concat {A} (b : list A) rs : read b (List.concat rs) = List.concat (map (read b) rs).
Proof. induction rs; simpl; auto. rewrite read_app, IHrs. reflexivity. Qed.

Lemma read_ext {A} (b c : list A) ps : (forall p, In p ps -> nth_error b p = nth_error c p) -> read b ps = read c ps.
Proof.
  induction ps as [|p ps IH]; simpl; intro H; auto.
  rewrite (H p); auto. f_equal. apply IH; auto.
Qed.

(** Selecting from a view is reading at the selected positions. *)
Lemma selects_read {A} (b : list A) l ps l' :
  Forall (fun p => p < List.length b) l -> selects l ps l' -> selects (read b l) ps (read b l').
Proof.
  intros R H. apply read_selects in R.
  induction H as [|p q ps l' E H IH]; simpl. constructor.
  pose proof (selects_nth _ _ _ _ _ R E) as K.
  assert (Q : q < List.length b).
  { apply (Forall_forall (fun p => p < List.length b) l). eapply selects_range; eauto.
    eapply nth_error_In; eauto. }
  apply lt_nth_error in Q. destruct Q as [y Y]. rewrite Y in *. simpl. constructor; auto.
Qed.

Lemma Forall_selects {A} (P : A -> Prop) l ps l' : Forall P l -> selects l ps l' -> Forall P l'.
Proof.
  intros F H. induction H; constructor; auto. rewrite Forall_forall in F. apply F. eapply nth_error_In; eauto.
Qed.

Lemma pick_selects {A} (l : list A) ps : Forall (fun p => p < List.length l) ps -> selects l ps (pick l ps).
Proof. apply read_selects. Qed.

Lemma selects_seq_from {A} (pre l : list A) : selects (pre ++ l) (seq (List.length pre) (List.length l)) l.
Proof.
  revert pre. induction l as [|a l IH]; intro pre; simpl. constructor.
  constructor.
  - rewrite nth_error_app2, Nat.sub_diag; auto.
  - replace (pre ++ a :: l) with ((pre ++ [a]) ++ l) by (rewrite <- app_assoc; auto).
    replace (S (List.length pre)) with (List.length (pre ++ [a])) by (rewrite app_length; simpl; lia).
    apply IH.
Qed.

Lemma selects_seq {A} (l : list A) : selects l (seq 0 (List.length l)) l.
Proof. apply (selects_seq_from []). Qed.

Lemma selects_weaken {A} (l m : list A) ps a : selects l ps a -> selects (l ++ m) ps a.
Proof.
  induction 1 as [|p x ps a E H IH]; constructor; auto.
  rewrite nth_error_app1; auto. apply nth_error_Some. congruence.
Qed.

Lemma pick_seq {A} (l : list A) n : n = List.length l -> pick l (seq 0 n) = l.
Proof. intros ->. apply read_eq, selects_seq. Qed.

(** Reading the rows of a freshly laid out matrix. *)
Lemma grid_from_read {A} (pre : list A) rows c k :
  Forall (fun r => List.length r = c) rows -> k = List.length pre ->
  forall post, map (read (pre ++ List.concat rows ++ post)) (grid_from k (List.length rows) c) = rows.
Proof.
  intro F. revert pre k. induction F as [|r rows E F IH]; intros pre k K post; simpl; auto.
  unfold grid_from in *. simpl. f_equal.
  - apply read_eq. rewrite Nat.add_0_r. subst k c.
    rewrite <- app_assoc, app_assoc. apply selects_weaken, selects_seq_from.
  - rewrite <- seq_shift, map_map.
    assert (K' : k + c = List.length (pre ++ r)) by (rewrite app_length; lia).
    etransitivity; [|exact (IH (pre ++ r) (k + c) K' post)].
    rewrite !map_map. apply map_ext. intro i. rewrite <- !app_assoc. f_equal. f_equal. lia.
Qed.

Lemma grid_read {A} (rows : list (list A)) c :
  Forall (fun r => List.length r = c) rows -> map (read (List.concat rows)) (grid (List.length rows) c) = rows.
Proof.
  intro F. pose proof (grid_from_read [] rows c 0 F eq_refl []) as H. simpl in H. rewrite app_nil_r in H. exact H.
Qed.

Lemma grid_from_concat k n c : List.concat (grid_from k n c) = seq k (n * c).
Proof.
  unfold grid_from. revert k. induction n as [|n IH]; intro k; simpl; auto.
  rewrite <- seq_shift, map_map, Nat.add_0_r, seq_app. f_equal.
  rewrite <- IH. f_equal. apply map_ext. intro a. f_equal. lia.
Qed.

Lemma grid_concat n c : List.concat (grid n c) = seq 0 (n * c).
Proof. apply grid_from_concat. Qed.

Lemma grid_rows n c : Forall (fun r => List.length r = c) (grid n c).
Proof. unfold grid, grid_from. apply Forall_map, Forall_forall. intros. apply seq_length. Qed.

Lemma grid_length n c : List.length (grid n c) = n.
Proof. unfold grid, grid_from. rewrite map_length, seq_length. reflexivity. Qed.

Lemma concat_length {A} (rows : list (list A)) c :
  Forall (fun r => List.length r = c) rows -> List.length (List.concat rows) = List.length rows * c.
Proof. induction 1; simpl; auto. rewrite app_length. lia. Qed.

(** ** Writes *)
Lemma put_length {A} (b : list A) p a : List.length (put b p a) = List.length b.
Proof. revert p; induction b; intros [|p]; simpl; auto. Qed.

Lemma put_same {A} (b : list A) p a : p < List.length b -> nth_error (put b p a) p = Some a.
Proof. revert p; induction b as [|x b IH]; intros [|p]; simpl; try lia; auto. intro. apply IH. lia. Qed.

Lemma put_other {A} (b : list A) p q a : p <> q -> nth_error (put b p a) q = nth_error b q.
Proof. revert p q; induction b as [|x b IH]; intros [|p] [|q]; simpl; auto; try congruence. Qed.

Lemma puts_length {A} (b : list A) ps l : List.length (puts b ps l) = List.length b.
Proof. revert b l; induction ps as [|p ps IH]; intros b [|a l]; simpl; auto. rewrite IH. apply put_length. Qed.

Lemma puts_other {A} (b : list A) ps l q : ~ In q ps -> nth_error (puts b ps l) q = nth_error b q.
Proof.
  revert b l; induction ps as [|p ps IH]; intros b [|a l]; simpl; auto.
  intro N. rewrite IH by tauto. apply put_other. intuition.
Qed.

Lemma puts_same {A} (b : list A) ps l :
  NoDup ps -> Forall (fun p => p < List.length b) ps -> List.length l = List.length ps ->
  selects (puts b ps l) ps l.
Proof.
  intro N. revert b l. induction N as [|p ps N1 N IH]; intros b [|a l]; simpl; intros F L; try discriminate.
  - constructor.
  - inversion F; subst. constructor.
    + rewrite puts_other by auto. apply put_same; auto.
    + apply IH; auto. rewrite put_length; auto.
Qed.

Lemma read_puts_same {A} (b : list A) ps l :
  NoDup ps -> Forall (fun p => p < List.length b) ps -> List.length l = List.length ps ->
  read (puts b ps l) ps = l.
Proof. intros. apply read_eq, puts_same; auto. Qed.

Lemma read_puts_other {A} (b : list A) ps l qs :
  (forall q, In q qs -> ~ In q ps) -> read (puts b ps l) qs = read b qs.
Proof. intro D. apply read_ext. intros p I. apply puts_other; auto. Qed.

Lemma buf_set_same {A} (h : list (list A)) r b : r < List.length h -> buf (set_buf h r b) r = b.
Proof.
  intro L. unfold buf, set_buf. apply nth_error_nth. apply put_same; auto.
Qed.

Lemma nth_ext_error {A} (l m : list A) r d : nth_error l r = nth_error m r -> nth r l d = nth r m d.
Proof.
  intro H. destruct (nth_error l r) eqn:E.
  - rewrite (nth_error_nth _ _ d E). symmetry. apply nth_error_nth. auto.
  - symmetry in H. apply nth_error_None in E, H. rewrite !nth_overflow; auto.
Qed.

Lemma buf_set_other {A} (h : list (list A)) r q b : r <> q -> buf (set_buf h r b) q = buf h q.
Proof. intro N. unfold buf, set_buf. apply nth_ext_error, put_other; auto. Qed.

Lemma buf_app_old {A} (h : list (list A)) b r : r < List.length h -> buf (h ++ [b]) r = buf h r.
Proof. intro. unfold buf. apply app_nth1; auto. Qed.

Lemma buf_app_new {A} (h : list (list A)) b : buf (h ++ [b]) (List.length h) = b.
Proof. unfold buf. rewrite app_nth2, Nat.sub_diag; auto. Qed.

Lemma lbuf_snd h r : snd (lbuf h r) = buf (map snd h) r.
Proof. unfold lbuf, buf. symmetry. apply (map_nth snd h (0, [])). Qed.

Lemma map_snd_put (h : list (nat * list string)) r k b : map snd (put h r (k, b)) = put (map snd h) r b.
Proof. revert r; induction h; intros [|r]; simpl; f_equal; auto. Qed.

(** ** Selected positions *)
Lemma int_position_ok n i p : int_position n i = SOk p ->
  p < n /\ (- Z.of_nat n <= i < Z.of_nat n)%Z /\ Z.of_nat p = resolve (Z.of_nat n) i.
Proof.
  unfold int_position, resolve. destruct (Z.ltb_spec i (- Z.of_nat n)); simpl; try discriminate.
  destruct (Z.leb_spec (Z.of_nat n) i); try discriminate.
  destruct (Z.ltb_spec i 0); intro E; injection E as <-; lia.
Qed.

Lemma int_position_valid n i : (- Z.of_nat n <= i < Z.of_nat n)%Z ->
  int_position n i = SOk (Z.to_nat (resolve (Z.of_nat n) i)).
Proof.
  intro H. unfold int_position, resolve. destruct (Z.ltb_spec i (- Z.of_nat n)); simpl; try lia.
  destruct (Z.leb_spec (Z.of_nat n) i); try lia. reflexivity.
Qed.

Lemma int_position_invalid n i : ~ (- Z.of_nat n <= i < Z.of_nat n)%Z -> int_position n i = SErr SIndex.
Proof.
  intro H. unfold int_position. destruct (Z.ltb_spec i (- Z.of_nat n)); simpl; auto.
  destruct (Z.leb_spec (Z.of_nat n) i); auto. lia.
Qed.

Lemma smapM_spec {A B} (f : A -> sres B) l r : smapM f l = SOk r -> Forall2 (fun a b => f a = SOk b) l r.
Proof.
  revert r. induction l as [|a l IH]; simpl; intros r E.
  - injection E as <-. constructor.
  - destruct (f a) eqn:K; simpl in E; try discriminate. destruct (smapM f l); simpl in E; try discriminate.
    injection E as <-. constructor; auto.
Qed.

Lemma smapM_ok {A B} (f : A -> sres B) l r : Forall2 (fun a b => f a = SOk b) l r -> smapM f l = SOk r.
Proof. induction 1; simpl; auto. rewrite H, IHForall2. reflexivity. Qed.

(** Sorted lists with the same members are equal. *)
From Coq Require Import Sorted.
Lemma sorted_ext (l m : list nat) : StronglySorted lt l -> StronglySorted lt m ->
  (forall x, In x l <-> In x m) -> l = m.
Proof.
  intro H. revert m. induction H as [|a l H IH F]; intros m K E.
  - destruct m as [|b m]; auto. exfalso. apply (E b). left; auto.
  - destruct m as [|b m]. { exfalso. apply (E a). left; auto. }
    inversion K as [|? ? K' F']; subst. rewrite Forall_forall in F, F'.
    assert (a = b).
    { destruct (proj1 (E a) (or_introl eq_refl)) as [|I]; auto.
      destruct (proj2 (E b) (or_introl eq_refl)) as [|J]; auto.
      apply F in J. apply F' in I. lia. }
    subst b. f_equal. apply IH; auto.
    intro x. split; intro I.
    + destruct (proj1 (E x) (or_intror I)) as [->|]; auto. apply F in I. lia.
    + destruct (proj2 (E x) (or_intror I)) as [->|]; auto. apply F' in I. lia.
Qed.

Lemma filter_sorted (P : nat -> bool) l : StronglySorted lt l -> StronglySorted lt (filter P l).
Proof.
  induction 1 as [|a l H IH F]; simpl. constructor.
  destruct (P a); auto. constructor; auto. apply Forall_forall. intros x I. apply filter_In in I.
  rewrite Forall_forall in F. apply F, I.
Qed.

Lemma seq_sorted k n : StronglySorted lt (seq k n).
Proof.
  revert k; induction n; intro k; simpl; constructor; auto.
  apply Forall_forall. intros x I. apply in_seq in I. lia.
Qed.

Lemma map_seq_sorted (f : nat -> nat) n :
  (forall i j, i < j -> j < n -> f i < f j) -> StronglySorted lt (map f (seq 0 n)).
Proof.
  intro M. assert (G : forall k m, k + m <= n -> StronglySorted lt (map f (seq k m))).
  { intros k m. revert k. induction m; intros k L; simpl; constructor.
    - apply IHm. lia.
    - apply Forall_forall. intros x I. apply in_map_iff in I. destruct I as [i [<- I]]. apply in_seq in I.
      apply M; lia. }
  apply G. lia.
Qed.

Lemma sorted_rev_map (f : nat -> nat) n :
  (forall i j, i < j -> j < n -> f j < f i) -> StronglySorted lt (rev (map f (seq 0 n))).
Proof.
  intro M. rewrite <- map_rev.
  replace (rev (seq 0 n)) with (map (fun i => n - 1 - i) (seq 0 n)).
  - rewrite map_map. apply map_seq_sorted. intros i j L1 L2. apply M; lia.
  - clear M. apply nth_error_ext. intro j. rewrite nth_error_map.
    destruct (Nat.lt_ge_cases j n) as [L|L].
    + rewrite nth_error_seq. destruct (Nat.ltb_spec j n); try lia. simpl.
      symmetry. rewrite (nth_error_nth' _ 0) by (rewrite rev_length, seq_length; auto).
      rewrite rev_nth by (rewrite seq_length; auto). rewrite seq_length, seq_nth by lia. f_equal. lia.
    + replace (nth_error (seq 0 n) j) with (@None nat). 2:{ symmetry. apply nth_error_None. rewrite seq_length; auto. }
      simpl. symmetry. apply nth_error_None. rewrite rev_length, seq_length. auto.
Qed.

Lemma adjust_pos n x : (0 <= n)%Z -> adjust n 0 n x = Z.min n (Z.max 0 (resolve n x)).
Proof. intro. unfold adjust, resolve. destruct (Z.ltb_spec x 0); [destruct (Z.ltb_spec (x + n) 0)|destruct (Z.ltb_spec n x)]; lia. Qed.

Lemma adjust_neg n x : (0 <= n)%Z -> adjust n (-1) (n - 1) x = Z.min (n - 1) (Z.max (-1) (resolve n x)).
Proof. intro. unfold adjust, resolve. destruct (Z.ltb_spec x 0); [destruct (Z.ltb_spec (x + n) (-1))|destruct (Z.ltb_spec (n-1) x)]; lia. Qed.

Lemma slice_positions_spec n a b c ps : slice_positions n a b c = SOk ps -> slice_spec n a b c ps.
Proof.
  unfold slice_positions, slice_spec. cbv zeta.
  set (k := match c with Some s => s | None => 1%Z end).
  destruct (Z.eqb_spec k 0) as [|K0]; try discriminate.
  destruct (Z.ltb_spec 0 k) as [K|K].
  - intro E. injection E as <-. left. split; auto.
    set (lo := match a with Some x => Z.max 0 (resolve (Z.of_nat n) x) | None => 0%Z end).
    set (hi := match b with Some x => resolve (Z.of_nat n) x | None => Z.of_nat n end).
    set (A := match a with Some x => adjust (Z.of_nat n) 0 (Z.of_nat n) x | None => 0%Z end).
    set (B := match b with Some x => adjust (Z.of_nat n) 0 (Z.of_nat n) x | None => Z.of_nat n end).
    assert (EA : A = Z.min (Z.of_nat n) lo).
    { subst A lo. destruct a; [rewrite adjust_pos by lia; lia|lia]. }
    assert (EB : B = Z.min (Z.of_nat n) (Z.max 0 hi)).
    { subst B hi. destruct b; [rewrite adjust_pos by lia; lia|lia]. }
    assert (LO : (0 <= lo)%Z) by (subst lo; destruct a; lia).
    clearbody lo hi A B k.
    apply sorted_ext.
    + apply map_seq_sorted. intros i j L _.
      assert (Z.of_nat i * k < Z.of_nat j * k)%Z by (apply Z.mul_lt_mono_pos_r; lia).
      assert (0 <= Z.of_nat i * k)%Z by lia. lia.
    + apply filter_sorted, seq_sorted.
    + intro x. rewrite in_map_iff, filter_In, in_seq, !andb_true_iff, Z.leb_le, Z.ltb_lt, Z.eqb_eq.
      split.
      * intros [i [E I]]. apply in_seq in I.
        destruct (Z.ltb_spec A B) as [L|L]; [|lia].
        assert (Q : (Z.of_nat i <= (B - A - 1) / k)%Z).
        { assert (0 <= (B - A - 1) / k)%Z by (apply Z.div_pos; lia). lia. }
        assert (W : (Z.of_nat i * k <= B - A - 1)%Z).
        { pose proof (Z.mul_div_le (B - A - 1) k K). assert (Z.of_nat i * k <= (B - A - 1) / k * k)%Z by (apply Z.mul_le_mono_nonneg_r; lia). lia. }
        assert (0 <= Z.of_nat i * k)%Z by lia.
        assert (EL : A = lo) by lia. clear EA. subst A. assert (X : Z.of_nat x = (lo + Z.of_nat i * k)%Z) by lia.
        rewrite X. repeat split; try lia.
        replace (lo + Z.of_nat i * k - lo)%Z with (Z.of_nat i * k)%Z by lia. apply Z.mod_mul. lia.
      * intros [L [[L1 L2] M]].
        assert (D : (Z.of_nat x - lo = k * ((Z.of_nat x - lo) / k))%Z) by (apply Z_div_exact_full_2; lia).
        assert (0 <= (Z.of_nat x - lo) / k)%Z by (apply Z.div_pos; lia).
        exists (Z.to_nat ((Z.of_nat x - lo) / k)). rewrite Z2Nat.id by lia.
        assert (EL : A = lo) by lia. clear EA. subst A. split. lia.
        apply in_seq. split; [lia|]. destruct (Z.ltb_spec lo B) as [|]; [|lia].
        assert ((Z.of_nat x - lo) / k <= (B - lo - 1) / k)%Z by (apply Z.div_le_mono; lia). lia.
  - intro E. injection E as <-. right. split. lia.
    set (lo := match a with Some x => Z.min (Z.of_nat n - 1) (resolve (Z.of_nat n) x) | None => (Z.of_nat n - 1)%Z end).
    set (A := match a with Some x => adjust (Z.of_nat n) (-1) (Z.of_nat n - 1) x | None => (Z.of_nat n - 1)%Z end).
    set (B := match b with Some x => adjust (Z.of_nat n) (-1) (Z.of_nat n - 1) x | None => (-1)%Z end).
    assert (EA : A = Z.max (-1) lo).
    { subst A lo. destruct a; [rewrite adjust_neg by lia; lia|lia]. }
    assert (LO : (lo <= Z.of_nat n - 1)%Z) by (subst lo; destruct a; lia).
    assert (EB : forall x, x < n -> (B < Z.of_nat x)%Z <-> match b with Some y => (resolve (Z.of_nat n) y <? Z.of_nat x)%Z | None => true end = true).
    { intros x L. subst B. destruct b as [y|]; [|split; [auto|lia]]. rewrite Z.ltb_lt, adjust_neg by lia. lia. }
    assert (BL : (-1 <= B)%Z) by (subst B; destruct b; [rewrite adjust_neg by lia|]; lia).
    clearbody lo A B.
    apply (f_equal (@rev nat)) with (x := rev _) (y := filter _ _) || idtac.
    rewrite <- (rev_involutive (map _ _)). f_equal.
    assert (CB : forall i, In i (seq 0 (if (B <? A)%Z then Z.to_nat ((A - B - 1) / - k + 1) else 0)) ->
              (B < A /\ Z.of_nat i * - k <= A - B - 1)%Z).
    { intros i I. apply in_seq in I. destruct (Z.ltb_spec B A) as [L|L]; [|lia]. split; auto.
      assert (0 <= (A - B - 1) / - k)%Z by (apply Z.div_pos; lia).
      assert (Q : (Z.of_nat i <= (A - B - 1) / - k)%Z) by lia.
      pose proof (Z.mul_div_le (A - B - 1) (- k) ltac:(lia)).
      assert (Z.of_nat i * - k <= (A - B - 1) / - k * - k)%Z by (apply Z.mul_le_mono_nonneg_r; lia). lia. }
    apply sorted_ext.
    + apply sorted_rev_map. intros i j L LJ.
      destruct (CB j) as [C1 C2]. { apply in_seq. lia. }
      assert (Z.of_nat i * - k < Z.of_nat j * - k)%Z by (apply Z.mul_lt_mono_pos_r; lia). lia.
    + apply filter_sorted, seq_sorted.
    + intro x. rewrite <- in_rev, in_map_iff, filter_In, in_seq, !andb_true_iff, Z.leb_le, Z.eqb_eq.
      split.
      * intros [i [E I]]. destruct (CB i I) as [C1 C2].
        assert (0 <= Z.of_nat i * - k)%Z by lia.
        assert (EL : A = lo) by lia. clear EA. subst A. assert (X : Z.of_nat x = (lo + Z.of_nat i * k)%Z) by lia.
        split. lia. split. split. lia. apply EB; lia.
        replace (lo - Z.of_nat x)%Z with (Z.of_nat i * - k)%Z by lia. apply Z.mod_mul. lia.
      * intros [L [[L1 L2] M]]. apply EB in L2; [|lia].
        assert (D : (lo - Z.of_nat x = - k * ((lo - Z.of_nat x) / - k))%Z) by (apply Z_div_exact_full_2; lia).
        assert (0 <= (lo - Z.of_nat x) / - k)%Z by (apply Z.div_pos; lia).
        exists (Z.to_nat ((lo - Z.of_nat x) / - k)). rewrite Z2Nat.id by lia.
        assert (EL : A = lo) by lia. clear EA. subst A. split. lia.
        apply in_seq. split; [lia|]. destruct (Z.ltb_spec B lo) as [|]; [|lia].
        assert ((lo - Z.of_nat x) / - k <= (lo - B - 1) / - k)%Z by (apply Z.div_le_mono; lia). lia.
Qed.

Lemma slice_spec_props n a b c ps : slice_spec n a b c ps -> NoDup ps /\ Forall (fun p => p < n) ps.
Proof.
  intros [[_ ->]|[_ ->]].
  - split. apply NoDup_filter, seq_NoDup. apply Forall_forall. intros x I. apply filter_In in I.
    destruct I as [I _]. apply in_seq in I. lia.
  - split. apply NoDup_rev, NoDup_filter, seq_NoDup. apply Forall_forall. intros x I. apply in_rev in I.
    apply filter_In in I. destruct I as [I _]. apply in_seq in I. lia.
Qed.

Lemma mask_positions_range l : Forall (fun p => p < List.length l) (mask_positions l).
Proof.
  apply Forall_forall. intros x I. unfold mask_positions in I. apply in_map_iff in I.
  destruct I as [[i b] [<- I]]. apply filter_In in I. destruct I as [I _].
  apply in_combine_l in I. apply in_seq in I. simpl. lia.
Qed.

Lemma sel_positions_range n r ps : sel_positions n r = SOk ps -> Forall (fun p => p < n) ps.
Proof.
  destruct r as [i|a b c|l|l]; simpl.
  - destruct (int_position n i) eqn:E; simpl; intro K; try discriminate. injection K as <-.
    apply int_position_ok in E. constructor; [lia|constructor].
  - intro E. apply slice_positions_spec, slice_spec_props in E. apply E.
  - intro E. apply smapM_spec in E. induction E as [|x y l ps K E IH]; constructor; auto.
    apply int_position_ok in K. lia.
  - destruct (Nat.eqb_spec (List.length l) n) as [<-|]; intro E; try discriminate. injection E as <-.
    apply mask_positions_range.
Qed.

Lemma slice_all n : slice_positions n None None None = SOk (seq 0 n).
Proof.
  unfold slice_positions. simpl. f_equal.
  replace (if (0 <? Z.of_nat n)%Z then Z.to_nat ((Z.of_nat n - 0 - 1) / 1 + 1) else 0) with n.
  - rewrite <- (map_id (seq 0 n)) at 2. apply map_ext. intro i. lia.
  - destruct (Z.ltb_spec 0 (Z.of_nat n)); [|lia]. rewrite Z.div_1_r. lia.
Qed.

(** The one-element slice i:i+1 selects row i, except for i = -1 where it is empty. *)
Lemma slice_one n i : (- Z.of_nat n <= i < Z.of_nat n)%Z -> i <> (-1)%Z ->
  slice_positions n (Some i) (Some (i + 1)%Z) None = SOk [Z.to_nat (resolve (Z.of_nat n) i)].
Proof.
  intros H N. unfold slice_positions. simpl. rewrite !adjust_pos by lia. unfold resolve.
  destruct (Z.ltb_spec i 0), (Z.ltb_spec (i + 1) 0); try lia.
  - replace (Z.min (Z.of_nat n) (Z.max 0 (i + Z.of_nat n))) with (i + Z.of_nat n)%Z by lia.
    replace (Z.min (Z.of_nat n) (Z.max 0 (i + 1 + Z.of_nat n))) with (i + Z.of_nat n + 1)%Z by lia.
    destruct (Z.ltb_spec (i + Z.of_nat n) (i + Z.of_nat n + 1)); [|lia].
    replace (i + Z.of_nat n + 1 - (i + Z.of_nat n) - 1)%Z with 0%Z by lia. simpl. do 2 f_equal. lia.
  - replace (Z.min (Z.of_nat n) (Z.max 0 i)) with i by lia.
    replace (Z.min (Z.of_nat n) (Z.max 0 (i + 1))) with (i + 1)%Z by lia.
    destruct (Z.ltb_spec i (i + 1)); [|lia].
    replace (i + 1 - i - 1)%Z with 0%Z by lia. simpl. do 2 f_equal. lia.
Qed.

Lemma slice_last n : slice_positions n (Some (-1)%Z) (Some 0%Z) None = SOk [].
Proof.
  unfold slice_positions. change ((1 =? 0)%Z) with false. change ((0 <? 1)%Z) with true. cbv iota zeta.
  rewrite !adjust_pos by lia. unfold resolve. change ((-1 <? 0)%Z) with true. change ((0 <? 0)%Z) with false. cbv iota.
  generalize (Z.max 0 (-1 + Z.of_nat n)) (Z.le_max_l 0 (-1 + Z.of_nat n)). intros y Y.
  destruct (Z.ltb_spec (Z.min (Z.of_nat n) y) (Z.min (Z.of_nat n) (Z.max 0 0))); [lia|].
  reflexivity.
Qed.
