(** Lemmas about Model_MOBO.v. *)
From Coq Require Import List Bool Arith ZArith QArith Qminmax Lia Lqa.
From Verif Require Import Lib_List Model_Pareto Spec_Pareto Proofs_Pareto Model_MOBO Spec_MOBO.
Import ListNotations.
Open Scope nat_scope.

Lemma fold_min l : forall a, (fold_left Qmin l a <= a)%Q /\ (forall v, In v l -> (fold_left Qmin l a <= v)%Q) /\
  (fold_left Qmin l a == a \/ exists v, In v l /\ fold_left Qmin l a == v)%Q.
Proof.
  induction l as [|b l IH]; intros a; simpl.
  - split; [lra|]. split; [tauto|]. left; lra.
  - destruct (IH (Qmin a b)) as (A&B&C). pose proof (Q.le_min_l a b). pose proof (Q.le_min_r a b).
    split; [lra|]. split.
    + intros v [->|H1]; [lra|auto].
    + destruct C as [C|(v&Hv&C)].
      * destruct (Q.min_dec a b) as [D|D]; [left; lra|right; exists b; split; [left; reflexivity|lra]].
      * right. exists v; auto.
Qed.

Lemma fold_max l : forall a, (a <= fold_left Qmax l a)%Q /\ (forall v, In v l -> (v <= fold_left Qmax l a)%Q).
Proof.
  induction l as [|b l IH]; intros a; simpl.
  - split; [lra|intros v []].
  - destruct (IH (Qmax a b)) as (A&B). pose proof (Q.le_max_l a b). pose proof (Q.le_max_r a b).
    split; [lra|]. intros v [->|H1]; [lra|auto].
Qed.

Lemma col_min_le c v : In v c -> (col_min c <= v)%Q.
Proof.
  destruct c as [|a l]; [intros []|]. simpl. destruct (fold_min l a) as (A&B&_). intros [->|H]; auto.
Qed.
Lemma col_min_in c : c <> [] -> exists v, In v c /\ (col_min c == v)%Q.
Proof.
  destruct c as [|a l]; [congruence|]. intros _. simpl. destruct (fold_min l a) as (_&_&[C|(v&Hv&C)]); eauto.
Qed.
Lemma col_max_ge c v : In v c -> (v <= col_max c)%Q.
Proof.
  destruct c as [|a l]; [intros []|]. simpl. destruct (fold_max l a) as (A&B). intros [->|H]; auto.
Qed.
Lemma col_min_max c : c <> [] -> (col_min c <= col_max c)%Q.
Proof. destruct c as [|a l]; [congruence|]. intros _. pose proof (col_min_le (a :: l) a (or_introl eq_refl)).
  pose proof (col_max_ge (a :: l) a (or_introl eq_refl)). lra. Qed.

Lemma fold_max_in l : forall a, (fold_left Qmax l a == a \/ exists v, In v l /\ fold_left Qmax l a == v)%Q.
Proof.
  induction l as [|b l IH]; intros a; simpl; [left; lra|]. destruct (IH (Qmax a b)) as [C|(v&Hv&C)].
  - destruct (Q.max_dec a b) as [D|D]; [left; lra|right; exists b; split; [left; reflexivity|lra]].
  - right. exists v; auto.
Qed.
Lemma col_max_in c : c <> [] -> exists v, In v c /\ (col_max c == v)%Q.
Proof. destruct c as [|a l]; [congruence|]. intros _. simpl. destruct (fold_max_in l a) as [C|(v&Hv&C)]; eauto. Qed.

Definition width (c : list Q) : Q := let r := (col_max c - col_min c)%Q in if Qeq_bool r 0 then 1%Q else r.
Lemma width_pos c : c <> [] -> (0 < width c)%Q.
Proof.
  intros H. unfold width. cbv zeta. destruct (Qeq_bool _ _) eqn:E; [lra|]. apply Qeq_bool_neq in E.
  pose proof (col_min_max c H). lra.
Qed.
Lemma minmax_eq c v : minmax c v = ((v - col_min c) / width c)%Q.
Proof. reflexivity. Qed.
Lemma minmax_le c a b : c <> [] -> ((minmax c a <= minmax c b)%Q <-> (a <= b)%Q).
Proof.
  intros H. rewrite !minmax_eq. pose proof (width_pos c H) as W.
  split; intros K.
  - apply Qmult_le_compat_r with (z := width c) in K; [|lra].
    assert (E : forall x, (x / width c * width c == x)%Q) by (intros; field; lra).
    rewrite !E in K. lra.
  - apply Qmult_le_compat_r; [lra|]. apply Qlt_le_weak, Qinv_lt_0_compat, W.
Qed.
Lemma minmax_range c v : In v c -> (0 <= minmax c v <= 1)%Q.
Proof.
  intros Hv. assert (H : c <> []) by (intros ->; destruct Hv). pose proof (width_pos c H) as W.
  pose proof (col_min_le c v Hv) as A. pose proof (col_max_ge c v Hv) as B. rewrite minmax_eq.
  assert (L : (v - col_min c <= width c)%Q).
  { unfold width; cbv zeta. destruct (Qeq_bool _ _) eqn:E; [|lra]. apply Qeq_bool_eq in E. lra. }
  split.
  - apply Qle_shift_div_l; lra.
  - apply Qle_shift_div_r; lra.
Qed.

(** *** y and dominance *)
Lemma y_length mn F : length (y_of mn F) = length F.
Proof. apply map_length. Qed.
Lemma y_rect mn F : rectangular (length mn) (y_of mn F).
Proof.
  intros p H. apply in_map_iff in H. destruct H as (r&<-&_). rewrite map_length, seq_length. reflexivity.
Qed.
Definition yrow (mn : list bool) (F : list vec) (r : vec) : vec :=
  map (fun j => orient (nth j mn true) (minmax (column j F) (nth j r 0%Q))) (seq 0 (length mn)).
Lemma y_nth mn F i : nth_error (y_of mn F) i = option_map (yrow mn F) (nth_error F i).
Proof. apply nth_error_map. Qed.
Lemma yrow_nth mn F r j : j < length mn ->
  nth_error (yrow mn F r) j = Some (orient (nth j mn true) (minmax (column j F) (nth j r 0%Q))).
Proof.
  intros H. unfold yrow. rewrite nth_error_map, (nth_error_nth' _ 0) by (rewrite seq_length; exact H).
  rewrite seq_nth by exact H. reflexivity.
Qed.
Lemma yrow_in mn F r j : In r F -> j < length mn ->
  In (orient (nth j mn true) (minmax (column j F) (nth j r 0%Q))) (concat (y_of mn F)).
Proof.
  intros H Hj. apply in_concat. exists (yrow mn F r). split; [apply in_map_iff; exists r; auto|].
  eapply nth_error_In, yrow_nth, Hj.
Qed.

Lemma ycol_in mn F r j : In r F -> j < length mn ->
  In (orient (nth j mn true) (minmax (column j F) (nth j r 0%Q))) (column j (y_of mn F)).
Proof.
  intros H Hj. unfold column at 2. apply in_map_iff. exists (yrow mn F r). split; [|apply in_map_iff; exists r; auto].
  apply nth_error_nth. now apply yrow_nth.
Qed.
Lemma ycol_elim mn F v j : In v (column j (y_of mn F)) -> j < length mn -> exists r, In r F /\ v = orient (nth j mn true) (minmax (column j F) (nth j r 0%Q)).
Proof.
  intros H Hj. apply in_map_iff in H as (y & <- & H). apply in_map_iff in H as (r & <- & H). exists r. split; auto.
  apply nth_error_nth. now apply (yrow_nth mn F r j).
Qed.
Lemma keeps_order_columns cast mn F : keeps_order cast (concat (y_of mn F)) -> forall j, j < length mn -> keeps_order cast (column j (y_of mn F)).
Proof.
  intros K j Hj a b Ha Hb. apply ycol_elim in Ha as (p & Hp & ->); auto. apply ycol_elim in Hb as (q & Hq & ->); auto. apply K; apply yrow_in; auto.
Qed.

Lemma Forall2_nth {A B} (R : A -> B -> Prop) p q : length p = length q ->
  (Forall2 R p q <-> forall j a b, nth_error p j = Some a -> nth_error q j = Some b -> R a b).
Proof.
  revert q. induction p as [|a p IH]; intros [|b q] L; simpl in L; try lia.
  - split; [intros _ [|j] x y E; discriminate|constructor].
  - split.
    + intros H. inversion H; subst. intros [|j] x y E1 E2; simpl in *; [congruence|]. eapply IH; eauto.
    + intros H. constructor; [apply (H 0); reflexivity|]. apply IH; [lia|]. intros j. apply (H (S j)).
Qed.

Section Cast.
  Variable cast : Q -> Q.
  Variables (mn : list bool) (F : list vec).
  Hypothesis HC : forall j, j < length mn -> keeps_order cast (column j (y_of mn F)).

  Lemma orient_le b c a v : c <> [] ->
    ((orient b (minmax c a) <= orient b (minmax c v))%Q <-> at_least_as_good b v a).
  Proof.
    intros H. unfold orient, at_least_as_good. destruct b.
    - split; intros K; [apply (minmax_le c v a H); lra|]. apply (minmax_le c v a H) in K; lra.
    - split; intros K; [apply (minmax_le c a v H); lra|]. apply (minmax_le c a v H) in K; lra.
  Qed.

  Lemma col_ne j r : In r F -> column j F <> [].
  Proof. intros H. destruct F; [destruct H|discriminate]. Qed.

  Lemma wb_user p q : In p F -> In q F ->
    (weakly_better (map cast (yrow mn F p)) (map cast (yrow mn F q)) <->
     forall j b, nth_error mn j = Some b -> at_least_as_good b (nth j q 0%Q) (nth j p 0%Q)).
  Proof.
    intros Hp Hq. unfold weakly_better. rewrite Forall2_nth by (unfold yrow; rewrite !map_length; reflexivity).
    split; intros H j.
    - intros b Hb. assert (Hj : j < length mn) by (apply nth_error_Some; congruence).
      assert (Hn : nth j mn true = b) by (apply nth_error_nth; exact Hb).
      specialize (H j _ _ (map_nth_error cast j _ (yrow_nth mn F p j Hj)) (map_nth_error cast j _ (yrow_nth mn F q j Hj))).
      apply (HC j Hj) in H; [|apply ycol_in; auto|apply ycol_in; auto].
      rewrite Hn in H. apply orient_le in H; [exact H|]. eapply col_ne; eauto.
    - intros a b Ha Hb. rewrite nth_error_map in Ha, Hb.
      destruct (nth_error (yrow mn F p) j) as [a'|] eqn:Ea; [|discriminate].
      destruct (nth_error (yrow mn F q) j) as [b'|] eqn:Eb; [|discriminate].
      assert (Hj : j < length mn).
      { assert (K : j < length (yrow mn F p)) by (apply nth_error_Some; congruence). unfold yrow in K.
        rewrite map_length, seq_length in K. exact K. }
      rewrite yrow_nth in Ea, Eb by exact Hj. cbn [option_map] in Ha, Hb.
      assert (X1 : a = cast (orient (nth j mn true) (minmax (column j F) (nth j p 0%Q)))) by congruence.
      assert (X2 : b = cast (orient (nth j mn true) (minmax (column j F) (nth j q 0%Q)))) by congruence.
      subst a b. refine (proj1 (HC j Hj _ _ _ _) _); [apply ycol_in; auto|apply ycol_in; auto|].
      apply orient_le; [eapply col_ne; eauto|]. apply H. apply nth_error_nth'. exact Hj.
  Qed.

  Lemma beats_iff p q : beats mn p q <->
    (forall j b, nth_error mn j = Some b -> at_least_as_good b (nth j p 0%Q) (nth j q 0%Q)) /\
    ~ (forall j b, nth_error mn j = Some b -> at_least_as_good b (nth j q 0%Q) (nth j p 0%Q)).
  Proof.
    unfold beats. split; intros [A B]; split; auto.
    - destruct B as (j&b&Hb&K). intros H. specialize (H j b Hb). unfold better, at_least_as_good in *. destruct b; lra.
    - clear A. pose (f := fun j => nth j q 0%Q). pose (g := fun j => nth j p 0%Q). revert B.
      change (~ (forall j b, nth_error mn j = Some b -> at_least_as_good b (f j) (g j)) ->
        exists j b, nth_error mn j = Some b /\ better b (g j) (f j)). clearbody f g.
      enough (K : forall l k, ~ (forall j b, nth_error l j = Some b -> at_least_as_good b (f (k + j)) (g (k + j))) ->
        exists j b, nth_error l j = Some b /\ better b (g (k + j)) (f (k + j))).
      { intros B. destruct (K mn 0 B) as (j&b&?&?); eauto. }
      induction l as [|b l IH]; intros k H.
      + exfalso. apply H. intros [|j] b E; discriminate.
      + destruct (Qlt_le_dec (if b then g k else f k) (if b then f k else g k)) as [L|L].
        * exists 0, b. split; [reflexivity|]. rewrite Nat.add_0_r. unfold better. destruct b; exact L.
        * destruct (IH (S k)) as (j&b'&E&K).
          { intros M. apply H. intros [|j] b' E; simpl in E.
            - injection E as <-. rewrite Nat.add_0_r. unfold at_least_as_good. destruct b; exact L.
            - rewrite Nat.add_succ_r. apply M. exact E. }
          exists (S j), b'. rewrite Nat.add_succ_r. auto.
  Qed.

  Lemma dom_user p q : In p F -> In q F ->
    (dominates_max (map cast (yrow mn F p)) (map cast (yrow mn F q)) <-> beats mn p q).
  Proof.
    intros Hp Hq. unfold dominates_max. rewrite dominates_iff, beats_iff, !wb_user by assumption. reflexivity.
  Qed.

  Lemma same_user p q : rectangular (length mn) F -> In p F -> In q F ->
    (same_values (map cast (yrow mn F p)) (map cast (yrow mn F q)) <-> same_values p q).
  Proof.
    intros HR Hp Hq. split.
    - intros H. apply same_wb in H. destruct H as [A B]. rewrite wb_user in A, B by assumption.
      unfold same_values. apply Forall2_nth; [rewrite (HR p Hp), (HR q Hq); reflexivity|].
      intros j a b Ha Hb. assert (Hj : j < length mn) by (rewrite <- (HR p Hp); apply nth_error_Some; congruence).
      specialize (A j _ (nth_error_nth' mn true Hj)). specialize (B j _ (nth_error_nth' mn true Hj)).
      rewrite (nth_error_nth p j 0%Q Ha), (nth_error_nth q j 0%Q Hb) in *. unfold at_least_as_good in *.
      destruct (nth j mn true); lra.
    - intros H. apply wb_same; apply wb_user; try assumption; intros j b Hb.
      + assert (K : (nth j p 0 == nth j q 0)%Q).
        { assert (Hj : j < length mn) by (apply nth_error_Some; congruence).
          unfold same_values in H. rewrite Forall2_nth in H by (rewrite (HR p Hp), (HR q Hq); reflexivity).
          apply (H j); apply nth_error_nth'; rewrite ?(HR p Hp), ?(HR q Hq); exact Hj. }
        unfold at_least_as_good. destruct b; lra.
      + assert (K : (nth j p 0 == nth j q 0)%Q).
        { assert (Hj : j < length mn) by (apply nth_error_Some; congruence).
          unfold same_values in H. rewrite Forall2_nth in H by (rewrite (HR p Hp), (HR q Hq); reflexivity).
          apply (H j); apply nth_error_nth'; rewrite ?(HR p Hp), ?(HR q Hq); exact Hj. }
        unfold at_least_as_good. destruct b; lra.
  Qed.

  Lemma positions_in mask i : In i (positions mask) <-> nth_error mask i = Some true.
  Proof.
    unfold positions. rewrite in_map_iff. split.
    - intros ([k b]&E&H). cbn [fst] in E. subst k. apply filter_In in H. destruct H as [H B]. cbn [snd] in B. subst b.
      apply In_nth_error in H. destruct H as (n&H). unfold indexed in H.
      assert (K := H). rewrite nth_error_combine in K.
      destruct (nth_error (seq 0 (length mask)) n) as [s|] eqn:E1; [|discriminate].
      destruct (nth_error mask n) as [b|] eqn:E2; [|discriminate].
      assert (n < length mask) by (apply nth_error_Some; congruence).
      rewrite (nth_error_nth' _ 0), seq_nth in E1 by (rewrite ?seq_length; assumption). simpl in E1. congruence.
    - intros H. exists (i, true). split; [reflexivity|]. apply filter_In. split; [|reflexivity].
      apply nth_error_In with i. unfold indexed. rewrite nth_error_combine, H.
      assert (i < length mask) by (apply nth_error_Some; congruence).
      rewrite (nth_error_nth' _ 0), seq_nth by (rewrite ?seq_length; assumption). reflexivity.
  Qed.

  Lemma positions_sorted mask : Sorted.StronglySorted lt (positions mask).
  Proof.
    unfold positions. pose proof (indexed_sorted mask 0) as K. unfold indexed.
    revert K. generalize (combine (seq 0 (length mask)) mask). intros L. induction L as [|x L IH]; intros K; simpl; [constructor|].
    inversion K; subst. destruct (snd x); simpl; auto. constructor; auto.
    rewrite Forall_forall in *. intros i Hi. apply in_map_iff in Hi. destruct Hi as (z&<-&Hz). apply filter_In in Hz. apply H2, Hz.
  Qed.

  Lemma xopt_spec : rectangular (length mn) F -> forall i,
    In i (xopt_index cast mn F) <->
    exists p, nth_error F i = Some p /\ (forall q, In q F -> ~ beats mn q p) /\
      forall j q, j < i -> nth_error F j = Some q -> ~ same_values q p.
  Proof.
    intros HR i. unfold xopt_index. rewrite positions_in.
    set (Y := map (map cast) (y_of mn F)).
    assert (HY : rectangular (length mn) Y).
    { intros p H. apply in_map_iff in H. destruct H as (r&<-&H). rewrite map_length. apply y_rect in H. exact H. }
    assert (HN : forall k, nth_error Y k = option_map (fun r => map cast (yrow mn F r)) (nth_error F k)).
    { intros k. unfold Y. rewrite nth_error_map, y_nth. destruct (nth_error F k); reflexivity. }
    destruct (is_nd_true (length mn) Y HY) as [L N].
    split.
    - intros H. assert (Hi : i < length F).
      { assert (K : i < length (is_non_dominated Y true)) by (apply nth_error_Some; congruence).
        rewrite L in K. unfold Y in K. rewrite map_length, y_length in K. exact K. }
      destruct (nth_error F i) as [p|] eqn:E; [|apply nth_error_None in E; lia].
      assert (Ei := HN i). rewrite E in Ei. cbn [option_map] in Ei.
      apply (N i _ Ei) in H. destruct H as [H1 H2]. exists p. split; [reflexivity|].
      assert (Hp : In p F) by (eapply nth_error_In; eauto). split.
      + intros q Hq B. apply (H1 (map cast (yrow mn F q))).
        * destruct (In_nth_error _ _ Hq) as (k&Hk). apply nth_error_In with k. rewrite HN, Hk. reflexivity.
        * apply dom_user; assumption.
      + intros j q Hj Hq S. apply (H2 j (map cast (yrow mn F q)) Hj); [rewrite HN, Hq; reflexivity|].
        apply same_user; auto. eapply nth_error_In; eauto.
    - intros (p&E&H1&H2). assert (Ei := HN i). rewrite E in Ei. cbn [option_map] in Ei. apply (N i _ Ei).
      assert (Hp : In p F) by (eapply nth_error_In; eauto). split.
      + intros z Hz D. destruct (In_nth_error _ _ Hz) as (k&Hk). rewrite HN in Hk.
        destruct (nth_error F k) as [q|] eqn:Eq; [|discriminate]. cbn [option_map] in Hk. injection Hk as <-.
        assert (Hq : In q F) by (eapply nth_error_In; eauto). apply (H1 q Hq). apply dom_user in D; assumption.
      + intros j z Hj Hk S. rewrite HN in Hk. destruct (nth_error F j) as [q|] eqn:Eq; [|discriminate].
        cbn [option_map] in Hk. injection Hk as <-. apply (same_user q p) in S; [exact (H2 j q Hj Eq S)|assumption|eapply nth_error_In; eauto|assumption].
  Qed.
End Cast.

(** *** reference point *)
Lemma ref_nth mn F j : j < length mn ->
  nth j (ref_point mn F) 0%Q = (col_min (column j (y_of mn F)) * (8 # 10))%Q.
Proof.
  intros H. unfold ref_point.
  rewrite (nth_indep _ 0%Q ((fun j => (col_min (column j (y_of mn F)) * (8 # 10))%Q) 0)) by (rewrite map_length, seq_length; exact H).
  rewrite (map_nth (fun j => (col_min (column j (y_of mn F)) * (8 # 10))%Q)), seq_nth by exact H. reflexivity.
Qed.
Lemma ycol mn F j : j < length mn -> column j (y_of mn F) =
  map (fun r => orient (nth j mn true) (minmax (column j F) (nth j r 0%Q))) F.
Proof.
  intros H. unfold column at 1, y_of. rewrite map_map. apply map_ext. intros r.
  apply nth_error_nth. exact (yrow_nth mn F r j H).
Qed.

(** *** tell *)
Section Tell.
  Variable X : Type.
  Implicit Types (s : mstate X) (c : call X).

  Lemma tell_row_ok w : forall n k f cnt, length f = k + n ->
    tell_row k n w f cnt = ((if w then cnt else cnt + n), Some (skipn k f)).
  Proof.
    induction n as [|n IH]; intros k f cnt L; cbn [tell_row].
    - rewrite skipn_all2 by lia. destruct w; rewrite ?Nat.add_0_r; reflexivity.
    - destruct (nth_error f k) as [v|] eqn:E; [|apply nth_error_None in E; lia].
      rewrite IH by lia. cbn [option_map].
      assert (K : skipn k f = v :: skipn (S k) f).
      { clear -E. revert k E. induction f as [|a f IHf]; intros [|k] E; try discriminate; [injection E as ->; reflexivity|].
        simpl in E. apply IHf in E. simpl. exact E. }
      rewrite K. destruct w; f_equal; lia.
  Qed.

  Lemma tell_rows_ok w n : forall (xs : list X) F cnt, length F = length xs -> (forall f, In f F -> length f = n) ->
    tell_rows n w xs F cnt = ((if w then cnt else cnt + n * length xs), Some (map (fun xf => Row (fst xf) (snd xf)) (combine xs F))).
  Proof.
    induction xs as [|x xs IH]; intros [|f F] cnt L H; try discriminate; cbn [tell_rows].
    - destruct w; simpl; rewrite ?Nat.mul_0_r, ?Nat.add_0_r; reflexivity.
    - rewrite tell_row_ok by (simpl; apply H; left; reflexivity). rewrite IH.
      + cbn [option_map]. destruct w; cbn [length combine map fst snd skipn]; f_equal; lia.
      + simpl in L; lia.
      + intros g Hg. apply H. right; exact Hg.
  Qed.

  Lemma tell_good n c s : good_call n c ->
    tell n (c_fits c) s (c_warm c) (c_xs c) (c_F c) =
    Done (MState (eval_count s + if c_warm c then 0 else n * length (c_xs c))
                 (iter_count s + if c_warm c then 0 else 1)
                 (data s ++ map (fun xf => Row (fst xf) (snd xf)) (told c))
                 (hist_len s + if c_warm c then 0 else 1)).
  Proof.
    intros (L&G&H). unfold tell. rewrite tell_rows_ok; [|exact L|intros f Hf; apply (H f Hf)].
    rewrite G. unfold told.
    assert (E : existsb (fun r => existsb (fun v => negb (is_fin v)) (r_fit r))
                 (map (fun xf => Row (fst xf) (snd xf)) (combine (c_xs c) (c_F c))) = false).
    { destruct (existsb _ _) eqn:E; [|reflexivity]. apply existsb_exists in E. destruct E as (r&Hr&E).
      apply in_map_iff in Hr. destruct Hr as ([x f]&<-&Hr). cbn [fst snd r_fit] in E.
      apply existsb_exists in E. destruct E as (v&Hv&E).
      apply in_combine_r in Hr. destruct (H f Hr) as [_ K]. destruct (K v Hv) as (q&->). discriminate. }
    rewrite E. destruct (c_warm c); repeat f_equal; lia.
  Qed.

  Lemma run_good n cs : (forall c, In c cs -> good_call n c) ->
    eval_count (run_calls n cs) = n * length (concat (map (@c_xs X) (filter (fun c => negb (c_warm c)) cs))) /\
    data (run_calls n cs) = map (fun xf => Row (fst xf) (snd xf)) (concat (map told cs)) /\
    iter_count (run_calls n cs) = length (filter (fun c => negb (c_warm c)) cs) /\
    hist_len (run_calls n cs) = length (filter (fun c => negb (c_warm c)) cs).
  Proof.
    unfold run_calls. induction cs as [|c cs IH] using rev_ind; intros H.
    - simpl. rewrite Nat.mul_0_r. auto.
    - rewrite fold_left_app. cbn [fold_left]. destruct IH as (A&B&C&D).
      { intros d Hd. apply H, in_or_app. left; exact Hd. }
      rewrite tell_good by (apply H, in_or_app; right; left; reflexivity). cbn [state_of eval_count iter_count data hist_len].
      rewrite A, B, C, D, !filter_app, !map_app, !concat_app, !map_app, !app_length. cbn [filter map concat].
      destruct (c_warm c); cbn [negb map concat]; rewrite ?app_nil_r; simpl; repeat split; try lia.
  Qed.

  Lemma zip_star_spec (xs : list X) fs :
    zip_star (length xs) (map (fun f => map f xs) fs) = map (fun x => map (fun f => f x) fs) xs.
  Proof.
    induction xs as [|x xs IH]; simpl; [reflexivity|]. f_equal.
    - rewrite map_map. reflexivity.
    - rewrite map_map. exact IH.
  Qed.
  Lemma shortest_spec (xs : list X) fs : fs <> [] -> shortest (map (fun f => map f xs) fs) = length xs.
  Proof.
    destruct fs as [|f fs]; [congruence|]. intros _. cbn [map shortest]. rewrite map_length.
    assert (K : forall k, k = length xs -> fold_left Nat.min (map (@length fval) (map (fun f => map f xs) fs)) k = k).
    { induction fs as [|g fs IH]; intros k ->; simpl; [reflexivity|]. rewrite map_length, Nat.min_id. apply IH. reflexivity. }
    apply K. reflexivity.
  Qed.
End Tell.
