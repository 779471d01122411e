(** Lemmas about Model_Box.v. *)
From Coq Require Import List Bool Arith ZArith QArith Qabs Qround Lia Lqa Qfield Permutation.
From Verif Require Import Lib_List Model_Pareto Spec_Pareto Proofs_Pareto Model_Box.
Import ListNotations.
Open Scope nat_scope.

Lemma floor_frac y : (0 <= y - inject_Z (Qfloor y))%Q /\ (y - inject_Z (Qfloor y) < 1)%Q.
Proof.
  pose proof (Qfloor_le y). pose proof (Qlt_floor y) as H0. rewrite inject_Z_plus in H0.
  change (inject_Z 1) with 1%Q in H0. split; lra.
Qed.

Lemma reflect_eq x lb ub : (lb < ub)%Q ->
  let k := Qfloor ((x - lb) / (ub - lb)) in
  (reflect x lb ub == if Z.even k then x - inject_Z k * (ub - lb)
                      else 2 * lb - x + inject_Z (k + 1) * (ub - lb))%Q.
Proof.
  intros H k. unfold reflect. cbv zeta. fold k. set (y := ((x - lb) / (ub - lb))%Q) in *.
  assert (E : (y * (ub - lb) == x - lb)%Q) by (unfold y; field; lra).
  destruct (floor_frac y) as [F1 F2]. fold k in F1, F2.
  pose proof (Qabs_pos (y - inject_Z k) F1) as EA.
  destruct (Z.even k); rewrite EA.
  - setoid_replace (lb + (ub - lb) * (y - inject_Z k))%Q with (lb + y * (ub - lb) - inject_Z k * (ub - lb))%Q by ring.
    rewrite E. ring.
  - rewrite inject_Z_plus. change (inject_Z 1) with 1%Q.
    setoid_replace (lb + (ub - lb) * (1 - (y - inject_Z k)))%Q with (ub - y * (ub - lb) + inject_Z k * (ub - lb))%Q by ring.
    rewrite E. ring.
Qed.

Lemma reflect_in x lb ub : (lb < ub)%Q -> (lb <= reflect x lb ub)%Q /\ (reflect x lb ub <= ub)%Q.
Proof.
  intro H. unfold reflect. set (y := ((x - lb) / (ub - lb))%Q).
  destruct (floor_frac y) as [F1 F2]. pose proof (Qabs_pos _ F1) as EA. cbv zeta.
  set (d := (y - inject_Z (Qfloor y))%Q) in *.
  assert (G : forall t, (0 <= t)%Q -> (t <= 1)%Q -> (lb <= lb + (ub - lb) * t)%Q /\ (lb + (ub - lb) * t <= ub)%Q).
  { intros t T1 T2. assert (0 <= (ub - lb) * t)%Q by (apply Qmult_le_0_compat; lra).
    assert (0 <= (ub - lb) * (1 - t))%Q by (apply Qmult_le_0_compat; lra). split; lra. }
  destruct (Z.even (Qfloor y)); apply G; rewrite EA; lra.
Qed.

Lemma reflect_id x lb ub : (lb < ub)%Q -> (lb <= x)%Q -> (x <= ub)%Q -> (reflect x lb ub == x)%Q.
Proof.
  intros H L U. rewrite reflect_eq by exact H.
  set (y := ((x - lb) / (ub - lb))%Q).
  assert (E : (y * (ub - lb) == x - lb)%Q) by (unfold y; field; lra).
  assert (Y0 : (0 <= y)%Q) by (unfold y; apply Qle_shift_div_l; lra).
  assert (Y1 : (y <= 1)%Q) by (unfold y; apply Qle_shift_div_r; lra).
  destruct (Qlt_le_dec y 1) as [Y|Y].
  - assert (K : Qfloor y = 0%Z).
    { pose proof (Qfloor_le y). pose proof (Qlt_floor y).
      assert (0 <= Qfloor y)%Z by (change 0%Z with (Qfloor (inject_Z 0)); apply Qfloor_resp_le; exact Y0).
      assert (inject_Z (Qfloor y) < inject_Z 1)%Q by (change (inject_Z 1) with 1%Q; lra).
      rewrite <- Zlt_Qlt in H3. lia. }
    rewrite K. cbn [Z.even]. ring.
  - assert (Ey : (y == 1)%Q) by lra.
    assert (K : Qfloor y = 1%Z) by (rewrite Ey; reflexivity).
    rewrite K. cbn [Z.even]. change (inject_Z (1 + 1)) with 2%Q.
    assert (x == ub)%Q by (rewrite Ey in E; lra). lra.
Qed.

Lemma reflect_mod x lb ub : (lb < ub)%Q ->
  exists k : Z, (reflect x lb ub == x + inject_Z (2 * k) * (ub - lb))%Q \/
                (reflect x lb ub == 2 * lb - x + inject_Z (2 * k) * (ub - lb))%Q.
Proof.
  intro H. pose proof (reflect_eq x lb ub H) as E. cbv zeta in E.
  set (k := Qfloor ((x - lb) / (ub - lb))) in *.
  destruct (Z.even k) eqn:EV.
  - apply Z.even_spec in EV. destruct EV as [c Hc]. exists (- c)%Z. left. rewrite E, Hc.
    rewrite !inject_Z_mult, inject_Z_opp. ring.
  - assert (Z.odd k = true) by (rewrite <- Z.negb_even, EV; reflexivity).
    apply Z.odd_spec in H0. destruct H0 as [c Hc]. exists (c + 1)%Z. right. rewrite E.
    replace (k + 1)%Z with (2 * (c + 1))%Z by lia. reflexivity.
Qed.

Lemma handle_nth x bounds i b v :
  nth_error bounds i = Some b -> nth_error x i = Some v ->
  nth_error (handle_box_constraint x bounds) i = Some (repair1 b v).
Proof.
  intros Hb Hv. unfold handle_box_constraint. rewrite nth_error_map, nth_error_combine, Hb, Hv. reflexivity.
Qed.

Lemma handle_length x bounds : length x = length bounds -> length (handle_box_constraint x bounds) = length x.
Proof. intro H. unfold handle_box_constraint. rewrite map_length, combine_length. lia. Qed.

(** * argmax_restart *)
Section Restart.
  Context {X : Type}.
  Variables h g : option (X -> list Q).
  Variable inner : nat -> Z -> outcome X.
  Variable wait_iter : nat.
  Notation feas := (feasible h g).
  Notation restart := (restart h g inner).
  Notation loop := (loop h g inner wait_iter).

  (** The sequence of states. *)
  Fixpoint state (b0 : Z) (i : nat) : rstate :=
    match i with 0 => mkR [] None 0 b0 | S j => restart j (state b0 j) end.
  Definition out (b0 : Z) (i : nat) := inner i (budget (state b0 i)).
  (** The feasible outcomes of the first n restarts. *)
  Definition feas_outs (b0 : Z) (n : nat) : list (outcome X) :=
    filter (fun o => feas (ox o)) (map (out b0) (seq 0 n)).

  Lemma feas_outs_S b0 n :
    feas_outs b0 (S n) = feas_outs b0 n ++ (if feas (ox (out b0 n)) then [out b0 n] else []).
  Proof.
    unfold feas_outs. rewrite seq_S, map_app, filter_app'. cbn [map filter Nat.add]. reflexivity.
  Qed.

  Lemma state_recorded b0 n :
    recorded (state b0 n) = map (fun o => (ox o, ofv o)) (feas_outs b0 n).
  Proof.
    induction n as [|n IH]; [reflexivity|]. rewrite feas_outs_S, map_app, <- IH.
    cbn [state]. unfold Model_Box.restart. fold (out b0 n).
    destruct (feas (ox (out b0 n))); cbn [recorded map]; [reflexivity|rewrite app_nil_r; reflexivity].
  Qed.
  Lemma state_budget b0 n :
    budget (state b0 n) = (b0 - Z.of_nat (list_sum (map calls (feas_outs b0 n))))%Z.
  Proof.
    induction n as [|n IH]; [simpl; lia|]. rewrite feas_outs_S, map_app, list_sum_app.
    cbn [state]. unfold Model_Box.restart. fold (out b0 n).
    destruct (feas (ox (out b0 n))); cbn [budget map list_sum fold_right]; rewrite IH; lia.
  Qed.

  (** best is the first maximum of the values, wait the number of values after it. *)
  Definition first_max (l : list Q) (b : option Q) (w : nat) : Prop :=
    match b with
    | None => l = [] /\ w = 0
    | Some x => exists pre post, l = pre ++ x :: post /\ (forall y, In y pre -> (y < x)%Q) /\
                  (forall y, In y post -> (y <= x)%Q) /\ w = length post
    end.
  Lemma state_best b0 n : first_max (map ofv (feas_outs b0 n)) (best (state b0 n)) (wait (state b0 n)).
  Proof.
    induction n as [|n IH]; [simpl; auto|]. rewrite feas_outs_S, map_app.
    cbn [state]. unfold Model_Box.restart. fold (out b0 n).
    destruct (feas (ox (out b0 n))); [|rewrite app_nil_r; exact IH].
    cbn [best wait map]. set (v := ofv (out b0 n)). destruct (best (state b0 n)) as [b|].
    - destruct IH as (pre&post&E&H1&H2&H3). destruct (Qltb b v) eqn:L.
      + apply Qltb_iff in L. exists (pre ++ b :: post), []. rewrite <- E. repeat split; auto; [|intros y []].
        intros y Hy. rewrite E in Hy. apply in_app_or in Hy. destruct Hy as [Hy|[<-|Hy]]; auto.
        * specialize (H1 y Hy). lra.
        * specialize (H2 y Hy). lra.
      + apply Qltb_false in L. exists pre, (post ++ [v]). rewrite E. split; [rewrite <- app_assoc; reflexivity|].
        repeat split; auto.
        * intros y Hy. apply in_app_or in Hy. destruct Hy as [Hy|[<-|[]]]; auto.
        * rewrite app_length. simpl. lia.
    - destruct IH as [E W]. exists [], []. rewrite E. repeat split; try contradiction.
  Qed.

  Lemma loop_state b0 : forall left i s n,
    loop left i (state b0 i) = (s, n) ->
    s = state b0 n /\ i <= n <= i + left /\
    (forall j, i < j < n -> stop wait_iter (state b0 j) = false) /\
    (n < i + left -> i < n /\ stop wait_iter (state b0 n) = true).
  Proof.
    induction left as [|left IH]; intros i s n H; cbn [Model_Box.loop] in H.
    - injection H as <- <-. repeat split; intros; try lia.
    - change (restart i (state b0 i)) with (state b0 (S i)) in H.
      destruct (stop wait_iter (state b0 (S i))) eqn:E.
      + injection H as <- <-. repeat split; intros; auto; lia.
      + apply IH in H. destruct H as (H1&H2&H3&H4). repeat split; auto; try lia.
        * intros j Hj. destruct (Nat.eq_dec j (S i)) as [->|N]; auto. apply H3. lia.
        * apply H4; lia.
  Qed.

  Variable argsort : list Q -> list nat.
  Hypothesis Hsort : sorts argsort.

  Lemma pick_spec (s : rstate (X := X)) :
    match pick argsort s with
    | None => recorded s = []
    | Some (x, f) => In (x, f) (recorded s) /\ forall x' f', In (x', f') (recorded s) -> (f' <= f)%Q
    end.
  Proof.
    unfold pick. destruct (recorded s) as [|r0 r] eqn:E; [reflexivity|]. rewrite <- E.
    set (R := recorded s) in *. destruct (Hsort (map snd R)) as [HP HS]. rewrite map_length in HP.
    set (l := argsort (map snd R)) in *.
    assert (LL : length l = length R) by (rewrite (Permutation_length HP), seq_length; reflexivity).
    assert (LR : 0 < length R) by (rewrite E; simpl; lia).
    assert (EN : nth 0 (rev l) 0 = nth (length l - 1) l 0) by (rewrite rev_nth by lia; f_equal; lia).
    rewrite EN. set (k := nth (length l - 1) l 0).
    assert (Hk : nth_error l (length l - 1) = Some k) by (apply nth_error_nth'; lia).
    assert (Lk : k < length R).
    { assert (In k (seq 0 (length R))) by (eapply Permutation_in; [exact HP|eapply nth_error_In; eauto]). apply in_seq in H. lia. }
    destruct (lt_nth_error R k Lk) as [[x f] Hxf]. rewrite Hxf. split; [eapply nth_error_In; eauto|].
    intros x' f' Hin. apply In_nth_error in Hin. destruct Hin as [j Hj].
    assert (Lj : j < length R) by (eapply nth_error_lt; eauto).
    assert (exists a, nth_error l a = Some j) as [a Ha].
    { apply In_nth_error. eapply Permutation_in; [apply Permutation_sym, HP|apply in_seq; lia]. }
    assert (NV : forall i p, nth_error R i = Some p -> nth i (map snd R) 0%Q = snd p).
    { intros i p Hp. apply nth_error_nth. rewrite nth_error_map, Hp. reflexivity. }
    destruct (Nat.eq_dec a (length l - 1)) as [->|N].
    - assert (j = k) by congruence. subst. assert (f' = f) by congruence. subst. apply Qle_refl.
    - assert (a < length l - 1) by (apply nth_error_lt in Ha; lia).
      specialize (HS a (length l - 1) j k H Ha Hk). rewrite (NV _ _ Hj), (NV _ _ Hxf) in HS. exact HS.
  Qed.
End Restart.
