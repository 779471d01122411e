(** Properties C27 (box repair), C28 (dynamic penalty), C29 (restarts). *)
From Coq Require Import List Bool Arith ZArith QArith Qabs Lia Lqa.
From Verif Require Import Lib_List Model_Pareto Spec_Pareto Proofs_Pareto Model_Box Proofs_Box.
Import ListNotations.
Open Scope nat_scope.

(** All finite bound pairs are non-degenerate. *)
Definition proper (bounds : list (option Q * option Q)) : Prop :=
  forall lb ub, In (Some lb, Some ub) bounds -> (lb < ub)%Q.
(** v respects the bounds of a component. *)
Definition within (b : option Q * option Q) (v : Q) : Prop :=
  (forall lb, fst b = Some lb -> (lb <= v)%Q) /\ (forall ub, snd b = Some ub -> (v <= ub)%Q).

(** C27: for every vector and all bounds.  Componentwise: a component with two finite bounds
    lands inside them and moves by an even multiple of the width, after reflection at lb or not;
    a component with an infinite bound is not touched; a component inside does not move. *)
Theorem C27_box_repair :
  forall (bounds : list (option Q * option Q)) (x : list Q), proper bounds -> length x = length bounds ->
    let y := handle_box_constraint x bounds in
    length y = length x /\
    forall i b v, nth_error bounds i = Some b -> nth_error x i = Some v ->
      exists w, nth_error y i = Some w /\
        match b with
        | (Some lb, Some ub) =>
            (lb <= w <= ub)%Q /\
            (exists k : Z, (w == v + inject_Z (2 * k) * (ub - lb))%Q \/
                           (w == 2 * lb - v + inject_Z (2 * k) * (ub - lb))%Q)
        | _ => w = v
        end /\
        (within b v -> (w == v)%Q).
Proof.
  intros bounds x HP HL y. split; [apply handle_length; exact HL|].
  intros i b v Hb Hv. exists (repair1 b v). split; [apply handle_nth; assumption|].
  destruct b as [[lb|] [ub|]]; cbn [repair1]; try (split; [reflexivity|intros _; reflexivity]).
  assert (H : (lb < ub)%Q) by (apply HP; eapply nth_error_In; exact Hb).
  split; [split; [apply reflect_in; exact H|apply reflect_mod; exact H]|].
  intros [W1 W2]. apply reflect_id; [exact H|apply W1; reflexivity|apply W2; reflexivity].
Qed.
Print Assumptions C27_box_repair.

(** Repairing twice is the same as repairing once. *)
Theorem C27_box_repair_idempotent :
  forall (bounds : list (option Q * option Q)) (x : list Q), proper bounds -> length x = length bounds ->
    let y := handle_box_constraint x bounds in
    Forall2 Qeq (handle_box_constraint y bounds) y.
Proof.
  intros bounds x HP HL y. subst y. unfold handle_box_constraint.
  revert x HL HP. induction bounds as [|b bounds IH]; intros [|v x] HL HP; try discriminate; [constructor|].
  cbn [combine map fst snd]. constructor.
  - destruct b as [[lb|] [ub|]]; cbn [repair1]; try reflexivity.
    assert (H : (lb < ub)%Q) by (apply HP; left; reflexivity).
    apply reflect_id; [exact H| |]; apply reflect_in; exact H.
  - apply IH; [simpl in HL; congruence|]. intros lb ub Hin. apply HP. right. exact Hin.
Qed.
Print Assumptions C27_box_repair_idempotent.

Example C27_example :
  let bounds := [(Some 0, Some 2); (Some (-1), None); (Some 1, Some 3); (Some 0, Some 1)]%Q in
  proper bounds /\
  Forall2 Qeq (handle_box_constraint [5; -7; -2; 1]%Q bounds) [1; -7; 2; 1]%Q.
Proof.
  split.
  - intros lb ub H. simpl in H. destruct H as [H|[H|[H|[H|[]]]]]; try discriminate; injection H as <- <-; reflexivity.
  - vm_compute. repeat constructor.
Qed.

(** * C29 *)
(** x satisfies the constraints within the tolerance 0.1 on equalities. *)
Definition satisfies {X} (h g : option (X -> list Q)) (x : X) : Prop :=
  (forall f v, h = Some f -> In v (f x) -> (Qabs v <= 1#10)%Q) /\
  (forall f v, g = Some f -> In v (f x) -> (v <= 0)%Q).

Lemma feasible_satisfies {X} (h g : option (X -> list Q)) x : feasible h g x = true <-> satisfies h g x.
Proof.
  unfold feasible, satisfies. rewrite andb_true_iff.
  destruct h as [h|], g as [g|]; rewrite ?forallb_forall;
    (split; [intros [A B]; split; intros f v E; try discriminate; injection E as <-; intro Hv; apply Qle_bool_iff; auto
            |intros [A B]; split; auto; intros v Hv; apply Qle_bool_iff; eauto]).
Qed.

(** The feasible ones among the first k outcomes; [dec] decides feasibility. *)
Definition feasible_of {X} (dec : X -> bool) (outs : list (outcome X)) (k : nat) : list (outcome X) :=
  filter (fun o => dec (ox o)) (firstn k outs).
(** [outs] are the outcomes of the restarts made: each one is what the inner optimizer returns for
    its number and the budget minus the calls of the feasible restarts before it. *)
Definition transcript {X} (dec : X -> bool) (inner : nat -> Z -> outcome X) (budget : Z) (outs : list (outcome X)) : Prop :=
  forall k o, nth_error outs k = Some o ->
    o = inner k (budget - Z.of_nat (list_sum (map calls (feasible_of dec outs k))))%Z.

Section Transcript.
  Context {X : Type} (h g : option (X -> list Q)) (inner : nat -> Z -> outcome X) (budget : Z) (dec : X -> bool).
  Hypothesis Hdec : forall x, dec x = true <-> satisfies h g x.
  Lemma dec_feasible x : dec x = feasible h g x.
  Proof. apply eq_true_iff_eq. rewrite Hdec, feasible_satisfies. reflexivity. Qed.
  Lemma feasible_of_outs k n : k <= n ->
    feasible_of dec (map (out h g inner budget) (seq 0 n)) k = feas_outs h g inner budget k.
  Proof.
    intro H. unfold feasible_of, feas_outs. rewrite firstn_map.
    replace n with (k + (n - k)) by lia. rewrite seq_app, firstn_app, seq_length, Nat.sub_diag.
    rewrite firstn_O, app_nil_r, firstn_all2 by (rewrite seq_length; lia).
    apply filter_ext. intro o. apply dec_feasible.
  Qed.
  Lemma transcript_outs n : transcript dec inner budget (map (out h g inner budget) (seq 0 n)).
  Proof.
    intros k o Hk. assert (K : k < n) by (apply nth_error_lt in Hk; rewrite map_length, seq_length in Hk; exact Hk).
    rewrite feasible_of_outs by lia. rewrite nth_error_map, (nth_error_nth' _ 0) in Hk by (rewrite seq_length; lia).
    rewrite seq_nth in Hk by lia. injection Hk as <-. unfold out. rewrite state_budget. reflexivity.
  Qed.
End Transcript.

(** C29: for every inner optimizer (any random stream, any number of calls), all constraints and
    every argsort, the result is the outcome of one of the restarts made, feasible, and the best
    feasible one; nothing is returned iff no restart was feasible; at most n_restart are made. *)
Theorem C29_best_feasible_restart :
  forall (X : Type) (h g : option (X -> list Q)) inner argsort wait_iter budget n_restart dec r n,
    sorts argsort -> (forall x, dec x = true <-> satisfies h g x) ->
    argmax_restart h g inner argsort wait_iter budget n_restart = (r, n) ->
    n <= n_restart /\ (0 < n_restart -> 0 < n) /\
    exists outs, length outs = n /\ transcript dec inner budget outs /\
      match r with
      | Some (x, f) => (exists o, In o outs /\ ox o = x /\ ofv o = f /\ satisfies h g x) /\
                       forall o, In o outs -> satisfies h g (ox o) -> (ofv o <= f)%Q
      | None => forall o, In o outs -> ~ satisfies h g (ox o)
      end.
Proof.
  intros X h g inner argsort wait_iter budget n_restart dec r n HS Hdec H. unfold argmax_restart in H.
  change (mkR [] None 0 budget) with (state h g inner budget 0) in H.
  destruct (loop h g inner wait_iter n_restart 0 (state h g inner budget 0)) as [s n'] eqn:E.
  injection H as <- ->. apply loop_state in E. destruct E as (->&L&_&L2). split; [lia|]. split.
  { intro NR. destruct (Nat.eq_dec n n_restart) as [->|NE]; [exact NR|]. apply L2. lia. }
  exists (map (out h g inner budget) (seq 0 n)).
  assert (HF : forall o, In o (feas_outs h g inner budget n) <->
             In o (map (out h g inner budget) (seq 0 n)) /\ satisfies h g (ox o)).
  { intro o. unfold feas_outs. rewrite filter_In, feasible_satisfies. reflexivity. }
  split; [rewrite map_length, seq_length; reflexivity|]. split; [eapply transcript_outs; exact Hdec|].
  pose proof (pick_spec argsort HS (state h g inner budget n)) as P.
  rewrite state_recorded in P. destruct (pick argsort (state h g inner budget n)) as [[x f]|].
  - destruct P as [P1 P2]. apply in_map_iff in P1. destruct P1 as (o&Eo&Ho). injection Eo as <- <-.
    apply HF in Ho. destruct Ho as [Ho1 Ho2]. split; [exists o; auto|].
    intros o' H1 H2. apply (P2 (ox o')). apply in_map_iff. exists o'. split; [reflexivity|]. apply HF. auto.
  - intros o H1 H2. assert (Hin : In o (feas_outs h g inner budget n)) by (apply HF; auto).
    destruct (feas_outs h g inner budget n); [contradiction|discriminate].
Qed.
Print Assumptions C29_best_feasible_restart.

(** The feasible values of a run without a new maximum at the end: [stale l w] says that the last
    w values bring no improvement and the one before them did. *)
Definition stale (l : list Q) (w : nat) : Prop :=
  (l = [] /\ w = 0) \/
  exists pre x post, l = pre ++ x :: post /\ (forall y, In y pre -> (y < x)%Q) /\
    (forall y, In y post -> (y <= x)%Q) /\ w = length post.

(** C29, stopping: the loop goes on after k restarts exactly while k < n_restart and, counting
    feasible restarts only, the calls made are below the budget and fewer than wait_iter
    restarts in a row brought no improvement.  (Missing: infeasible restarts are not counted,
    see the refutation below.) *)
Theorem C29_stopping_partial :
  forall (X : Type) (h g : option (X -> list Q)) inner argsort wait_iter budget n_restart dec r n,
    (forall x, dec x = true <-> satisfies h g x) ->
    argmax_restart h g inner argsort wait_iter budget n_restart = (r, n) ->
    exists outs, length outs = n /\ transcript dec inner budget outs /\
      let must_stop k :=
        (budget <= Z.of_nat (list_sum (map calls (feasible_of dec outs k))))%Z \/
        exists w, stale (map ofv (feasible_of dec outs k)) w /\ wait_iter <= w in
      (forall k, 0 < k -> k < n -> ~ must_stop k) /\
      (n < n_restart -> must_stop n).
Proof.
  intros X h g inner argsort wait_iter budget n_restart dec r n Hdec H. unfold argmax_restart in H.
  change (mkR [] None 0 budget) with (state h g inner budget 0) in H.
  destruct (loop h g inner wait_iter n_restart 0 (state h g inner budget 0)) as [s n'] eqn:E.
  injection H as <- ->. apply loop_state in E. destruct E as (->&L&H1&H2).
  exists (map (out h g inner budget) (seq 0 n)).
  split; [rewrite map_length, seq_length; reflexivity|]. split; [eapply transcript_outs; exact Hdec|].
  assert (ST : forall k, stale (map ofv (feas_outs h g inner budget k)) (wait (state h g inner budget k))).
  { intro k. pose proof (state_best h g inner budget k) as B. unfold first_max in B. unfold stale.
    destruct (best (state h g inner budget k)) as [b|]; [right|left; exact B].
    destruct B as (pre&post&B). exists pre, b, post. exact B. }
  assert (UN : forall l w w', stale l w -> stale l w' -> w = w').
  { clear. intros l w w' [[-> ->]|(p&x&q&->&A1&A2&->)] [[E' ->]|(p'&x'&q'&E'&B1&B2&->)]; auto;
      try (destruct p; discriminate); try (destruct p'; discriminate).
    assert (length p = length p'); [|apply (f_equal (@length _)) in E'; rewrite !app_length in E'; simpl in E'; lia].
    destruct (Nat.lt_trichotomy (length p) (length p')) as [C|[C|C]]; [|exact C|]; exfalso.
    - assert (N : nth_error (p ++ x :: q) (length p) = Some x) by (rewrite nth_error_app2, Nat.sub_diag by lia; reflexivity).
      assert (N' : nth_error (p ++ x :: q) (length p') = Some x') by (rewrite E', nth_error_app2, Nat.sub_diag by lia; reflexivity).
      rewrite E', nth_error_app1 in N by exact C. apply nth_error_In in N. specialize (B1 _ N).
      rewrite nth_error_app2 in N' by lia. replace (length p' - length p) with (S (length p' - length p - 1)) in N' by lia.
      simpl in N'. apply nth_error_In in N'. specialize (A2 _ N'). lra.
    - assert (N : nth_error (p' ++ x' :: q') (length p') = Some x') by (rewrite nth_error_app2, Nat.sub_diag by lia; reflexivity).
      assert (N' : nth_error (p' ++ x' :: q') (length p) = Some x) by (rewrite <- E', nth_error_app2, Nat.sub_diag by lia; reflexivity).
      rewrite <- E', nth_error_app1 in N by exact C. apply nth_error_In in N. specialize (A1 _ N).
      rewrite nth_error_app2 in N' by lia. replace (length p - length p') with (S (length p - length p' - 1)) in N' by lia.
      simpl in N'. apply nth_error_In in N'. specialize (B2 _ N'). lra. }
  assert (IFF : forall k, stop wait_iter (state h g inner budget k) = true <->
     ((budget <= Z.of_nat (list_sum (map calls (feas_outs h g inner budget k))))%Z \/
      exists w, stale (map ofv (feas_outs h g inner budget k)) w /\ wait_iter <= w)).
  { intro k. unfold stop. rewrite orb_true_iff, Z.leb_le, Nat.leb_le, state_budget.
    split; (intros [A|A]; [left; lia|right]).
    - exists (wait (state h g inner budget k)). split; [apply ST|exact A].
    - destruct A as (w&A1&A2). rewrite (UN _ _ _ (ST k) A1). exact A2. }
  cbv zeta. split.
  - intros k K1 K2 C. rewrite (feasible_of_outs h g inner budget dec Hdec) in C by lia.
    apply IFF in C. rewrite H1 in C by lia. discriminate.
  - intro K. rewrite (feasible_of_outs h g inner budget dec Hdec) by lia. apply IFF. apply H2. lia.
Qed.
Print Assumptions C29_stopping_partial.

(** Refuted: the budget.  Infeasible restarts are not charged: for every budget and every number of
    restarts there is a problem where each of the n_restart restarts uses the whole budget. *)
Theorem C29_budget_refuted :
  forall (budget n_restart : nat), exists (g : nat -> list Q) (inner : nat -> Z -> outcome nat),
    (forall k b, calls (inner k b) = budget) /\
    forall argsort wait_iter, 0 < budget -> 0 < wait_iter ->
      argmax_restart None (Some g) inner argsort wait_iter (Z.of_nat budget) n_restart = (None, n_restart).
Proof.
  intros budget n_restart. exists (fun _ => [1%Q]), (fun k _ => mkOut k 0%Q budget). split; [reflexivity|].
  intros argsort wait_iter HB HW. unfold argmax_restart.
  assert (G : forall left i, loop None (Some (fun _ => [1%Q])) (fun k _ => mkOut k 0%Q budget) wait_iter left i
                (mkR [] None 0 (Z.of_nat budget)) = (mkR [] None 0 (Z.of_nat budget), i + left)).
  { induction left as [|left IH]; intro i; cbn [loop]; [f_equal; lia|].
    change (restart None (Some (fun _ => [1%Q])) (fun k _ => mkOut k 0%Q budget) i (mkR [] None 0 (Z.of_nat budget)))
      with (mkR (X := nat) [] None 0 (Z.of_nat budget)).
    assert (E : stop wait_iter (mkR (X := nat) [] None 0 (Z.of_nat budget)) = false).
    { unfold stop. cbn [wait Model_Box.budget]. apply orb_false_iff. rewrite Z.leb_gt, Nat.leb_gt. lia. }
    rewrite E, IH. f_equal. lia. }
  rewrite G. reflexivity.
Qed.
Print Assumptions C29_budget_refuted.

Example C29_example :
  let g := Some (fun x : nat => [(inject_Z (Z.of_nat x) - 5)%Q]) in
  let inner := fun k (_ : Z) => nth k [mkOut 2 1%Q 3; mkOut 9 8%Q 3; mkOut 4 6%Q 3; mkOut 1 5%Q 3] (mkOut 0 0%Q 3) in
  argmax_restart None g inner argsort_stable 2 100 10 = (Some (4, 6%Q), 5) /\
  argmax_restart None g inner argsort_stable 5 9 10 = (Some (4, 6%Q), 4) /\ sorts argsort_stable.
Proof. split; [vm_compute; reflexivity|]. split; [vm_compute; reflexivity|]. exact argsort_stable_sorts. Qed.
