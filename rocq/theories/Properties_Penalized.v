(** C166, C167: the penalized acquisition function and its finite-difference gradient. *)
From Coq Require Import List Arith Lia Reals Lra.
From Coquelicot Require Import Coquelicot.
From Verif Require Import Model_Penalty Proofs_Penalty Properties_Penalty Model_Penalized.
Import ListNotations.
Open Scope R_scope.

(** ** Specification *)
Definition feasible (h g : constraint) (x : list R) : Prop :=
  exists hv gv, values h x = Some hv /\ values g x = Some gv /\ (forall v, In v hv -> Rabs v <= 1 / 10) /\ (forall v, In v gv -> v <= 0).
(** The point and the points that the finite differences look at. *)
Definition stencil (x y : list R) : Prop := y = x \/ exists i, y = shift x i (/ 100000) \/ y = shift x i (- / 100000).

Definition PP (t : R) : ppar := mkPP t (1 / 2) 1 (3 / 2) (1 / 10) true.
Lemma PP_usual t : 1 <= t -> usual (PP t).
Proof. intros H. unfold usual, PP; simpl. repeat split; lra. Qed.
Lemma penalty_dp t h g x p : penalty t h g x = Some p -> dynamic_penalty (PP t) h g [x] = Some [p].
Proof. unfold penalty, PP. destruct (dynamic_penalty _ h g [x]) as [[|q [|]]|]; try discriminate. now intros [= ->]. Qed.
Lemma penalty_values t h g x p : penalty t h g x = Some p -> exists hv gv, values h x = Some hv /\ values g x = Some gv /\ p = penalty1 (PP t) hv gv.
Proof. intros H. apply penalty_dp in H. now apply single_value in H. Qed.
Lemma penalty_defined t h g x hv gv : values h x = Some hv -> values g x = Some gv -> penalty t h g x = Some (penalty1 (PP t) hv gv).
Proof.
  intros Hh Hg. unfold penalty, dynamic_penalty, eval_opt, values in *.
  destruct h as [h|], g as [g|]; simpl; rewrite ?Hh, ?Hg; simpl; try (injection Hh as <-); try (injection Hg as <-); reflexivity.
Qed.
Lemma holds_feasible t h g x hv gv : values h x = Some hv -> values g x = Some gv -> holds_at (PP t) h g x <-> feasible h g x.
Proof.
  intros Hh Hg. split.
  - intros H. destruct (H hv gv Hh Hg) as [A B]. exists hv, gv. auto.
  - intros (hv' & gv' & A & B & C & D) h1 g1 E F. assert (h1 = hv') by congruence. assert (g1 = gv') by congruence. subst. auto.
Qed.
Lemma penalty_zero t h g x : 1 <= t -> feasible h g x -> penalty t h g x = Some 0.
Proof.
  intros Ht F. destruct F as (hv & gv & A & B & C & D). assert (F : feasible h g x) by (exists hv, gv; auto).
  assert (E := penalty_defined t h g x hv gv A B). rewrite E. f_equal.
  destruct (C28_zero_iff_feasible _ (PP t) h g x _ (PP_usual t Ht) (penalty_dp _ _ _ _ _ E)) as [Z _].
  apply Z. now apply (holds_feasible t h g x hv gv).
Qed.
Lemma penalty_pos t h g x p : 1 <= t -> penalty t h g x = Some p -> ~ feasible h g x -> 0 < p.
Proof.
  intros Ht E NF. destruct (penalty_values _ _ _ _ _ E) as (hv & gv & A & B & _).
  destruct (C28_zero_iff_feasible _ (PP t) h g x _ (PP_usual t Ht) (penalty_dp _ _ _ _ _ E)) as [_ Z].
  apply Z. intros H. apply NF. now apply (holds_feasible t h g x hv gv).
Qed.
Lemma penalty_grows t t' h g x p p' : 1 <= t -> t < t' -> penalty t h g x = Some p -> penalty t' h g x = Some p' -> ~ feasible h g x -> p < p'.
Proof.
  intros Ht Htt E E' NF. destruct (penalty_values _ _ _ _ _ E) as (hv & gv & A & B & _).
  destruct (C28_grows_with_t _ (PP t) t' h g x p p' (PP_usual t Ht) Htt (penalty_dp _ _ _ _ _ E) (penalty_dp _ _ _ _ _ E')) as [_ Z].
  apply Z. intros H. apply NF. now apply (holds_feasible t h g x hv gv).
Qed.

(** Inversion of a call. *)
Lemma call_inv func h g t x v d t' : call func h g t x = Some (v, d, t') ->
  (h = None /\ g = None /\ v = - fst (func x) /\ d = map Ropp (snd (func x)) /\ t' = t) \/
  ((h <> None \/ g <> None) /\ exists p pg, penalty t h g x = Some p /\ finite_difference (penalty t h g) x (/ 100000) = Some pg /\
     v = - fst (func x) + p /\ d = map (fun ab => fst ab + snd ab) (combine (map Ropp (snd (func x))) pg) /\ t' = t + 1).
Proof.
  intros H. unfold call in H.
  assert (EM : map (fun v => -1 * v) (snd (func x)) = map Ropp (snd (func x))) by (apply map_ext; intros; ring). rewrite EM in H.
  assert (EF : -1 * fst (func x) = - fst (func x)) by ring. rewrite EF in H.
  destruct h as [h|], g as [g|]; try (injection H as <- <- <-; left; auto; fail);
  (right; split; [solve [left; discriminate|right; discriminate]|];
   destruct (penalty t _ _ x) as [p|] eqn:E1; [|discriminate];
   destruct (finite_difference (penalty t _ _) x (/ 100000)) as [pg|] eqn:E2; [|discriminate];
   injection H as <- <- <-; exists p, pg; auto).
Qed.

(** C166: the function that the local search minimizes is the negated acquisition value at feasible points and larger
    than it at all others. *)
Theorem C166_value : forall func h g t x v d t', 1 <= t -> call func h g t x = Some (v, d, t') ->
  (feasible h g x -> v = - fst (func x)) /\ (~ feasible h g x -> - fst (func x) < v) /\ t <= t'.
Proof.
  intros func h g t x v d t' Ht H. apply call_inv in H as [(-> & -> & -> & -> & ->)|(HC & p & pg & Ep & Eg & -> & -> & ->)].
  - split; auto. split; [|lra]. intros NF. exfalso. apply NF. exists [], []. repeat split; auto; intros v [].
  - split; [|split; [|lra]].
    + intros F. rewrite (penalty_zero t h g x Ht F) in Ep. injection Ep as <-. ring.
    + intros NF. assert (0 < p) by now apply (penalty_pos t h g x). lra.
Qed.
Print Assumptions C166_value.

Lemma all_some_const {A} (l : list nat) (f : nat -> option A) a : (forall i, In i l -> f i = Some a) -> all_some (map f l) = Some (map (fun _ => a) l).
Proof. induction l as [|i l IH]; simpl; intros H; [reflexivity|]. rewrite H by now left. rewrite IH by auto. reflexivity. Qed.
(** C166, gradient: where the whole neighbourhood that is looked at is feasible, the gradient is exactly the negated gradient
    of the acquisition function. *)
Theorem C166_gradient : forall func h g t x v d t', 1 <= t -> length (snd (func x)) = length x -> (forall y, stencil x y -> feasible h g y) ->
  call func h g t x = Some (v, d, t') -> d = map Ropp (snd (func x)).
Proof.
  intros func h g t x v d t' Ht HL HS H. apply call_inv in H as [(-> & -> & -> & -> & ->)|(HC & p & pg & Ep & Eg & -> & -> & ->)]; [reflexivity|].
  unfold finite_difference in Eg. rewrite (all_some_const _ _ 0) in Eg.
  - injection Eg as <-. rewrite <- HL. generalize (snd (func x)). intros l. generalize 0%nat.
    induction l as [|a l IH]; intros n; simpl; [reflexivity|]. rewrite IH. f_equal. ring.
  - intros i _. rewrite !penalty_zero; auto; [f_equal; field|..]; apply HS; right; eauto.
Qed.
Print Assumptions C166_gradient.

(** C166, history: the search is given one function.  Refuted wherever a constraint is violated: evaluating the
    same point twice gives two values. *)
Theorem C166_one_function_refuted :
  (forall func h g x v1 d1 v2 d2, ~ feasible h g x -> calls func h g t_init [x; x] = Some [(v1, d1); (v2, d2)] -> v1 < v2) /\
  (exists func h g x v1 d1 v2 d2, ~ feasible h g x /\ calls func h g t_init [x; x] = Some [(v1, d1); (v2, d2)]).
Proof.
  split.
  - intros func h g x v1 d1 v2 d2 NF H. unfold calls in H.
    destruct (call func h g t_init x) as [[[w1 e1] t1]|] eqn:E1; [|discriminate].
    destruct (call func h g t1 x) as [[[w2 e2] t2]|] eqn:E2; [|discriminate]. injection H as <- <- <- <-.
    apply call_inv in E1 as [(-> & -> & _)|(HC & p & pg & Ep & Eg & -> & -> & ->)].
    + exfalso. apply NF. exists [], []. repeat split; auto; intros v [].
    + apply call_inv in E2 as [(-> & -> & _)|(_ & p2 & pg2 & Ep2 & Eg2 & -> & -> & ->)]; [destruct HC; congruence|].
      assert (p < p2); [|lra]. unfold t_init in *. apply (penalty_grows 10 (10 + 1) h g x); auto; lra.
  - exists (fun _ => (0, [0])), None, (Some (fun _ => Some [1])), [0]. unfold calls, call, penalty, finite_difference. simpl.
    do 4 eexists. split; [|reflexivity]. intros (hv & gv & _ & Eg & _ & H). simpl in Eg. injection Eg as <-. assert (1 <= 0) by (apply H; now left). lra.
Qed.
Print Assumptions C166_one_function_refuted.
(** What holds: at feasible points the value does not depend on the earlier evaluations. *)
Theorem C166_one_function_partial : forall func h g xs r, calls func h g t_init xs = Some r ->
  forall k x, nth_error xs k = Some x -> feasible h g x -> exists d, nth_error r k = Some (- fst (func x), d).
Proof.
  intros func h g xs. assert (G : forall t r, 1 <= t -> calls func h g t xs = Some r -> forall k x, nth_error xs k = Some x -> feasible h g x -> exists d, nth_error r k = Some (- fst (func x), d)).
  { induction xs as [|y xs IH]; intros t r Ht H k x Hk F; [destruct k; discriminate|]. simpl in H.
    destruct (call func h g t y) as [[[v d] t']|] eqn:E; [|discriminate]. destruct (calls func h g t' xs) as [r'|] eqn:E'; [|discriminate].
    injection H as <-. destruct (C166_value _ _ _ _ _ _ _ _ Ht E) as (A & _ & B). destruct k as [|k]; simpl in Hk.
    - injection Hk as ->. exists d. simpl. now rewrite A.
    - simpl. apply (IH t' r'); auto; lra. }
  intros r H. apply (G t_init); auto. unfold t_init. lra.
Qed.
Print Assumptions C166_one_function_partial.
Example C166_ex : feasible None (Some (fun x => Some [nth 0 x 0 - 1])) [0] /\ (forall y, stencil [0] y -> feasible None (Some (fun x => Some [nth 0 x 0 - 1])) y) /\
  exists r, calls (fun x => (1, [2])) None (Some (fun x => Some [nth 0 x 0 - 1])) t_init [[0]; [3]] = Some r.
Proof.
  assert (F : forall y, nth 0 y 0 <= 1 -> feasible None (Some (fun x => Some [nth 0 x 0 - 1])) y).
  { intros y Hy. exists [], [nth 0 y 0 - 1]. repeat split; auto; [intros v []|]. intros v [<-|[]]. lra. }
  split; [apply F; simpl; lra|]. split.
  - intros y [->|(i & [->| ->])]; apply F; [simpl; lra|..]; destruct i; simpl; lra.
  - eexists. unfold calls, call, penalty, finite_difference. simpl. reflexivity.
Qed.

(** ** C167: the error of the central differences *)
Definition along (f : list R -> R) (x : list R) (i : nat) (t : R) : R := f (shift x i t).
Lemma opp_derive_n f n t : (forall k s, (k <= n)%nat -> ex_derive_n f k s) -> Derive_n (fun s => f (- s)) n t = (-1) ^ n * Derive_n f n (- t) /\ (forall k, (k <= n)%nat -> ex_derive_n (fun s => f (- s)) k t).
Proof.
  intros H. split.
  - apply Derive_n_comp_opp. apply filter_forall. intros y k Hk. now apply H.
  - intros k Hk. apply ex_derive_n_comp_opp. apply filter_forall. intros y j Hj. apply H. lia.
Qed.
Lemma central_difference (f : R -> R) (M d : R) : 0 < d -> (forall k s, (k <= 3)%nat -> ex_derive_n f k s) ->
  (forall s, - d <= s <= d -> Rabs (Derive_n f 3 s) <= M) -> Rabs ((f d - f (- d)) / (2 * d) - Derive f 0) <= M * d ^ 2 / 6.
Proof.
  intros Hd Hf HM.
  destruct (Taylor_Lagrange f 2 0 d Hd) as (z1 & Z1 & E1); [intros; apply Hf; lia|].
  set (fo := fun s => f (- s)).
  destruct (Taylor_Lagrange fo 2 0 d Hd) as (z2 & Z2 & E2); [intros t Ht k Hk; apply (opp_derive_n f k t); auto; intros; apply Hf; lia|].
  assert (O : forall n t, (n <= 3)%nat -> Derive_n fo n t = (-1) ^ n * Derive_n f n (- t)) by (intros n t Hn; apply opp_derive_n; intros; apply Hf; lia).
  cbn [sum_f_R0] in E1, E2. rewrite !O in E2 by lia. rewrite Ropp_0 in E2. unfold fo in E2 at 1. change (Derive_n f 0 0) with (f 0) in *.
  replace (INR (fact 0)) with 1 in * by (simpl; ring). replace (INR (fact 1)) with 1 in * by (simpl; ring). replace (INR (fact 2)) with 2 in * by (simpl; ring).
  replace (INR (fact 3)) with 6 in * by (simpl; ring). rewrite Rminus_0_r in *.
  change (Derive_n f 1 0) with (Derive f 0) in *. 
  set (D3 := Derive_n f 3) in *. set (D2 := Derive_n f 2 0) in *. set (D1 := Derive f 0) in *.
  assert (E : (f d - f (- d)) / (2 * d) - D1 = d ^ 2 / 12 * (D3 z1 + D3 (- z2))) by (rewrite E1, E2; field; lra).
  rewrite E. assert (A := HM z1 ltac:(lra)). assert (B := HM (- z2) ltac:(lra)). 
  rewrite Rabs_mult. rewrite (Rabs_pos_eq (d ^ 2 / 12)) by (assert (0 < d ^ 2) by nra; lra).
  assert (T := Rabs_triang (D3 z1) (D3 (- z2))). assert (0 < d ^ 2) by nra. 
  apply Rle_trans with (d ^ 2 / 12 * (M + M)); [apply Rmult_le_compat_l; lra|]. apply Req_le. field.
Qed.
Lemma all_some_map {A B} (f : A -> B) l : all_some (map (fun i => Some (f i)) l) = Some (map f l).
Proof. induction l as [|a l IH]; simpl; [reflexivity|]. now rewrite IH. Qed.
(** C167: for every function that is three times differentiable along the coordinates, with third derivatives bounded by M
    between the points that are looked at, every component is within M delta^2 / 6 of the partial derivative; in particular it is
    exact for functions that are quadratic in each coordinate. *)
Theorem C167_finite_difference : forall (f : list R -> R) x delta M, 0 < delta ->
  (forall i k s, (i < length x)%nat -> (k <= 3)%nat -> ex_derive_n (along f x i) k s) ->
  (forall i s, (i < length x)%nat -> - delta <= s <= delta -> Rabs (Derive_n (along f x i) 3 s) <= M) ->
  exists g, finite_difference (fun y => Some (f y)) x delta = Some g /\ length g = length x /\
    forall i, (i < length x)%nat -> Rabs (nth i g 0 - Derive (along f x i) 0) <= M * delta ^ 2 / 6.
Proof.
  intros f x delta M Hd Hf HM. unfold finite_difference.
  rewrite (all_some_map (fun i => (f (shift x i delta) - f (shift x i (- delta))) / (2 * delta))).
  eexists. split; [reflexivity|]. split; [now rewrite map_length, seq_length|]. intros i Hi.
  set (G := fun i => (f (shift x i delta) - f (shift x i (- delta))) / (2 * delta)).
  rewrite (nth_indep _ 0 (G 0%nat)) by (rewrite map_length, seq_length; lia). rewrite map_nth, seq_nth by assumption. simpl (0 + i)%nat. unfold G.
  apply (central_difference (along f x i)); auto.
Qed.
Print Assumptions C167_finite_difference.
Theorem C167_quadratic : forall (f : list R -> R) x delta, 0 < delta ->
  (forall i, (i < length x)%nat -> exists a b c, forall s, along f x i s = a + b * s + c * s ^ 2) ->
  exists g, finite_difference (fun y => Some (f y)) x delta = Some g /\
    forall i, (i < length x)%nat -> nth i g 0 = Derive (along f x i) 0.
Proof.
  intros f x delta Hd H. unfold finite_difference. rewrite (all_some_map (fun i => (f (shift x i delta) - f (shift x i (- delta))) / (2 * delta))).
  eexists. split; [reflexivity|]. intros i Hi. set (G := fun i => (f (shift x i delta) - f (shift x i (- delta))) / (2 * delta)).
  rewrite (nth_indep _ 0 (G 0%nat)) by (rewrite map_length, seq_length; lia). rewrite map_nth, seq_nth by assumption. simpl (0 + i)%nat. unfold G.
  destruct (H i Hi) as (a & b & c & E). change (f (shift x i delta)) with (along f x i delta). change (f (shift x i (- delta))) with (along f x i (- delta)).
  rewrite (Derive_ext _ _ 0 E), !E. symmetry. apply is_derive_unique. auto_derive; [exact I|]. field. lra.
Qed.
Print Assumptions C167_quadratic.
Example C167_ex : forall i, (i < length [1; 2])%nat -> exists a b c, forall s, along (fun y => nth 0 y 0 * nth 1 y 0 + nth 1 y 0 ^ 2) [1; 2] i s = a + b * s + c * s ^ 2.
Proof.
  intros [|[|i]] Hi; [exists 6, 2, 0|exists 6, 5, 1|simpl in Hi; lia]; intros s; unfold along; simpl; ring.
Qed.
Example C167_ex_cubic : let f := fun y => nth 0 y 0 ^ 3 in
  (forall i k s, (i < length [0])%nat -> (k <= 3)%nat -> ex_derive_n (along f [0] i) k s) /\
  (forall i s, (i < length [0])%nat -> Rabs (Derive_n (along f [0] i) 3 s) <= 6).
Proof.
  intros f. assert (E : forall s, s ^ 3 = along f [0] 0 s) by (intros s; unfold along, f; simpl; ring). split.
  - intros [|i] k s Hi _; [|simpl in Hi; lia]. apply (ex_derive_n_ext (fun s => s ^ 3)); auto. apply ex_derive_n_pow.
  - intros [|i] s Hi; [|simpl in Hi; lia]. rewrite <- (Derive_n_ext (fun s => s ^ 3) _ 3 s E), (Derive_n_pow_smalli 3 3 s) by lia.
    simpl. rewrite Rabs_pos_eq; lra.
Qed.
