(** C149 - C153: the random forest and the aggregated surrogate. *)
From Coq Require Import Reals Lra Lia List Arith Bool Permutation String.
From Verif Require Import Model_Forest.
Import ListNotations.
Open Scope R_scope.

(** ** Specification *)
Definition sum_over {A} (f : A -> R) (l : list A) : R := fold_right (fun a s => f a + s) 0 l.
Definition average {A} (f : A -> R) (l : list A) : R := sum_over f l / INR (List.length l).
(** The unbiased estimate of the variance from a sample of at least two values. *)
Definition sample_variance {A} (f : A -> R) (l : list A) : R :=
  sum_over (fun a => (f a - average f l) ^ 2) l / (INR (List.length l) - 1).

Lemma total_map {A} (f : A -> R) l : total (map f l) = sum_over f l.
Proof. unfold total; induction l as [|a l IH]; simpl; [reflexivity|now rewrite IH]. Qed.
Lemma sum_over_ext {A} (f g : A -> R) l : (forall a, In a l -> f a = g a) -> sum_over f l = sum_over g l.
Proof. induction l as [|a l IH]; simpl; intros H; [reflexivity|]. rewrite (H a) by now left. now rewrite IH by auto. Qed.
Lemma sum_over_nonneg {A} (f : A -> R) l : (forall a, In a l -> 0 <= f a) -> 0 <= sum_over f l.
Proof.
  induction l as [|a l IH]; simpl; intros H; [lra|].
  assert (0 <= f a) by (apply H; now left). assert (0 <= sum_over f l) by (apply IH; auto). lra.
Qed.
Lemma sum_over_perm {A} (f : A -> R) l l' : Permutation l l' -> sum_over f l = sum_over f l'.
Proof. induction 1; simpl; lra. Qed.
Lemma sum_over_map {A B} (f : B -> R) (g : A -> B) l : sum_over f (map g l) = sum_over (fun a => f (g a)) l.
Proof. induction l as [|a l IH]; simpl; [reflexivity|now rewrite IH]. Qed.
Lemma sum_over_plus {A} (f g : A -> R) l : sum_over (fun a => f a + g a) l = sum_over f l + sum_over g l.
Proof. induction l as [|a l IH]; simpl; [lra|rewrite IH; lra]. Qed.
Lemma sum_over_scal {A} c (f : A -> R) l : sum_over (fun a => c * f a) l = c * sum_over f l.
Proof. induction l as [|a l IH]; simpl; [lra|rewrite IH; lra]. Qed.
Lemma sum_over_swap {A B} (f : A -> B -> R) l k :
  sum_over (fun a => sum_over (f a) k) l = sum_over (fun b => sum_over (fun a => f a b) l) k.
Proof.
  induction l as [|a l IH]; simpl.
  - induction k as [|b k IHk]; simpl; [reflexivity|]. rewrite <- IHk. lra.
  - rewrite IH, <- sum_over_plus. reflexivity.
Qed.

(** ** The buffer after all threads have finished *)
Section Buffer.
Context {P : Type} (trees : list (P -> R)) (X : list P).
Lemma run_after b schedule i j t x :
  nth_error trees j = Some t -> nth_error X i = Some x -> In (i, j) schedule \/ b i j = t x ->
  fold_left (store trees X) schedule b i j = t x.
Proof.
  intros Ht Hx; revert b; induction schedule as [|p s IH]; simpl; intros b H.
  - destruct H as [[]|H]; exact H.
  - apply IH. unfold store at 1. destruct ((i =? fst p) && (j =? snd p))%nat%bool eqn:E.
    + right. now rewrite Ht, Hx.
    + destruct H as [[H|H]|H]; [subst p; simpl in E; rewrite !Nat.eqb_refl in E; discriminate|now left|now right].
Qed.
Lemma row_after schedule i x :
  nth_error X i = Some x -> (forall j, (j < List.length trees)%nat -> In (i, j) schedule) ->
  map (run trees X schedule i) (seq 0 (List.length trees)) = map (fun t => t x) trees.
Proof.
  intros Hx H. apply nth_error_ext || idtac.
  assert (G : forall l k, (forall j t, nth_error l j = Some t -> nth_error trees (k + j)%nat = Some t) ->
            map (run trees X schedule i) (seq k (List.length l)) = map (fun t => t x) l).
  { induction l as [|t l IH]; intros k Hl; simpl; [reflexivity|]. f_equal.
    - apply run_after; auto.
      + rewrite <- (Hl 0%nat t eq_refl). now rewrite Nat.add_0_r.
      + left. apply H. rewrite <- (Nat.add_0_r k). apply nth_error_Some. rewrite (Hl 0%nat t eq_refl). discriminate.
    - apply IH. intros j u Hj. rewrite <- (Hl (S j) u Hj). f_equal. lia. }
  apply (G trees 0%nat). auto.
Qed.
End Buffer.

Lemma seq_map_nth {A B} (f : nat -> B) (g : A -> B) (l : list A) :
  (forall i x, nth_error l i = Some x -> f i = g x) -> map f (seq 0 (List.length l)) = map g l.
Proof.
  intros H. assert (G : forall m k, (forall j x, nth_error m j = Some x -> f (k + j)%nat = g x) -> map f (seq k (List.length m)) = map g m).
  { induction m as [|a m IH]; intros k Hm; simpl; [reflexivity|]. f_equal.
    - rewrite <- (Hm 0%nat a eq_refl). now rewrite Nat.add_0_r.
    - apply IH. intros j x Hj. rewrite <- (Hm (S j) x Hj). f_equal. lia. }
  apply (G l 0%nat). auto.
Qed.

Lemma mean_average {A} (f : A -> R) l : mean (map f l) = average f l.
Proof. unfold mean, average. now rewrite total_map, map_length. Qed.
Lemma square_sum_nonneg {A} (f : A -> R) c l : 0 <= sum_over (fun a => (f a - c) ^ 2) l.
Proof. apply sum_over_nonneg; intros. apply pow2_ge_0. Qed.
Lemma std1_square {A} (f : A -> R) (l : list A) : (2 <= List.length l)%nat ->
  option_map (fun s => s * s) (std1 (map f l)) = Some (sample_variance f l).
Proof.
  intros H. unfold std1. rewrite map_length. destruct (Nat.eqb_spec (List.length l) 1); [lia|]. simpl. f_equal.
  rewrite map_map, total_map, mean_average.
  rewrite (sum_over_ext _ (fun a => (f a - average f l) ^ 2)).
  2:{ intros a _. rewrite <- Rabs_mult, Rabs_pos_eq; [ring|]. apply Rle_0_sqr. }
  apply sqrt_sqrt. apply Rmult_le_pos; [apply square_sum_nonneg|].
  left; apply Rinv_0_lt_compat. apply le_INR in H. simpl in H. lra.
Qed.

(** C149: whatever the order in which the threads write their results, the prediction at every point is
    the average over the trees, and with two trees or more the reported uncertainty is the sample
    variance over the trees. *)
Theorem C149_any_schedule (P : Type) (trees : list (P -> R)) (X : list P) (schedule : list (nat * nat)) :
  (2 <= List.length trees)%nat ->
  Permutation schedule (tasks trees X) ->
  predict trees X schedule = map (fun x => (average (fun t => t x) trees, Some (sample_variance (fun t => t x) trees))) X.
Proof.
  intros H2 HP. unfold predict. apply seq_map_nth. intros i x Hx.
  rewrite row_after with (x := x); auto.
  - rewrite mean_average, std1_square by assumption. reflexivity.
  - intros j Hj. eapply Permutation_in; [apply Permutation_sym, HP|]. apply in_prod; apply in_seq; [|lia].
    assert (nth_error X i <> None) by (rewrite Hx; discriminate). apply nth_error_Some in H. lia.
Qed.
Print Assumptions C149_any_schedule.
(** Tasks may also be carried out more than once, and the mean needs one tree only. *)
Theorem C149_mean (P : Type) (trees : list (P -> R)) (X : list P) (schedule : list (nat * nat)) :
  incl (tasks trees X) schedule ->
  map fst (predict trees X schedule) = map (fun x => average (fun t => t x) trees) X.
Proof.
  intros HI. unfold predict. rewrite map_map. apply seq_map_nth. intros i x Hx. simpl.
  rewrite row_after with (x := x); auto using mean_average.
  intros j Hj. apply HI, in_prod; apply in_seq; [|lia].
  assert (nth_error X i <> None) by (rewrite Hx; discriminate). apply nth_error_Some in H. lia.
Qed.
Print Assumptions C149_mean.

(** C150: a forest whose trees predict averages of observed values never predicts beyond the best and
    the worst observed value. *)
Definition leaf_average {P} (y : list R) (t : P -> R) : Prop :=
  forall x, exists l, l <> [] /\ incl l y /\ t x = average (fun v => v) l.
Lemma average_between {A} (f : A -> R) l lo hi : l <> [] -> (forall a, In a l -> lo <= f a <= hi) -> lo <= average f l <= hi.
Proof.
  intros Hl H. unfold average.
  assert (0 < INR (List.length l)) by (apply (lt_INR 0); destruct l; [congruence|simpl; lia]).
  assert (G : INR (List.length l) * lo <= sum_over f l <= INR (List.length l) * hi).
  { clear Hl H0. induction l as [|a l IH]; [simpl; lra|]. rewrite S_INR || (cbn [List.length]; rewrite S_INR). simpl.
    assert (lo <= f a <= hi) by (apply H; now left).
    assert (INR (List.length l) * lo <= sum_over f l <= INR (List.length l) * hi) by (apply IH; intros; apply H; now right). lra. }
  split; apply Rmult_le_reg_r with (INR (List.length l)); auto; unfold Rdiv; rewrite Rmult_assoc, Rinv_l by lra; lra.
Qed.
Theorem C150_within_the_observations (P : Type) (trees : list (P -> R)) (y : list R) (X : list P) schedule lo hi m :
  trees <> [] -> (forall t, In t trees -> leaf_average y t) ->
  (forall v, In v y -> lo <= v <= hi) ->
  incl (tasks trees X) schedule -> In m (map fst (predict trees X schedule)) -> lo <= m <= hi.
Proof.
  intros Ht HL Hy HI Hm. rewrite C149_mean in Hm by assumption. apply in_map_iff in Hm as [x [<- _]].
  apply average_between; auto. intros t Hin. destruct (HL t Hin x) as [l [Hl [Hs ->]]].
  apply average_between; auto.
Qed.
Print Assumptions C150_within_the_observations.
(** The order of the trees does not matter. *)
Theorem C150_order_of_trees (P : Type) (trees trees' : list (P -> R)) (X : list P) s s' :
  (2 <= List.length trees)%nat -> Permutation trees trees' ->
  Permutation s (tasks trees X) -> Permutation s' (tasks trees' X) ->
  predict trees X s = predict trees' X s'.
Proof.
  intros H2 HP H H'. assert (HL := Permutation_length HP).
  rewrite !C149_any_schedule; auto; [|lia]. apply map_ext. intros x.
  assert (EA : average (fun t : P -> R => t x) trees = average (fun t => t x) trees') by (unfold average; now rewrite HL, (sum_over_perm _ _ _ HP)).
  rewrite EA. f_equal. f_equal. unfold sample_variance. now rewrite EA, HL, (sum_over_perm _ _ _ HP).
Qed.
Print Assumptions C150_order_of_trees.

(** C151: the reported uncertainty.  With two trees or more it is a non-negative number, and zero exactly
    where all trees agree; *)
Lemma sum_zero {A} (f : A -> R) l : (forall a, In a l -> 0 <= f a) -> sum_over f l = 0 -> forall a, In a l -> f a = 0.
Proof.
  induction l as [|b l IH]; simpl; intros H E a [].
  - subst b. assert (0 <= f a) by auto. assert (0 <= sum_over f l) by (apply sum_over_nonneg; auto). lra.
  - apply IH; auto. assert (0 <= f b) by auto. assert (0 <= sum_over f l) by (apply sum_over_nonneg; auto). lra.
Qed.
Theorem C151_uncertainty_partial (P : Type) (trees : list (P -> R)) (X : list P) schedule i x :
  (2 <= List.length trees)%nat -> Permutation schedule (tasks trees X) -> nth_error X i = Some x ->
  exists m v, nth_error (predict trees X schedule) i = Some (m, Some v) /\ 0 <= v /\
    (v = 0 <-> forall t u, In t trees -> In u trees -> t x = u x).
Proof.
  intros H2 HP Hx. rewrite C149_any_schedule by assumption. rewrite nth_error_map, Hx. simpl.
  do 2 eexists; split; [reflexivity|]. unfold sample_variance.
  assert (0 < INR (List.length trees) - 1) by (apply le_INR in H2; simpl in H2; lra).
  set (c := average (fun t : P -> R => t x) trees).
  assert (S0 := square_sum_nonneg (fun t : P -> R => t x) c trees).
  assert (0 < / (INR (List.length trees) - 1)) by now apply Rinv_0_lt_compat.
  split; [apply Rmult_le_pos; lra|]. split.
  - intros E t u Ht Hu. assert (E0 : sum_over (fun t : P -> R => (t x - c) ^ 2) trees = 0).
    { apply Rmult_eq_reg_r with (/ (INR (List.length trees) - 1)); [|lra]. unfold Rdiv in E. rewrite E. ring. }
    assert (G : forall t, In t trees -> t x = c).
    { intros w Hw. assert (Z := sum_zero _ _ (fun (a : P -> R) _ => pow2_ge_0 (a x - c)) E0 w Hw). simpl in Z.
      apply Rmult_integral in Z as [Z|Z]; [lra|]. apply Rmult_integral in Z as [Z|Z]; lra. }
    rewrite (G t Ht), (G u Hu). reflexivity.
  - intros E. assert (G : forall t, In t trees -> t x = c).
    { intros t Ht. unfold c. assert (B := average_between (fun u : P -> R => u x) trees (t x) (t x)).
      assert (trees <> []) by (intros ->; simpl in H2; lia).
      specialize (B H1). destruct B as [B1 B2]; [|lra]. intros u Hu. rewrite (E u t Hu Ht). lra. }
    rewrite (sum_over_ext _ (fun _ => 0 * 0)) by (intros t Ht; rewrite (G t Ht); ring).
    rewrite sum_over_scal. unfold Rdiv. ring.
Qed.
Print Assumptions C151_uncertainty_partial.
(** but a forest of a single tree reports NaN everywhere. *)
Theorem C151_uncertainty_refuted : exists (trees : list (R -> R)) X schedule,
  trees <> [] /\ X <> [] /\ Permutation schedule (tasks trees X) /\
  forall r, In r (predict trees X schedule) -> snd r = None.
Proof.
  exists [fun x => x], [1; 2], (tasks [fun x : R => x] [1; 2]).
  split; [discriminate|]. split; [discriminate|]. split; [apply Permutation_refl|].
  simpl. intros r [<-|[<-|[]]]; reflexivity.
Qed.
Print Assumptions C151_uncertainty_refuted.

(** Non-vacuity: two trees, two points, the second thread first and each thread in reverse order. *)
Example forest_ex :
  let trees := [fun x : R => x; fun x => 3 * x] in
  Permutation [(1, 1); (0, 1); (1, 0); (0, 0)]%nat (tasks trees [1; 2]) /\
  predict trees [1; 2] [(1, 1); (0, 1); (1, 0); (0, 0)]%nat = [(2, Some 2); (4, Some 8)] /\
  leaf_average [1; 3] (fun _ : R => 2).
Proof.
  cbv zeta. assert (HP : Permutation [(1, 1); (0, 1); (1, 0); (0, 0)]%nat (tasks [fun x : R => x; fun x => 3 * x] [1; 2])).
  { change (tasks _ _) with [(0, 0); (0, 1); (1, 0); (1, 1)]%nat.
    apply Permutation_sym. apply perm_trans with [(1, 1); (0, 0); (0, 1); (1, 0)]%nat.
    - apply Permutation_sym. apply (Permutation_cons_append [(0, 0); (0, 1); (1, 0)]%nat (1, 1)%nat).
    - apply perm_skip. apply perm_trans with [(0, 1); (0, 0); (1, 0)]%nat; [apply perm_swap|].
      apply perm_skip, perm_swap. }
  split; [exact HP|]. split.
  - rewrite C149_any_schedule; [|simpl; lia|exact HP]. cbn. unfold average, sample_variance, average. simpl.
    repeat f_equal; field.
  - intros x. exists [1; 3]. split; [discriminate|]. split; [apply incl_refl|]. unfold average; simpl. field.
Qed.

(** ** Aggregation *)
(** A finite random vector: outcomes with their probabilities; Z i is its i-th component. *)
Definition expectation {A} (prob : A -> R) (outcomes : list A) (f : A -> R) : R := sum_over (fun o => prob o * f o) outcomes.
Definition variance {A} (prob : A -> R) outcomes f := expectation prob outcomes (fun o => (f o - expectation prob outcomes f) ^ 2).
Definition covariance {A} (prob : A -> R) outcomes (f g : A -> R) :=
  expectation prob outcomes (fun o => (f o - expectation prob outcomes f) * (g o - expectation prob outcomes g)).
Definition weighted {I} (w z : I -> R) (l : list I) : R := sum_over (fun i => w i * z i) l.

Lemma expectation_sum {A I} (prob : A -> R) outcomes (f : I -> A -> R) l :
  expectation prob outcomes (fun o => sum_over (fun i => f i o) l) = sum_over (fun i => expectation prob outcomes (f i)) l.
Proof.
  unfold expectation. rewrite <- (sum_over_swap (fun o i => prob o * f i o)). apply sum_over_ext. intros o _. now rewrite sum_over_scal.
Qed.
Lemma expectation_scal {A} (prob : A -> R) outcomes c f : expectation prob outcomes (fun o => c * f o) = c * expectation prob outcomes f.
Proof. unfold expectation. rewrite <- sum_over_scal. apply sum_over_ext. intros; ring. Qed.
Lemma expectation_ext {A} (prob : A -> R) outcomes f g : (forall o, f o = g o) -> expectation prob outcomes f = expectation prob outcomes g.
Proof. intros H. apply sum_over_ext. intros o _. now rewrite H. Qed.
Lemma square_of_sum {I} (f : I -> R) l : (sum_over f l) ^ 2 = sum_over (fun i => sum_over (fun j => f i * f j) l) l.
Proof.
  transitivity (sum_over f l * sum_over f l); [ring|]. rewrite <- sum_over_scal. apply sum_over_ext. intros i _.
  rewrite sum_over_scal. ring.
Qed.
Lemma sum_single {A} (f : A -> R) l a : NoDup l -> In a l -> (forall b, In b l -> b <> a -> f b = 0) -> sum_over f l = f a.
Proof.
  induction l as [|b l IH]; simpl; intros ND HI H; destruct HI as [HI|HI] || destruct HI.
  - subst b. apply NoDup_cons_iff in ND as [N _]. rewrite (sum_over_ext f (fun _ => 0 * 0)).
    + rewrite sum_over_scal. ring.
    + intros c Hc. rewrite H; [ring|now right|congruence].
  - apply NoDup_cons_iff in ND as [N ND]. rewrite IH; auto. rewrite H; [ring|now left|congruence].
Qed.
Lemma variance_of_weighted_sum {A I} (prob : A -> R) outcomes (w : I -> R) (Z : I -> A -> R) l : NoDup l ->
  (forall i j, In i l -> In j l -> i <> j -> covariance prob outcomes (Z i) (Z j) = 0) ->
  variance prob outcomes (fun o => weighted w (fun i => Z i o) l) = sum_over (fun i => w i ^ 2 * variance prob outcomes (Z i)) l.
Proof.
  intros ND H. unfold variance at 1, weighted.
  rewrite (expectation_sum prob outcomes (fun i o => w i * Z i o)).
  set (e i := expectation prob outcomes (Z i)).
  assert (E1 : sum_over (fun i => expectation prob outcomes (fun o => w i * Z i o)) l = sum_over (fun i => w i * e i) l)
    by (apply sum_over_ext; intros; apply expectation_scal).
  rewrite E1.
  rewrite (expectation_ext _ _ _ (fun o => sum_over (fun i => sum_over (fun j => w i * w j * ((Z i o - e i) * (Z j o - e j))) l) l)).
  - rewrite (expectation_sum prob outcomes (fun i o => sum_over (fun j => w i * w j * ((Z i o - e i) * (Z j o - e j))) l)).
    apply sum_over_ext. intros i Hi. rewrite (expectation_sum prob outcomes (fun j o => w i * w j * ((Z i o - e i) * (Z j o - e j)))).
    rewrite sum_single with (a := i); auto.
    + rewrite expectation_scal. unfold variance. replace (w i * w i) with (w i ^ 2) by ring. f_equal.
      apply expectation_ext. intros o. unfold e. ring.
    + intros j Hj N. rewrite expectation_scal. 
      change (expectation prob outcomes (fun o => (Z i o - e i) * (Z j o - e j))) with (covariance prob outcomes (Z i) (Z j)).
      rewrite H; auto. ring.
  - intros o. transitivity (sum_over (fun i => sum_over (fun j => (w i * (Z i o - e i)) * (w j * (Z j o - e j))) l) l).
    + rewrite <- (square_of_sum (fun i => w i * (Z i o - e i))). apply (f_equal (fun v => v ^ 2)).
      rewrite (sum_over_ext (fun i => w i * (Z i o - e i)) (fun i => w i * Z i o + (-1) * (w i * e i))) by (intros; ring).
      rewrite (sum_over_plus (fun i => w i * Z i o)), (sum_over_scal (-1) (fun i => w i * e i)). ring.
    + apply sum_over_ext. intros i _. apply sum_over_ext. intros j _. ring.
Qed.

Lemma dot_seq w c : List.length w = List.length c -> dot w c = sum_over (fun i => nth i w 0 * nth i c 0) (seq 0 (List.length c)).
Proof.
  revert w; induction c as [|a c IH]; intros [|b w] H; try discriminate; [reflexivity|].
  cbn [List.length seq dot sum_over]. simpl. rewrite IH by (simpl in H; lia). f_equal.
  rewrite <- seq_shift, sum_over_map. reflexivity.
Qed.

(** C152: if the outcomes of the surrogates at x are the expectations and the variances of uncorrelated random
    variables, then the prediction of the weighted sum is expectation and variance of the weighted sum
    of these variables. *)
Theorem C152_weighted_sum (P A : Type) (ms : list (P -> R * R)) (ws : list R) (a : aggregation) (X : list P)
    (prob : A -> R) (outcomes : list A) (Z : P -> nat -> A -> R) :
  construct ms "WS" ws = Ok a -> ms <> [] -> List.length ws = List.length ms ->
  (forall x i m, nth_error ms i = Some m -> m x = (expectation prob outcomes (Z x i), variance prob outcomes (Z x i))) ->
  (forall x i j, (i < List.length ms)%nat -> (j < List.length ms)%nat -> i <> j -> covariance prob outcomes (Z x i) (Z x j) = 0) ->
  let S x o := weighted (fun i => nth i ws 0) (fun i => Z x i o) (seq 0 (List.length ms)) in
  agg_predict a X = Ok (map (fun x => (expectation prob outcomes (S x), variance prob outcomes (S x))) X) /\
  agg_predict_mean a X = Ok (map (fun x => expectation prob outcomes (S x)) X).
Proof.
  intros HC Hm HL HM Hcov S. unfold construct in HC; simpl in HC. injection HC as <-.
  unfold agg_predict, agg_predict_mean; simpl. assert (EE : forall (A B : Type) (l : list A) (u v : B), l <> [] -> match l with [] => u | _ :: _ => v end = v) by (intros T B [|? ?] u v N; congruence).
  rewrite !EE by assumption. clear EE.
  rewrite HL, Nat.eqb_refl.
  assert (EM : forall x, dot ws (map (fun m => fst (m x)) ms) = expectation prob outcomes (S x)).
  { intros x. rewrite dot_seq by now rewrite map_length. rewrite map_length. unfold S, weighted.
    rewrite (expectation_sum prob outcomes (fun i o => nth i ws 0 * Z x i o)). apply sum_over_ext. intros i Hi.
    rewrite expectation_scal. f_equal. apply in_seq in Hi.
    destruct (nth_error ms i) as [m|] eqn:E; [|apply nth_error_None in E; lia].
    assert (E' := map_nth_error (fun m => fst (m x)) _ _ E). rewrite (nth_error_nth _ _ 0 E'). now rewrite (HM x i m E). }
  assert (EV : forall x, dot (map (fun w => w * w) ws) (map (fun m => snd (m x)) ms) = variance prob outcomes (S x)).
  { intros x. unfold S. rewrite variance_of_weighted_sum; [|apply seq_NoDup|].
    2:{ intros i j Hi Hj N. apply in_seq in Hi, Hj. apply Hcov; auto; lia. }
    rewrite dot_seq by now rewrite !map_length. rewrite map_length. apply sum_over_ext. intros i Hi. apply in_seq in Hi.
    destruct (nth_error ms i) as [m|] eqn:E; [|apply nth_error_None in E; lia].
    assert (E' := map_nth_error (fun m => snd (m x)) _ _ E). rewrite (nth_error_nth _ _ 0 E'), (HM x i m E). simpl. f_equal.
    destruct (nth_error ws i) as [w|] eqn:Ew; [|apply nth_error_None in Ew; lia].
    assert (Ew' := map_nth_error (fun w => w * w) _ _ Ew). rewrite (nth_error_nth _ _ 0 Ew'), (nth_error_nth _ _ 0 Ew). ring. }
  split; f_equal; apply map_ext; intros x; now rewrite ?EM, ?EV.
Qed.
Print Assumptions C152_weighted_sum.
(** A wrong number of weights is reported. *)
Theorem C152_wrong_number_of_weights (P : Type) (ms : list (P -> R * R)) (ws : list R) (a : aggregation) (X : list P) :
  construct ms "WS" ws = Ok a -> List.length ws <> List.length ms -> agg_predict a X = Err ValueError.
Proof.
  intros HC HL. unfold construct in HC; simpl in HC. injection HC as <-. unfold agg_predict; simpl.
  destruct ms; [reflexivity|]. destruct (Nat.eqb_spec (List.length ws) (List.length (p :: ms))); [congruence|reflexivity].
Qed.
Print Assumptions C152_wrong_number_of_weights.
(** Non-vacuity: two fair coins, the first worth 0 or 2 (mean 1, variance 1), the second 0 or 4 (mean 2,
    variance 4), weights 1/2 and 3. *)
Example C152_ex :
  let prob (_ : bool * bool) := / 4 in
  let coins := [(true, true); (true, false); (false, true); (false, false)] in
  let Z (_ : unit) (i : nat) (o : bool * bool) := match i with O => if fst o then 2 else 0 | _ => if snd o then 4 else 0 end in
  let ms := [fun _ : unit => (1, 1); fun _ => (2, 4)] in
  (forall x i m, nth_error ms i = Some m -> m x = (expectation prob coins (Z x i), variance prob coins (Z x i))) /\
  (forall x i j, (i < 2)%nat -> (j < 2)%nat -> i <> j -> covariance prob coins (Z x i) (Z x j) = 0) /\
  exists a, construct ms "WS" [/ 2; 3] = Ok a /\ agg_predict a [tt] = Ok [(13 / 2, 145 / 4)].
Proof.
  cbv zeta. split; [|split].
  - intros x [|[|[|i]]] m H; inversion H; unfold variance, expectation; simpl; f_equal; field.
  - intros x [|[|i]] [|[|j]] Hi Hj N; try lia; unfold covariance, expectation; simpl; field.
  - eexists; split; [reflexivity|]. unfold agg_predict; simpl. apply f_equal, (f_equal2 cons); [|reflexivity]. apply (f_equal2 pair); field.
Qed.

(** C153: every aggregation that the constructor accepts can be used: weighted sums can, as above; *)
Theorem C153_accepted_partial (P : Type) (ms : list (P -> R * R)) (how : string) (ws : list R) (a : aggregation) (X : list P) :
  construct ms how ws = Ok a -> how = "WS"%string -> ms <> [] -> List.length ws = List.length ms ->
  exists r, agg_predict a X = Ok r /\ List.length r = List.length X.
Proof.
  intros HC -> Hm HL. unfold construct in HC; simpl in HC. injection HC as <-. unfold agg_predict; simpl.
  destruct ms as [|m ms']; [congruence|]. rewrite HL, Nat.eqb_refl. eexists; split; [reflexivity|apply map_length].
Qed.
Print Assumptions C153_accepted_partial.
(** "Tchebycheff" is accepted, and every prediction then raises UnboundLocalError. *)
Theorem C153_accepted_refuted : exists (ms : list (R -> R * R)) ws a,
  ms <> [] /\ List.length ws = List.length ms /\ construct ms "Tchebycheff" ws = Ok a /\
  forall X, agg_predict a X = Err UnboundLocalError /\ agg_predict_mean a X = Err UnboundLocalError.
Proof.
  exists [fun x => (x, 1)], [1], (Agg [fun x => (x, 1)] "Tchebycheff" [1]). repeat split; try discriminate; reflexivity.
Qed.
Print Assumptions C153_accepted_refuted.
Theorem C153_other_names_rejected (P : Type) (ms : list (P -> R * R)) how ws :
  how <> "WS"%string -> how <> "Tchebycheff"%string -> construct ms how ws = Err AssertionError.
Proof.
  intros H1 H2. unfold construct; simpl. destruct (String.eqb_spec how "WS"); [congruence|].
  destruct (String.eqb_spec how "Tchebycheff"); [congruence|]. reflexivity.
Qed.
Print Assumptions C153_other_names_rejected.
