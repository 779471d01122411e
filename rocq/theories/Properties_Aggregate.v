(** A weighted sum of surrogate models (C262). *)
From Coq Require Import Reals List String Arith Bool Lia Lra.
From Verif Require Import Model_Aggregate Spec_Aggregate.
Import ListNotations.
Open Scope R_scope.

Section E.
Context {O : Type} (E : (O -> R) -> R) (HE : expectation O E).
Lemma exp_sum : forall w Xs, E (weighted w Xs) = fold_right Rplus 0 (map (fun p => fst p * E (snd p)) (combine w Xs)).
Proof.
  induction w as [|a w IH]; intros [|X Xs]; cbn [combine map fold_right]; try (rewrite (exp_ext _ _ HE _ (fun _ => 0 * 1)) by (intros; cbn; ring); rewrite (exp_scale _ _ HE 0 (fun _ => 1)); ring).
  rewrite <- IH. rewrite (exp_ext _ _ HE _ (fun o => (fun o => a * X o) o + weighted w Xs o)) by reflexivity. rewrite (exp_plus _ _ HE). cbn beta. rewrite (exp_scale _ _ HE). reflexivity.
Qed.
Lemma covariance_sum X : forall w Xs, Forall (uncorrelated E X) Xs -> E (fun o => (X o - E X) * (weighted w Xs o - E (weighted w Xs))) = 0.
Proof.
  assert (Z : E (fun _ => 0) = 0). { rewrite (exp_ext _ _ HE _ (fun _ => 0 * 1)) by (intros; cbn; ring). rewrite (exp_scale _ _ HE 0 (fun _ => 1)). ring. }
  induction w as [|a w IH]; intros Xs F.
  - rewrite (exp_ext _ _ HE _ (fun _ => 0)); auto. intros o. rewrite exp_sum. unfold weighted. cbn [combine map fold_right]. ring.
  - destruct Xs as [|Y Xs].
    + rewrite (exp_ext _ _ HE _ (fun _ => 0)); auto. intros o. rewrite exp_sum. unfold weighted. cbn [combine map fold_right]. ring.
    + inversion F as [|? ? U F']; subst. rewrite (exp_ext _ _ HE _ (fun o => a * ((X o - E X) * (Y o - E Y)) + (X o - E X) * (weighted w Xs o - E (weighted w Xs)))).
      * rewrite (exp_plus _ _ HE (fun o => a * ((X o - E X) * (Y o - E Y))) (fun o => (X o - E X) * (weighted w Xs o - E (weighted w Xs)))).
        rewrite (exp_scale _ _ HE a (fun o => (X o - E X) * (Y o - E Y))), U, IH by auto. ring.
      * intros o. rewrite !exp_sum. unfold weighted. cbn [combine map fold_right fst snd]. ring.
Qed.
Lemma variance_sum : forall w Xs, ForallOrdPairs (uncorrelated E) Xs -> variance E (weighted w Xs) = fold_right Rplus 0 (map (fun p => fst p ^ 2 * variance E (snd p)) (combine w Xs)).
Proof.
  assert (Z : E (fun _ => 0) = 0). { rewrite (exp_ext _ _ HE _ (fun _ => 0 * 1)) by (intros; cbn; ring). rewrite (exp_scale _ _ HE 0 (fun _ => 1)). ring. }
  induction w as [|a w IH]; intros Xs F.
  - unfold variance. cbn [combine map fold_right]. rewrite (exp_ext _ _ HE _ (fun _ => 0)); auto. intros o. rewrite exp_sum. unfold weighted. cbn [combine map fold_right]. ring.
  - destruct Xs as [|X Xs].
    + unfold variance. cbn [combine map fold_right]. rewrite (exp_ext _ _ HE _ (fun _ => 0)); auto. intros o. rewrite exp_sum. unfold weighted. cbn [combine map fold_right]. ring.
    + inversion F as [|? ? U F']; subst. cbn [combine map fold_right fst snd]. rewrite <- IH by auto. unfold variance at 1.
      rewrite (exp_ext _ _ HE _ (fun o => (a ^ 2 * (X o - E X) ^ 2 + 2 * a * ((X o - E X) * (weighted w Xs o - E (weighted w Xs)))) + (weighted w Xs o - E (weighted w Xs)) ^ 2)).
      * rewrite (exp_plus _ _ HE (fun o => a ^ 2 * (X o - E X) ^ 2 + 2 * a * ((X o - E X) * (weighted w Xs o - E (weighted w Xs)))) (fun o => (weighted w Xs o - E (weighted w Xs)) ^ 2)).
        rewrite (exp_plus _ _ HE (fun o => a ^ 2 * (X o - E X) ^ 2) (fun o => 2 * a * ((X o - E X) * (weighted w Xs o - E (weighted w Xs))))).
        rewrite (exp_scale _ _ HE (a ^ 2) (fun o => (X o - E X) ^ 2)), (exp_scale _ _ HE (2 * a) (fun o => (X o - E X) * (weighted w Xs o - E (weighted w Xs)))).
        rewrite covariance_sum by auto. unfold variance. ring.
      * intros o. rewrite !exp_sum. unfold weighted. cbn [combine map fold_right fst snd]. ring.
Qed.
End E.

Lemma dot_ok n w M : List.length w = List.length M -> exists r, dot n w M = AOk r /\ List.length r = n /\
  forall j, (j < n)%nat -> nth j r 0 = fold_right Rplus 0 (map (fun p => fst p * nth j (snd p) 0) (combine w M)).
Proof.
  intros L. unfold dot. rewrite (proj2 (Nat.eqb_eq _ _) L). eexists. split; [reflexivity|]. rewrite map_length, seq_length. split; auto.
  intros j Hj. set (f := fun j => fold_right _ _ _). rewrite (nth_indep _ 0 (f 0%nat)) by (now rewrite map_length, seq_length). rewrite map_nth, seq_nth by auto. reflexivity.
Qed.
Lemma combine_map_r {A B C} (f : B -> C) : forall (l : list A) m, combine l (map f m) = map (fun p => (fst p, f (snd p))) (combine l m).
Proof. induction l; intros [|b m]; cbn; auto. now rewrite IHl. Qed.
Lemma combine_map_l {A B C} (f : A -> C) : forall (l : list A) (m : list B), combine (map f l) m = map (fun p => (f (fst p), snd p)) (combine l m).
Proof. induction l; intros [|b m]; cbn; auto. now rewrite IHl. Qed.
Lemma Forall2_combine {A B C} (P : B -> C -> Prop) (f : A * B -> R) (g : A * C -> R) : (forall a b c, P b c -> f (a, b) = g (a, c)) ->
  forall l m k, Forall2 P m k -> map f (combine l m) = map g (combine l k).
Proof. intros H. induction l as [|a l IH]; intros m k F; auto. destruct F as [|b c m k Pbc F]; cbn; auto. now rewrite (H a b c Pbc), (IH m k F). Qed.

(** Whatever the surrogates say about the value at point j - for each of them a random variable with this mean and variance, any two
    of them uncorrelated - the aggregate gives mean and variance of their weighted sum. *)
Theorem C262_weighted_sum_partial : forall ws answers n, List.length ws = List.length answers -> answers <> [] ->
  exists a y m, aggregate "WS" (Some ws) = AOk a /\ predict_mse a n answers = AOk (y, m) /\ predict a n (map fst answers) = AOk y /\ List.length y = n /\ List.length m = n /\
    forall j O (E : (O -> R) -> R) Xs, (j < n)%nat -> expectation O E -> ForallOrdPairs (uncorrelated E) Xs ->
      Forall2 (fun X ans => E X = nth j (fst ans) 0 /\ variance E X = nth j (snd ans) 0) Xs answers ->
      nth j y 0 = E (weighted ws Xs) /\ nth j m 0 = variance E (weighted ws Xs).
Proof.
  intros ws answers n L NE. destruct (dot_ok n ws (map fst answers)) as (y & Ey & Ly & Vy); [now rewrite map_length|].
  destruct (dot_ok n (map (fun w => w ^ 2) ws) (map snd answers)) as (m & Em & Lm & Vm); [now rewrite !map_length|].
  exists (Aggregation "WS" ws), y, m. split; [reflexivity|]. split. { unfold predict_mse. destruct answers; [congruence|]. cbn [agg_kind agg_weights String.eqb Ascii.eqb Bool.eqb]. rewrite Ey, Em. reflexivity. }
  split; [exact Ey|]. split; auto. split; auto. intros j O E Xs Hj HE U F. rewrite Vy, Vm by auto. split.
  - rewrite (exp_sum E HE). f_equal. rewrite combine_map_r, map_map. symmetry. apply (Forall2_combine _ _ _ (fun w X ans (H : E X = nth j (fst ans) 0 /\ variance E X = nth j (snd ans) 0) => f_equal (Rmult w) (proj1 H)) ws _ _ F).
  - rewrite (variance_sum E HE) by auto. f_equal. rewrite combine_map_r, combine_map_l, !map_map. symmetry. apply (Forall2_combine _ _ _ (fun w X ans (H : E X = nth j (fst ans) 0 /\ variance E X = nth j (snd ans) 0) => f_equal (Rmult (w ^ 2)) (proj2 H)) ws _ _ F).
Qed.
Print Assumptions C262_weighted_sum_partial.
(** Another number of weights raises. *)
Theorem C262_wrong_weights : forall ws answers n a, List.length ws <> List.length answers -> aggregate "WS" (Some ws) = AOk a -> predict_mse a n answers = AErr ValueE.
Proof.
  intros ws answers n a L [= <-]. unfold predict_mse. destruct answers as [|b r]; [reflexivity|]. cbn [agg_kind agg_weights String.eqb Ascii.eqb Bool.eqb]. unfold dot. rewrite map_length.
  now rewrite (proj2 (Nat.eqb_neq _ _) L).
Qed.
Print Assumptions C262_wrong_weights.
(** Aggregations other than the two are refused, and so are missing weights. *)
Theorem C262_refuses : forall kind w, (w = None \/ kind <> "WS"%string /\ kind <> "Tchebycheff"%string) -> exists e, aggregate kind w = AErr e.
Proof.
  intros kind [w|] [H|[A B]]; try congruence; try (eexists; reflexivity). unfold aggregate.
  rewrite (proj2 (String.eqb_neq _ _) A), (proj2 (String.eqb_neq _ _) B). eexists. reflexivity.
Qed.
Print Assumptions C262_refuses.
(** Refuted: the other aggregation that the constructor accepts never predicts anything. *)
Theorem C262_tchebycheff_refuted : forall ws n answers, answers <> [] -> exists a, aggregate "Tchebycheff" (Some ws) = AOk a /\
  predict_mse a n answers = AErr UnboundLocalE /\ predict a n (map fst answers) = AErr UnboundLocalE.
Proof. intros ws n answers NE. eexists. split; [reflexivity|]. destruct answers; [congruence|]. split; reflexivity. Qed.
Print Assumptions C262_tchebycheff_refuted.
(** Two independent coins with values 0 and 2, and 1 and 5: means 1 and 3, variances 1 and 4; weights 3 and 1. *)
Definition coins (X : bool * bool -> R) : R := (X (true, true) + X (true, false) + X (false, true) + X (false, false)) / 4.
Example C262_case : let X1 := fun o : bool * bool => if fst o then 2 else 0 in let X2 := fun o : bool * bool => if snd o then 5 else 1 in
  expectation (bool * bool) coins /\ ForallOrdPairs (uncorrelated coins) [X1; X2] /\
  Forall2 (fun X ans => coins X = nth 0 (fst ans) 0 /\ variance coins X = nth 0 (snd ans) 0) [X1; X2] [([1], [1]); ([3], [4])] /\
  coins (weighted [3; 1] [X1; X2]) = 6 /\ variance coins (weighted [3; 1] [X1; X2]) = 13.
Proof.
  cbv zeta. split; [|split; [|split]].
  - split; unfold coins; intros; try lra. now rewrite !H.
  - constructor; [constructor; [|constructor]|constructor; [constructor|constructor]]. unfold uncorrelated, coins. cbn. lra.
  - constructor; [|constructor; [|constructor]]; unfold variance, coins; cbn; split; lra.
  - unfold variance, coins, weighted; cbn; split; lra.
Qed.
