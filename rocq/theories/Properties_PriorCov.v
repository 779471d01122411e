(** Properties C170, C171: correlations between new and known points, and the prior covariance. *)
From Coq Require Import Reals List Arith Bool Lra Lia.
From Verif Require Import Lib_List Model_Kernel Spec_Kernel Proofs_Kernel Properties_Kernel Model_PriorCov.
Import ListNotations.
Open Scope R_scope.

Lemma chunks_nth {A} (f : nat -> nat -> A) rows cols : forall i0, chunks rows cols (flat_map (fun i => map (f i) (seq 0 cols)) (seq i0 rows)) = map (fun i => map (f i) (seq 0 cols)) (seq i0 rows).
Proof.
  induction rows as [|rows IH]; intros i0; simpl; [reflexivity|]. rewrite firstn_app, skipn_app. rewrite map_length, seq_length, Nat.sub_diag.
  rewrite firstn_all2 by (rewrite map_length, seq_length; lia). rewrite skipn_all2 by (rewrite map_length, seq_length; lia). simpl. rewrite app_nil_r. f_equal. apply IH.
Qed.
Lemma flat_length {A} (f : nat -> nat -> A) rows cols : forall i0, length (flat_map (fun i => map (f i) (seq 0 cols)) (seq i0 rows)) = (rows * cols)%nat.
Proof. induction rows as [|rows IH]; intros i0; simpl; [reflexivity|]. rewrite app_length, map_length, seq_length, IH. reflexivity. Qed.
Lemma map_seq_nth {A B} (f : A -> B) d l : map f l = map (fun i => f (nth i l d)) (seq 0 (length l)).
Proof. induction l as [|a l IH]; simpl; [reflexivity|]. f_equal. rewrite IH, <- seq_shift, map_map. reflexivity. Qed.
Lemma flat_seq_nth {A B} (f : A -> list B) d l : flat_map f l = flat_map (fun i => f (nth i l d)) (seq 0 (length l)).
Proof. rewrite !flat_map_concat_map. f_equal. apply map_seq_nth. Qed.
Lemma flat_map_map {A B C} (g : B -> C) (f : A -> list B) l : map g (flat_map f l) = flat_map (fun a => map g (f a)) l.
Proof. induction l as [|a l IH]; simpl; [reflexivity|]. now rewrite map_app, IH. Qed.
Lemma flat_ext {A B} (f g : A -> list B) l : (forall a, In a l -> f a = g a) -> flat_map f l = flat_map g l.
Proof. induction l as [|a l IH]; simpl; intros H; [reflexivity|]. rewrite (H a) by now left. rewrite IH; auto. Qed.
Lemma sequence_all {A} (l : list (option A)) d : (forall a, In a l -> a <> None) -> sequence l = Some (map (fun a => match a with Some v => v | None => d end) l).
Proof.
  induction l as [|a l IH]; intros H; simpl; [reflexivity|]. destruct a as [v|]; [|exfalso; apply (H None); [now left|reflexivity]].
  rewrite IH by (intros; apply H; now right). reflexivity.
Qed.
Lemma sequence_none {A} (l : list (option A)) : In None l -> sequence l = None.
Proof. induction l as [|a l IH]; intros H; simpl; [destruct H|]. destruct a as [v|]; [|reflexivity]. destruct H as [H|H]; [discriminate|]. now rewrite IH. Qed.
Lemma get_seq {A} (f : nat -> A) d n i : (i < n)%nat -> nth i (map f (seq 0 n)) d = f i.
Proof. intros H. rewrite (nth_indep _ d (f 0%nat)) by (rewrite map_length, seq_length; exact H). rewrite map_nth, seq_nth by exact H. reflexivity. Qed.

(** C170.  Whenever the correlations are defined, row i and column j of the matrix used for predictions is the correlation of new point i
    with known point j, for every number of new points and of known points. *)
Theorem C170_pairs : forall k theta X Y M, cross_corr k theta X Y = Some M ->
  length M = length X /\
  forall i, (i < length X)%nat -> length (nth i M []) = length Y /\
    forall j, (j < length Y)%nat -> corr k theta (absdiff (nth i X []) (nth j Y [])) = Some (nth j (nth i M []) 0).
Proof.
  intros k theta X Y M. unfold cross_corr, cross_distances_to. set (c := fun i j => corr k theta (absdiff (nth i X []) (nth j Y []))).
  assert (E0 : map (corr k theta) (flat_map (fun x => map (absdiff x) Y) X) = flat_map (fun i => map (c i) (seq 0 (length Y))) (seq 0 (length X))).
  { rewrite flat_map_map, (flat_seq_nth _ []). apply flat_ext. intros i _. rewrite map_map. apply (map_seq_nth (fun y => corr k theta (absdiff (nth i X []) y)) [] Y). }
  rewrite E0. set (fl := flat_map (fun i => map (c i) (seq 0 (length Y))) (seq 0 (length X))).
  destruct (sequence fl) as [r|] eqn:ES; [|discriminate].
  assert (NN : forall a, In a fl -> a <> None) by (intros a Ha ->; rewrite (sequence_none fl Ha) in ES; discriminate).
  rewrite (sequence_all fl 0 NN) in ES. injection ES as <-.
  set (v := fun a : option R => match a with Some v => v | None => 0 end). set (w := fun i j => v (c i j)).
  assert (E1 : map v fl = flat_map (fun i => map (w i) (seq 0 (length Y))) (seq 0 (length X))).
  { unfold fl. rewrite flat_map_map. apply flat_ext. intros i _. now rewrite map_map. }
  unfold reshape. rewrite E1, flat_length, Nat.eqb_refl. intros [= <-]. rewrite chunks_nth.
  split; [now rewrite map_length, seq_length|]. intros i Hi. rewrite (get_seq _ []) by exact Hi. split; [now rewrite map_length, seq_length|].
  intros j Hj. rewrite get_seq by exact Hj. unfold w, v. fold (c i j). destruct (c i j) as [q|] eqn:Eq; [reflexivity|].
  exfalso. apply (NN (c i j)); [|exact Eq]. unfold fl. apply in_flat_map. exists i. split; [apply in_seq; lia|]. apply in_map_iff. exists j. split; [reflexivity|apply in_seq; lia].
Qed.
Print Assumptions C170_pairs.
Example C170_case : exists M, cross_corr AbsExp [1] [[0]; [2]] [[0]; [1]; [3]] = Some M /\ M = [[exp (-0); exp (-1); exp (-3)]; [exp (-2); exp (-1); exp (-1)]].
Proof.
  eexists. split; [reflexivity|]. cbn. unfold sum. cbn.
  repeat match goal with |- context[Rabs ?a] => first [rewrite (Rabs_right a) by lra | rewrite (Rabs_left a) by lra] end.
  repeat (f_equal; try lra).
Qed.

Lemma sqrt_rms s r : 0 <= s -> 0 <= r -> sqrt (sumsq (map (fun s => s * r) [s]) / INR (length [s])) = s * r.
Proof. intros Hs Hr. cbn. replace ((s * r * (s * r) + 0) / 1) with ((s * r) * (s * r)) by field. apply sqrt_square. apply Rmult_le_pos; assumption. Qed.
Lemma range_nonneg k theta d v : positive theta -> corr k theta d = Some v -> 0 <= v.
Proof.
  intros P H. apply (C62_range k theta d v P H).
Qed.
(** What is asked of the result: entry (i, j) is the variance times the correlation of point i and point j. *)
Definition covariances (k : kernel) (theta : list R) (s : R) (X Y C : list (list R)) : Prop :=
  length C = length X /\ forall i j, (i < length X)%nat -> (j < length Y)%nat ->
    exists r, corr k theta (absdiff (nth i X []) (nth j Y [])) = Some r /\ nth j (nth i C []) 0 = s * r.
Lemma map_get {A B} (f : A -> B) da db i l : (i < length l)%nat -> nth i (map f l) db = f (nth i l da).
Proof. intros H. rewrite (nth_indep _ db (f da)) by now rewrite map_length. apply map_nth. Qed.

(** C171, the part that holds: without a second argument, or with a non-empty list of points. *)
Theorem C171_covariance_partial : forall k theta d s X1 X2 Y C, positive theta -> 0 <= s ->
  (X2 = Absent /\ Y = X1 \/ X2 = Listed Y /\ Y <> []) ->
  prior_cov k theta d [s] X1 X2 false = Some C -> covariances k theta s X1 Y C.
Proof.
  intros k theta d s X1 X2 Y C P Hs H2 H. unfold prior_cov in H.
  assert (E0 : second_points X1 X2 = Some Y) by (destruct H2 as [[-> ->]|[-> N]]; [reflexivity|]; destruct Y; [congruence|reflexivity]).
  rewrite E0 in H. destruct ((columns X1 =? d) && (columns Y =? d))%nat; [|discriminate]. destruct (cross_corr k theta X1 Y) as [M|] eqn:EM; [|discriminate]. injection H as <-.
  destruct (C170_pairs k theta X1 Y M EM) as [L HM]. split; [now rewrite map_length|]. intros i j Hi Hj. destruct (HM i Hi) as [Lr HC]. specialize (HC j Hj).
  eexists. split; [exact HC|]. rewrite (map_get _ [] []) by lia. rewrite (map_get _ 0 0) by lia. apply sqrt_rms; [exact Hs|]. exact (range_nonneg _ _ _ _ P HC).
Qed.
Print Assumptions C171_covariance_partial.

(** C171 fails for a second argument that is an array: two points raise an exception, and the single number zero is taken for a
    missing argument. *)
Theorem C171_array_refuted :
  (forall k theta d sigma2 X1 a b Y oc, prior_cov k theta d sigma2 X1 (Array ([a :: b :: Y])) oc = None) /\
  (forall k theta d sigma2 X1 a b Y oc, prior_cov k theta d sigma2 X1 (Array ([a] :: [b] :: Y)) oc = None) /\
  exists C, prior_cov AbsExp [1] 1 [1] [[1]] (Array [[0]]) false = Some C /\ ~ covariances AbsExp [1] 1 [[1]] [[0]] C.
Proof.
  split; [reflexivity|]. split; [reflexivity|]. assert (E0 : second_points [[1]] (Array [[0]]) = Some [[1]]).
  { cbn. destruct (Req_EM_T 0 0); [reflexivity|congruence]. }
  unfold prior_cov. rewrite E0. cbn [columns length Nat.eqb andb]. destruct (cross_corr AbsExp [1] [[1]] [[1]]) as [M|] eqn:EM; [|discriminate].
  eexists. split; [reflexivity|]. intros [_ H]. destruct (H 0%nat 0%nat ltac:(cbn; lia) ltac:(cbn; lia)) as (r & E1 & E2).
  destruct (C170_pairs AbsExp [1] [[1]] [[1]] M EM) as [L HM]. destruct (HM 0%nat ltac:(cbn; lia)) as [Lr HC]. specialize (HC 0%nat ltac:(cbn; lia)). cbn [length] in L, Lr.
  rewrite (map_get _ [] []) in E2 by lia. rewrite (map_get _ 0 0) in E2 by lia. assert (P : positive [1]) by (repeat constructor; lra).
  rewrite sqrt_rms in E2 by (try lra; exact (range_nonneg _ _ _ _ P HC)).
  assert (R0 : nth 0 (nth 0 M []) 0 = exp 0). { cbn in HC. unfold sum in HC. cbn in HC. injection HC as <-. f_equal. rewrite Rabs_right by (rewrite Rabs_right; lra). rewrite Rabs_right by lra. ring. }
  assert (R1 : r = exp (-1)). { cbn in E1. unfold sum in E1. cbn in E1. injection E1 as <-. f_equal. rewrite (Rabs_right (Rabs _)) by (rewrite Rabs_right; lra). rewrite Rabs_right by lra. ring. }
  rewrite R0, R1 in E2. assert (exp (-1) < exp 0) by (apply exp_increasing; lra). lra.
Qed.
Print Assumptions C171_array_refuted.
Example C171_case : exists C, prior_cov AbsExp [1] 1 [2] [[0]; [2]] (Listed [[1]]) false = Some C.
Proof. eexists. reflexivity. Qed.
