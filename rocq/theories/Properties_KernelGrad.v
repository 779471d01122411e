(** Derivatives of the correlation functions (C63, C137, C139, C141, C142, C143). *)
From Coq Require Import Reals List Arith Bool Lra Lia Psatz.
From Coquelicot Require Import Coquelicot.
From Verif Require Import Model_Kernel Spec_Kernel Proofs_Kernel.
Import ListNotations.
Open Scope R_scope.

Lemma gradient_unique f x g g' : has_gradient f x g -> has_gradient f x g' -> g = g'.
Proof.
  intros (L & H) (L' & H'). apply (nth_ext _ _ 0 0); [congruence|]. intros j Hj. rewrite L in Hj.
  destruct (H j Hj) as (h & D & E). destruct (H' j Hj) as (h' & D' & E').
  rewrite <- (is_derive_unique _ _ _ D), <- (is_derive_unique _ _ _ D'). apply Derive_ext_loc.
  apply (filter_imp (fun t => f (set_coord x j t) = Some (h t) /\ f (set_coord x j t) = Some (h' t))); [intros t (A & B); congruence|]. apply filter_and; auto.
Qed.
Lemma grad_intro f x g (F : list R -> R) : length g = length x ->
  (forall j t, (j < length x)%nat -> f (set_coord x j t) = Some (F (set_coord x j t))) ->
  (forall j, (j < length x)%nat -> is_derive (fun t => F (set_coord x j t)) (nth j x 0) (nth j g 0)) -> has_gradient f x g.
Proof. intros L E D. split; auto. intros j Hj. exists (fun t => F (set_coord x j t)). split; auto. apply filter_forall. auto. Qed.

(** The sums as functions of one coordinate. *)
Lemma wsq_d th x t j : (j < length x)%nat -> length th = length x -> length t = length x ->
  is_derive (fun u => sum3 wsq th (set_coord x j u) t) (nth j x 0) (2 * nth j th 0 * (nth j x 0 - nth j t 0)).
Proof.
  intros Hj L1 L2. apply (is_derive_ext (fun u => sum3 wsq th x t - wsq (nth j th 0) (nth j x 0) (nth j t 0) + wsq (nth j th 0) u (nth j t 0))).
  { intros u. now rewrite sum3_set. }
  unfold wsq. auto_derive; auto. ring.
Qed.
Lemma Rabs_d a v x : x <> v -> is_derive (fun u => a * Rabs (u - v)) x (a * sign (x - v)).
Proof.
  intros N. unfold sign. destruct (Rlt_dec 0 (x - v)); [|destruct (Rlt_dec (x - v) 0); [|lra]].
  - apply (is_derive_ext_loc (fun u => a * (u - v))).
    { apply (filter_imp (fun u => v < u)); [intros u H; rewrite Rabs_pos_eq; lra|]. apply open_gt. lra. }
    auto_derive; auto.
  - apply (is_derive_ext_loc (fun u => a * (- (u - v)))).
    { apply (filter_imp (fun u => u < v)); [intros u H; rewrite Rabs_left; lra|]. apply open_lt. lra. }
    auto_derive; auto; ring.
Qed.
Lemma wabs_d th x t j : (j < length x)%nat -> length th = length x -> length t = length x -> nth j x 0 <> nth j t 0 ->
  is_derive (fun u => sum3 wabs th (set_coord x j u) t) (nth j x 0) (nth j th 0 * sign (nth j x 0 - nth j t 0)).
Proof.
  intros Hj L1 L2 N. apply (is_derive_ext (fun u => sum3 wabs th x t - wabs (nth j th 0) (nth j x 0) (nth j t 0) + nth j th 0 * Rabs (u - nth j t 0))).
  { intros u. rewrite sum3_set by auto. reflexivity. }
  evar_last. { apply (is_derive_plus (fun _ => sum3 wabs th x t - wabs (nth j th 0) (nth j x 0) (nth j t 0))); [apply is_derive_const|apply Rabs_d; auto]. }
  unfold plus, zero; cbn. ring.
Qed.
Lemma exp_d (s : R -> R) x ds : is_derive s x ds -> is_derive (fun u => exp (- s u)) x (- exp (- s x) * ds).
Proof. intros H. auto_derive; [now exists ds|]. replace (Derive (fun u => s u) x) with ds by (symmetry; now apply (is_derive_unique s)). set (e := exp _). ring. Qed.

Lemma nth_map2_rows (f : R -> list R -> list R) r X i : length r = length X -> (i < length X)%nat ->
  nth i (map2 f r X) [] = f (nth i r 0) (nth i X []).
Proof. intros L H. apply map2_nth; lia. Qed.
Lemma corr_row k theta X x n r i : rectangular X n -> sequence (map (fun t => corr k theta (absdiff x t)) X) = Some r -> (i < length X)%nat ->
  length r = length X /\ corr k theta (absdiff x (nth i X [])) = Some (nth i r 0).
Proof.
  intros _ H Hi. apply sequence_some in H. assert (L : length r = length X) by (rewrite <- (map_length Some r), <- H, map_length; auto). split; auto.
  assert (W : nth i (map Some r) None = Some (nth i r 0)) by (rewrite (nth_indep _ None (Some 0)) by (rewrite map_length; lia); apply map_nth).
  rewrite <- H in W. rewrite (nth_indep _ None (corr k theta (absdiff x []))) in W by (rewrite map_length; lia). rewrite (map_nth (fun t => corr k theta (absdiff x t))) in W. exact W.
Qed.
Lemma corr_rows k theta X x n : k <> GenExp -> rectangular X n -> length x = n -> accepted theta n -> exists r, sequence (map (fun t => corr k theta (absdiff x t)) X) = Some r.
Proof.
  intros N HX Hx A. apply sequence_all. intros o Ho. apply in_map_iff in Ho as (t & <- & Ht). unfold rectangular in HX. rewrite Forall_forall in HX.
  assert (A' : accepted theta (length (absdiff x t))) by (rewrite absdiff_length; [now rewrite Hx|rewrite (HX t Ht); auto]).
  destruct k; try congruence; cbn [corr]; rewrite ?abs_each, ?sq_each, ?cubic_each, ?matern_each by auto; discriminate.
Qed.
Lemma sq_at theta z t : length t = length z -> accepted theta (length z) -> corr SqExp theta (absdiff z t) = Some (exp (- sum3 wsq (each theta (length z)) z t)).
Proof. intros L A. cbn [corr]. rewrite sq_each; rewrite absdiff_length by auto; auto. now rewrite sum_wsq. Qed.
Lemma abs_at theta z t : length t = length z -> accepted theta (length z) -> corr AbsExp theta (absdiff z t) = Some (exp (- sum3 wabs (each theta (length z)) z t)).
Proof. intros L A. cbn [corr]. rewrite abs_each; rewrite absdiff_length by auto; auto. now rewrite sum_wabs. Qed.
Lemma matern_at theta z t : length t = length z -> accepted theta (length z) -> corr Matern theta (absdiff z t) = Some (matern_of (sum3 wsq (each theta (length z)) z t)).
Proof. intros L A. cbn [corr]. rewrite matern_each; rewrite absdiff_length by auto; auto. now rewrite sum_wsq. Qed.
Lemma diff_nth x t j : (j < length x)%nat -> length t = length x -> nth j (map2 Rminus x t) 0 = nth j x 0 - nth j t 0.
Proof. intros. apply map2_nth; lia. Qed.

(** C142 and C63: [corr_dx] is the gradient of the correlation with every training point. *)
Theorem C142_squared_exponential theta X x n : rectangular X n -> length x = n -> accepted theta n ->
  exists rows, corr_dx SqExp theta X x = Some rows /\ length rows = length X /\
    forall i, (i < length X)%nat -> has_gradient (fun z => corr SqExp theta (absdiff z (nth i X []))) x (nth i rows []).
Proof.
  intros HX Hx A. subst n. destruct (corr_rows SqExp theta X x (length x)) as (r & Er); auto; [discriminate|].
  unfold corr_dx. rewrite Er. eexists. split; [reflexivity|].
  assert (Lr : length r = length X) by (apply sequence_some in Er; rewrite <- (map_length Some r), <- Er, map_length; auto).
  split; [rewrite map2_length; lia|]. intros i Hi. rewrite nth_map2_rows by auto. destruct (corr_row _ _ _ _ _ _ _ HX Er Hi) as (_ & Ci).
  assert (Lt : length (nth i X []) = length x) by (unfold rectangular in HX; rewrite Forall_forall in HX; apply HX, nth_In; auto). set (t := nth i X []) in *.
  rewrite sq_at in Ci by auto. assert (Ri : nth i r 0 = exp (- sum3 wsq (each theta (length x)) x t)) by congruence. pose proof (each_length theta (length x) A) as Le.
  apply grad_intro with (F := fun z => exp (- sum3 wsq (each theta (length x)) z t)).
  - rewrite !map2_length, Le, Lt, !Nat.min_id. auto.
  - intros j u Hj. rewrite sq_at; rewrite set_coord_length by auto; auto.
  - intros j Hj. apply (ex_base _ _ _ _ (exp_d _ _ _ (wsq_d _ x t j Hj Le Lt))). rewrite set_coord_same by auto.
    rewrite (map2_nth _ _ _ _ 0 0) by (rewrite ?map2_length, ?Le, ?Lt, ?Nat.min_id; auto). rewrite diff_nth by auto. rewrite Ri. set (e := exp _). ring.
Qed.
Print Assumptions C142_squared_exponential.
(** For the absolute exponential, where no coordinate coincides (elsewhere it has a kink). *)
Theorem C142_absolute_exponential theta X x n : rectangular X n -> length x = n -> accepted theta n ->
  (forall t, In t X -> forall j, (j < n)%nat -> nth j x 0 <> nth j t 0) ->
  exists rows, corr_dx AbsExp theta X x = Some rows /\ length rows = length X /\
    forall i, (i < length X)%nat -> has_gradient (fun z => corr AbsExp theta (absdiff z (nth i X []))) x (nth i rows []).
Proof.
  intros HX Hx A Hn. subst n. destruct (corr_rows AbsExp theta X x (length x)) as (r & Er); auto; [discriminate|].
  unfold corr_dx. rewrite Er. eexists. split; [reflexivity|].
  assert (Lr : length r = length X) by (apply sequence_some in Er; rewrite <- (map_length Some r), <- Er, map_length; auto).
  split; [rewrite map2_length; lia|]. intros i Hi. rewrite nth_map2_rows by auto. destruct (corr_row _ _ _ _ _ _ _ HX Er Hi) as (_ & Ci).
  assert (It : In (nth i X []) X) by (apply nth_In; auto).
  assert (Lt : length (nth i X []) = length x) by (unfold rectangular in HX; rewrite Forall_forall in HX; apply HX; auto). set (t := nth i X []) in *.
  rewrite abs_at in Ci by auto. assert (Ri : nth i r 0 = exp (- sum3 wabs (each theta (length x)) x t)) by congruence. pose proof (each_length theta (length x) A) as Le.
  apply grad_intro with (F := fun z => exp (- sum3 wabs (each theta (length x)) z t)).
  - rewrite !map2_length, Le, Lt, !Nat.min_id. auto.
  - intros j u Hj. rewrite abs_at; rewrite set_coord_length by auto; auto.
  - intros j Hj. apply (ex_base _ _ _ _ (exp_d _ _ _ (wabs_d _ x t j Hj Le Lt (Hn t It j Hj)))). rewrite set_coord_same by auto.
    rewrite (map2_nth _ _ _ _ 0 0) by (rewrite ?map2_length, ?Le, ?Lt, ?Nat.min_id; auto). rewrite diff_nth by auto. rewrite Ri. set (e := exp _). ring.
Qed.
Print Assumptions C142_absolute_exponential.
Lemma dist_sum3 th x t : sum (map2 (fun a v => a * (v * v)) th (map2 Rminus x t)) = sum3 wsq th x t.
Proof. revert x t. induction th as [|a th IH]; intros [|b x] [|c t]; cbn; auto. unfold sum in *. cbn. rewrite IH. reflexivity. Qed.
Lemma wsq_in_nonneg th x t : positive th -> 0 <= sum3 wsq th x t.
Proof. intros P. apply sum3_nonneg. intros a u v Ha. unfold wsq. unfold positive in P. rewrite Forall_forall in P. specialize (P a Ha). apply Rmult_le_pos; [lra|apply Rle_0_sqr]. Qed.
Lemma wsq_zero_eq th x t : positive th -> length th = length x -> length t = length x -> sum3 wsq th x t = 0 -> x = t.
Proof.
  intros P L1 L2 Z. apply (nth_ext _ _ 0 0); auto. intros j Hj.
  assert (E : wsq (nth j th 0) (nth j x 0) (nth j t 0) = 0).
  { apply sum3_zero; auto. intros a u v Ha. unfold wsq. unfold positive in P. rewrite Forall_forall in P. specialize (P a Ha). apply Rmult_le_pos; [lra|apply Rle_0_sqr]. }
  unfold positive in P. rewrite Forall_forall in P. assert (0 < nth j th 0) by (apply P, nth_In; lia). unfold wsq in E. apply Rmult_integral in E as [E|E]; [lra|]. apply Rmult_integral in E as [E|E]; lra.
Qed.
(** For Matern, at the points that are not in the training set. *)
Theorem C63_matern_partial theta X x n : rectangular X n -> length x = n -> accepted theta n -> positive theta -> ~ In x X ->
  exists rows, corr_dx Matern theta X x = Some rows /\ length rows = length X /\
    forall i, (i < length X)%nat -> has_gradient (fun z => corr Matern theta (absdiff z (nth i X []))) x (nth i rows []).
Proof.
  intros HX Hx A P Hn. subst n. destruct (corr_rows Matern theta X x (length x)) as (r & Er); auto; [discriminate|].
  unfold corr_dx. rewrite Er. pose proof (each_length theta (length x) A) as Le. pose proof (each_pos theta (length x) P) as PE.
  unfold rectangular in HX. rewrite Forall_forall in HX.
  assert (Dpos : forall t, In t X -> 0 < sum3 wsq (each theta (length x)) x t).
  { intros t Ht. pose proof (wsq_in_nonneg _ x t PE) as N. destruct (Req_dec (sum3 wsq (each theta (length x)) x t) 0) as [Z|]; [|lra].
    apply wsq_zero_eq in Z; auto. subst. tauto. }
  destruct (existsb _ X) eqn:Ex.
  { apply existsb_exists in Ex as (t & Ht & E). rewrite dist_sum3 in E. destruct (Req_EM_T _ 0) as [Z|]; [|discriminate]. specialize (Dpos t Ht). apply sqrt_lt_R0 in Dpos. lra. }
  eexists. split; [reflexivity|]. split; [apply map_length|]. intros i Hi.
  match goal with |- context [nth i (map ?f X) []] => rewrite (nth_indep (map f X) [] (f [])) by (rewrite map_length; auto); rewrite (map_nth f); cbv beta end.
  assert (It : In (nth i X []) X) by (apply nth_In; auto). specialize (Dpos _ It). assert (Lt : length (nth i X []) = length x) by auto. set (t := nth i X []) in *.
  apply grad_intro with (F := fun z => matern_of (sum3 wsq (each theta (length x)) z t)).
  - rewrite !map2_length, Le, Lt, !Nat.min_id. auto.
  - intros j u Hj. rewrite matern_at; rewrite set_coord_length by auto; auto.
  - intros j Hj. pose proof (wsq_d _ x t j Hj Le Lt) as W. apply (ex_base _ _ _ _ (matern_d _ _ _ W ltac:(cbv beta; rewrite set_coord_same by auto; exact Dpos))). rewrite set_coord_same by auto.
    rewrite (map2_nth _ _ _ _ 0 0) by (rewrite ?map2_length, ?Le, ?Lt, ?Nat.min_id; auto). rewrite diff_nth by auto. rewrite dist_sum3. apply sqrt_lt_R0 in Dpos. set (d := sqrt (sum3 _ _ _ _)) in *. clearbody d.
    set (e := exp _). clearbody e. field. lra.
Qed.
Print Assumptions C63_matern_partial.
(** At a training point the gradient with respect to all other training points is returned as zero. *)
Theorem C63_matern_refuted : exists theta X x i rows, rectangular X (length x) /\ accepted theta (length x) /\ positive theta /\ (i < length X)%nat /\ x <> nth i X [] /\
  corr_dx Matern theta X x = Some rows /\
  (exists g, has_gradient (fun z => corr Matern theta (absdiff z (nth i X []))) x g) /\
  ~ has_gradient (fun z => corr Matern theta (absdiff z (nth i X []))) x (nth i rows []).
Proof.
  destruct (C63_matern_partial [1] [[1]] [0] 1) as (rows & E & L & G); try (repeat constructor; lra); [intros [H|[]]; injection H; lra|].
  exists [1], [[0]; [1]], [0], 1%nat, [[0]; [0]]. split; [repeat constructor|]. split; [now left|]. split; [repeat constructor; lra|]. split; [cbn; lia|]. split; [cbn; intros H; injection H; lra|].
  assert (C : corr_dx Matern [1] [[0]; [1]] [0] = Some [[0]; [0]]).
  { unfold corr_dx. cbn. destruct (Req_EM_T _ 0) as [|N]; [reflexivity|]. exfalso. apply N. unfold sum; cbn. match goal with |- sqrt ?a = 0 => replace a with 0 by ring end. apply sqrt_0. }
  split; auto. specialize (G 0%nat ltac:(cbn; lia)). cbn [nth] in G |- *. split; [eauto|]. intros Z.
  pose proof (gradient_unique _ _ _ _ G Z) as U. unfold corr_dx in E. cbn in E.
  assert (Dd : sqrt (1 * ((0 - 1) * (0 - 1)) + 0) = 1) by (replace (1 * ((0 - 1) * (0 - 1)) + 0) with 1 by ring; apply sqrt_1).
  unfold sum in E. cbn in E. rewrite !Dd in E. destruct (Req_EM_T 1 0); [lra|]. cbn in E. inversion E; subst. cbn in U. inversion U as [V].
  pose proof (exp_pos (- sqrt 3 * 1)) as P. set (e := exp _) in *. clearbody e. field_simplify in V. lra.
Qed.
Print Assumptions C63_matern_refuted.
(** The other two correlation functions have no gradient although they are differentiable. *)
Theorem C63_missing_refuted : forall theta X x, corr_dx GenExp theta X x = None /\ corr_dx Cubic theta X x = None.
Proof. intros. unfold corr_dx. split; destruct (sequence _); auto. Qed.
Print Assumptions C63_missing_refuted.
Example C63_C142_example : rectangular [[0; 1]; [2; 3]] 2 /\ length [5; 5] = 2%nat /\ accepted [1] 2 /\ positive [1] /\ ~ In [5; 5] [[0; 1]; [2; 3]] /\
  forall t, In t [[0; 1]; [2; 3]] -> forall j, (j < 2)%nat -> nth j [5; 5] 0 <> nth j t 0.
Proof.
  split; [repeat constructor|]. split; [reflexivity|]. split; [now left|]. split; [repeat constructor; lra|]. split.
  - intros [H|[H|[]]]; injection H; lra.
  - intros t [<-|[<-|[]]] [|[|j]] Hj; cbn; lra || lia.
Qed.

(** ** C137: the derivatives with respect to the parameters *)
Lemma sum3_const g th d : (forall a v, g a v v = 0) -> sum3 g th d d = 0.
Proof. intros H. revert d. induction th; intros [|]; cbn; auto. rewrite IHth, H. ring. Qed.
Definition wd (a v v' : R) : R := a * v.
Lemma sum_wd th l : sum (map2 Rmult th l) = sum3 wd th l l.
Proof. revert l. induction th; intros [|]; cbn; auto. unfold sum in *. cbn. rewrite IHth. reflexivity. Qed.
Lemma wd_d th l j : (j < length l)%nat -> length th = length l -> is_derive (fun u => sum3 wd (set_coord th j u) l l) (nth j th 0) (nth j l 0).
Proof.
  intros Hj L. apply (is_derive_ext (fun u => sum3 wd th l l - wd (nth j th 0) (nth j l 0) (nth j l 0) + wd u (nth j l 0) (nth j l 0))).
  { intros u. now rewrite sum3_set_th. }
  unfold wd. auto_derive; auto. ring.
Qed.
Lemma each_full th n : length th = n -> each th n = th.
Proof. intros <-. destruct th as [|a [|]]; reflexivity. Qed.
Lemma nth_map_R (f : R -> R) l j : (j < length l)%nat -> nth j (map f l) 0 = f (nth j l 0).
Proof. intros H. rewrite (nth_indep _ 0 (f 0)) by (rewrite map_length; auto). apply map_nth. Qed.
(** With one parameter for each feature, [corr_grad_theta] is the gradient in the parameters. *)
Theorem C137_anisotropic_partial k theta d r : (k = SqExp \/ k = AbsExp \/ k = Matern) -> length theta = length d -> positive theta -> corr k theta d = Some r ->
  exists g, corr_grad_theta k theta r d = Some g /\ has_gradient (fun th => corr k th d) theta g.
Proof.
  intros Hk L P H. assert (A : forall th, length th = length d -> accepted th (length d)) by (now right).
  destruct Hk as [->|[->| ->]]; (eexists; split; [reflexivity|]).
  - cbn [corr] in H. rewrite sq_each, each_full in H by auto.
    apply grad_intro with (F := fun th => exp (- sum3 wd th (map Rsqr d) (map Rsqr d))).
    + rewrite !map_length. auto.
    + intros j u Hj. cbn [corr]. rewrite sq_each, each_full by (rewrite ?set_coord_length by auto; auto; right; rewrite set_coord_length by auto; auto). now rewrite sum_wd.
    + intros j Hj. apply (ex_base _ _ _ _ (exp_d _ _ _ (wd_d theta (map Rsqr d) j ltac:(rewrite map_length; lia) ltac:(rewrite map_length; auto)))). rewrite set_coord_same by auto.
      rewrite sum_wd in H. inversion H. rewrite (nth_map_R (fun v => - v * _)) by (rewrite map_length; lia). ring.
  - cbn [corr] in H. rewrite abs_each, each_full in H by auto.
    apply grad_intro with (F := fun th => exp (- sum3 wd th (map Rabs d) (map Rabs d))).
    + rewrite !map_length. auto.
    + intros j u Hj. cbn [corr]. rewrite abs_each, each_full by (rewrite ?set_coord_length by auto; auto; right; rewrite set_coord_length by auto; auto). now rewrite sum_wd.
    + intros j Hj. apply (ex_base _ _ _ _ (exp_d _ _ _ (wd_d theta (map Rabs d) j ltac:(rewrite map_length; lia) ltac:(rewrite map_length; auto)))). rewrite set_coord_same by auto.
      rewrite sum_wd in H. inversion H. rewrite (nth_map_R (fun v => - sqrt v * _)) by (rewrite map_length; lia). rewrite !nth_map_R by lia. rewrite sqrt_Rsqr_abs. ring.
  - cbn [corr] in H. rewrite matern_each, each_full in H by auto. rewrite each_full by auto.
    apply grad_intro with (F := fun th => matern_of (sum3 wd th (map Rsqr d) (map Rsqr d))).
    + rewrite !map_length. auto.
    + intros j u Hj. cbn [corr]. rewrite matern_each, each_full by (rewrite ?set_coord_length by auto; auto; right; rewrite set_coord_length by auto; auto). now rewrite sum_wd.
    + intros j Hj. rewrite (nth_map_R (fun v => -3 * exp _ * v / 2)) by (rewrite map_length; lia). rewrite !sum_wd.
      assert (N : forall a, In a (map Rsqr d) -> 0 <= a) by (intros a Ha; apply in_map_iff in Ha as (b & <- & _); apply Rle_0_sqr).
      pose proof (wd_d theta (map Rsqr d) j ltac:(rewrite map_length; lia) ltac:(rewrite map_length; auto)) as W.
      destruct (Req_dec (sum3 wd theta (map Rsqr d) (map Rsqr d)) 0) as [Z|Z].
      * (* all distances are zero: the correlation is constant *)
        assert (G : forall l th, length th = length l -> positive th -> (forall a, In a l -> 0 <= a) -> 0 <= sum3 wd th l l /\ (sum3 wd th l l = 0 -> forall a, In a l -> a = 0)).
        { clear. induction l as [|b l IH]; intros [|c th] L P N; try discriminate; [cbn; split; [lra|intros _ a []]|]. inversion P; subst. cbn in L.
          destruct (IH th) as (I1 & I2); [lia|auto|intros; apply N; cbn; auto|]. assert (0 <= b) by (apply N; cbn; auto). cbn. unfold wd at 1 3. split; [nra|].
          intros E a [<-|Ha]; [nra|apply I2; auto; nra]. }
        destruct (G (map Rsqr d) theta) as (_ & G2); auto; [rewrite map_length; auto|]. specialize (G2 Z).
        assert (Zs : forall th, sum3 wd th (map Rsqr d) (map Rsqr d) = 0).
        { revert G2. generalize (map Rsqr d). clear. induction l as [|b l IH]; intros G2 [|c th]; cbn; auto. rewrite IH by (intros; apply G2; cbn; auto). unfold wd. rewrite (G2 b) by (cbn; auto). ring. }
        apply (is_derive_ext (fun _ => matern_of 0)); [intros u; now rewrite Zs|]. rewrite (G2 (nth j (map Rsqr d) 0)) by (apply nth_In; rewrite map_length; lia).
        replace (_ / 2) with (@zero R_NormedModule); [apply is_derive_const|]. unfold zero; cbn. lra.
      * assert (Pz : 0 < sum3 wd theta (map Rsqr d) (map Rsqr d)).
        { destruct (Rle_lt_or_eq_dec 0 (sum3 wd theta (map Rsqr d) (map Rsqr d))) as [|E]; auto; [|congruence]. rewrite <- sum_wd. apply sum_nonneg, Forall_map2. intros a b Ha Hb. unfold positive in P. rewrite Forall_forall in P. specialize (P a Ha). specialize (N b Hb). nra. }
        apply (ex_base _ _ _ _ (matern_d _ _ _ W ltac:(cbv beta; rewrite set_coord_same by auto; exact Pz))). rewrite set_coord_same by auto. set (e := exp _). clearbody e. lra.
Qed.
Print Assumptions C137_anisotropic_partial.
(** With one parameter for all features only the slice of the first feature is used. *)
Theorem C137_isotropic_refuted : exists theta d r g, length theta = 1%nat /\ positive theta /\ corr SqExp theta d = Some r /\
  corr_grad_theta SqExp theta r d = Some g /\
  (exists g', has_gradient (fun th => corr SqExp th d) theta g') /\
  ~ has_gradient (fun th => corr SqExp th d) theta (firstn (length theta) g).
Proof.
  exists [1], [1; 1], (exp (- 2)), [- exp (- 2); - exp (- 2)]. split; [reflexivity|]. split; [repeat constructor; lra|].
  assert (Q : forall u, corr SqExp [u] [1; 1] = Some (exp (- (2 * u)))) by (intros u; cbn; unfold sum, Rsqr; cbn; do 2 f_equal; ring).
  split; [rewrite Q; do 2 f_equal; ring|].
  split; [cbn; unfold Rsqr; repeat f_equal; ring|].
  assert (G : has_gradient (fun th => corr SqExp th [1; 1]) [1] [-2 * exp (- 2)]).
  { split; [reflexivity|]. intros [|j] Hj; [|cbn in Hj; lia]. exists (fun u => exp (- (2 * u))). split; [|apply filter_forall; intros u; apply Q].
    cbn [nth]. auto_derive; auto. replace (- (2 * 1)) with (- 2) by ring. ring. }
  split; [eauto|]. intros Z. pose proof (gradient_unique _ _ _ _ G Z) as U. cbn [firstn length] in U. inversion U as [V]. pose proof (exp_pos (-2)). change (- (2)) with (-2) in V. lra.
Qed.
Print Assumptions C137_isotropic_refuted.
Example C137_example : length [1; 2] = length [3; 0] /\ positive [1; 2] /\ corr Matern [1; 2] [3; 0] <> None.
Proof. repeat split; try discriminate. repeat constructor; lra. Qed.

(** ** C139: second derivatives *)
Definition dx_entry k theta X i l (z : list R) : option R :=
  match corr_dx k theta X z with Some rows => Some (nth l (nth i rows []) 0) | None => None end.
(** For the squared exponential with one parameter per feature [corr_Hessian] is the Jacobian of [corr_dx]. *)
Theorem C139_squared_exponential_partial theta X x n : rectangular X n -> length x = n -> length theta = n ->
  exists H, corr_Hessian SqExp theta X x = Some H /\ length H = length X /\
    forall i l, (i < length X)%nat -> (l < n)%nat ->
      has_gradient (dx_entry SqExp theta X i l) x (map (fun k => nth i H (fun _ _ => 0) k l) (seq 0 n)).
Proof.
  intros HX Hx Hn. unfold corr_Hessian. destruct (Nat.ltb_spec (length theta) (length x)); [lia|].
  assert (A : accepted theta n) by (now right). destruct (corr_rows SqExp theta X x n) as (r & Er); auto; [discriminate|]. rewrite Er. eexists. split; [reflexivity|].
  assert (Lr : length r = length X) by (apply sequence_some in Er; rewrite <- (map_length Some r), <- Er, map_length; auto).
  split; [rewrite map2_length; lia|]. intros i l Hi Hl. destruct (corr_row _ _ _ _ _ _ _ HX Er Hi) as (_ & Ci).
  assert (Lt : length (nth i X []) = length x) by (unfold rectangular in HX; rewrite Forall_forall in HX; rewrite Hx; apply HX, nth_In; auto). set (t := nth i X []) in *.
  rewrite sq_at in Ci by (auto; now rewrite Hx). rewrite each_full in Ci by lia. assert (Ri : nth i r 0 = exp (- sum3 wsq theta x t)) by congruence.
  apply grad_intro with (F := fun z => -2 * exp (- sum3 wsq theta z t) * (nth l theta 0 * (nth l z 0 - nth l t 0))).
  - rewrite map_length, seq_length. auto.
  - intros j u Hj. set (z := set_coord x j u). assert (Lz : length z = n) by (unfold z; rewrite set_coord_length; auto). unfold dx_entry, corr_dx.
    destruct (corr_rows SqExp theta X z n) as (r' & Er'); auto; [discriminate|]. rewrite Er'. destruct (corr_row _ _ _ _ _ _ _ HX Er' Hi) as (Lr' & Ci').
    rewrite nth_map2_rows by auto. fold t. fold t in Ci'. rewrite sq_at in Ci' by (auto; try lia; now rewrite Lz). rewrite each_full in * by lia. inversion Ci' as [E'].
    rewrite (map2_nth _ _ _ _ 0 0) by (rewrite ?map2_length; lia). rewrite (map2_nth Rminus z t l 0 0) by lia. reflexivity.
  - intros j Hj. match goal with |- context [nth j (map ?f (seq 0 n)) 0] => rewrite (nth_indep (map f (seq 0 n)) 0 (f 0%nat)) by (rewrite map_length, seq_length; lia); rewrite (map_nth f); cbv beta end.
    rewrite seq_nth by lia. change (0 + j)%nat with j. rewrite (map2_nth _ _ _ _ 0 []) by lia. fold t. rewrite !(map2_nth Rminus x t _ 0 0) by lia. rewrite Ri.
    pose proof (exp_d _ _ _ (wsq_d theta x t j Hj ltac:(lia) Lt)) as D. cbv beta in D. rewrite set_coord_same in D by auto.
    set (E := fun u => exp (- sum3 wsq theta (set_coord x j u) t)) in *. assert (Ex : E (nth j x 0) = exp (- sum3 wsq theta x t)) by (unfold E; now rewrite set_coord_same).
    rewrite <- Ex in D |- *. change (0 + j)%nat with j. destruct (Nat.eqb_spec j l) as [->|Nl].
    + apply (is_derive_ext (fun u => -2 * E u * (nth l theta 0 * (u - nth l t 0)))). { intros u. unfold E. now rewrite nth_set_coord, Nat.eqb_refl by auto. }
      assert (D' : is_derive E (nth l x 0) (- E (nth l x 0) * (2 * nth l theta 0 * (nth l x 0 - nth l t 0)))) by exact D. clear D Ex. clearbody E.
      auto_derive; [eexists; exact D'|]. replace (Derive (fun u => E u) (nth l x 0)) with (- E (nth l x 0) * (2 * nth l theta 0 * (nth l x 0 - nth l t 0))) by (symmetry; now apply (is_derive_unique E)). ring.
    + apply (is_derive_ext (fun u => -2 * E u * (nth l theta 0 * (nth l x 0 - nth l t 0)))). { intros u. unfold E. rewrite nth_set_coord by auto. destruct (Nat.eqb_spec l j); [congruence|reflexivity]. }
      assert (D' : is_derive E (nth j x 0) (- E (nth j x 0) * (2 * nth j theta 0 * (nth j x 0 - nth j t 0)))) by exact D. clear D Ex. clearbody E.
      auto_derive; [eexists; exact D'|]. replace (Derive (fun u => E u) (nth j x 0)) with (- E (nth j x 0) * (2 * nth j theta 0 * (nth j x 0 - nth j t 0))) by (symmetry; now apply (is_derive_unique E)). ring.
Qed.
Print Assumptions C139_squared_exponential_partial.
(** With one parameter for several features, or with the default Matern function, it raises. *)
Theorem C139_refuted : (forall t0 X x, (1 < length x)%nat -> corr_Hessian SqExp [t0] X x = None) /\
  (forall theta X x, corr_Hessian Matern theta X x = None).
Proof. split; intros; auto. unfold corr_Hessian. cbn [length]. destruct (Nat.ltb_spec 1 (length x)); [auto|lia]. Qed.
Print Assumptions C139_refuted.
Example C139_example : rectangular [[0; 1]; [2; 3]] 2 /\ length [5; 5] = 2%nat /\ length [1; 2] = 2%nat.
Proof. repeat constructor. Qed.

(** ** C141: the scikit-learn wrapper *)
Definition wl (l u v : R) : R := (u - v) / l * ((u - v) / l).
Lemma sum_wl ell x t : sum (map2 (fun l v => v / l * (v / l)) ell (map2 Rminus x t)) = sum3 wl ell x t.
Proof. revert x t. induction ell as [|a th IH]; intros [|b x] [|c t]; cbn; auto. unfold sum in *. cbn. rewrite IH. reflexivity. Qed.
Lemma wl_d ell x t j : (j < length x)%nat -> length ell = length x -> length t = length x -> 0 < nth j ell 0 ->
  is_derive (fun u => sum3 wl ell (set_coord x j u) t) (nth j x 0) (2 * (nth j x 0 - nth j t 0) / (nth j ell 0 * nth j ell 0)).
Proof.
  intros Hj L1 L2 P. apply (is_derive_ext (fun u => sum3 wl ell x t - wl (nth j ell 0) (nth j x 0) (nth j t 0) + wl (nth j ell 0) u (nth j t 0))).
  { intros u. now rewrite sum3_set. }
  unfold wl. auto_derive; auto. field. lra.
Qed.
Definition sk_of (k : sk_kernel) (s2 d : R) : R :=
  s2 * match k with
       | Matern12 => exp (- d)
       | Matern32 => (1 + sqrt 3 * d) * exp (- (sqrt 3 * d))
       | Matern52 => (1 + sqrt 5 * d + 5 / 3 * (d * d)) * exp (- (sqrt 5 * d))
       | RBF => exp (- (d * d) / 2)
       end.
Lemma sk_nonzero k s2 ell x t (r : R -> R) (dr : R) j : (j < length x)%nat -> length ell = length x -> length t = length x -> k <> RBF -> 0 < nth j ell 0 ->
  0 < r (nth j x 0) -> r (nth j x 0) = sk_distance ell x t -> is_derive r (nth j x 0) dr ->
  dr = (nth j x 0 - nth j t 0) / (r (nth j x 0) * (nth j ell 0 * nth j ell 0)) ->
  is_derive (fun u => sk_of k s2 (r u)) (nth j x 0) (nth j (kernel_dx k s2 ell x t) 0).
Proof.
  intros Hj L1 L2 Hk Pl Pr Er D Edr. unfold kernel_dx. rewrite <- Er. rewrite nth_map_R by (rewrite !map2_length; lia).
  rewrite (map2_nth _ _ _ _ 0 0) by (rewrite ?map2_length; lia). rewrite (map2_nth Rminus x t j 0 0) by lia.
  unfold safe_divide. destruct (Req_EM_T (r (nth j x 0) * (nth j ell 0 * nth j ell 0)) 0) as [Z|_].
  { exfalso. assert (0 < r (nth j x 0) * (nth j ell 0 * nth j ell 0)) by (apply Rmult_lt_0_compat; auto; nra). lra. }
  rewrite <- Edr. clear Edr Er L1 L2 Pl. set (x0 := nth j x 0) in *. clearbody x0. destruct k; unfold sk_of; try congruence.
  - auto_derive; [eexists; exact D|]. replace (Derive (fun u => r u) x0) with dr by (symmetry; now apply (is_derive_unique r)). set (e := exp _). ring.
  - auto_derive; [repeat split; auto; eexists; exact D|]. replace (Derive (fun u => r u) x0) with dr by (symmetry; now apply (is_derive_unique r)).
    replace (- (sqrt 3 * r x0)) with (- sqrt 3 * r x0) by ring. set (e := exp _). clearbody e. pose proof sqrt3_sq as Q3. set (q := sqrt 3) in *. clearbody q.
    transitivity (- (q * q) * s2 * e * r x0 * dr); [ring|]. rewrite Q3. ring.
  - auto_derive; [repeat split; auto; eexists; exact D|]. replace (Derive (fun u => r u) x0) with dr by (symmetry; now apply (is_derive_unique r)).
    replace (- (sqrt 5 * r x0)) with (- sqrt 5 * r x0) by ring. set (e := exp _). clearbody e. pose proof sqrt5_sq as Q3. set (q := sqrt 5) in *. clearbody q.
    transitivity ((- (q * q) + 10 / 3 - 5 / 3 * q * r x0) * s2 * e * r x0 * dr); [field|]. rewrite Q3. field.
Qed.
Lemma sk_flat k s2 d : (k = Matern32 \/ k = Matern52) -> 0 <= d -> Rabs (sk_of k s2 d - sk_of k s2 0) <= Rabs s2 * (5 * (d * d)).
Proof.
  intros Hk Hd.
  assert (G : forall q c e, 0 <= c <= 5 / 3 -> 0 < q -> q * q <= 5 -> e = exp (- (q * d)) ->
     Rabs ((1 + q * d + c * (d * d)) * e - 1) <= 5 * (d * d)).
  { intros q c e Hc Hq Hq5 ->. assert (Pa : 0 <= q * d) by (apply Rmult_le_pos; lra).
    assert (Lo : 1 - q * d <= exp (- (q * d))). { destruct (Req_dec (q * d) 0) as [Z|]; [rewrite Z, Ropp_0, exp_0; lra|]. left. apply (exp_ineq1 (- (q * d))). lra. }
    pose proof (one_plus_exp (q * d) Pa) as (_ & U). pose proof (exp_range (q * d) Pa) as (P0 & P1). set (e := exp _) in *. clearbody e. assert (0 <= d * d) by nra.
    assert (M : q * d * (q * d) <= 5 * (d * d)) by (replace (q * d * (q * d)) with (q * q * (d * d)) by ring; apply Rmult_le_compat_r; auto).
    assert (B1 : 0 <= c * (d * d) * e <= 5 / 3 * (d * d)).
    { split; [apply Rmult_le_pos; [apply Rmult_le_pos; lra|lra]|]. apply Rle_trans with (c * (d * d) * 1); [apply Rmult_le_compat_l; [apply Rmult_le_pos; lra|lra]|]. rewrite Rmult_1_r. apply Rmult_le_compat_r; lra. }
    assert (B2 : (1 + q * d) * (1 - q * d) <= (1 + q * d) * e) by (apply Rmult_le_compat_l; lra).
    replace ((1 + q * d + c * (d * d)) * e - 1) with ((1 + q * d) * e - 1 + c * (d * d) * e) by ring. apply Rabs_le. nra. }
  unfold sk_of. rewrite <- Rmult_minus_distr_l, Rabs_mult. apply Rmult_le_compat_l; [apply Rabs_pos|].
  destruct Hk as [-> | ->]; rewrite !Rmult_0_r, Ropp_0, exp_0.
  - replace (_ - _) with ((1 + sqrt 3 * d + 0 * (d * d)) * exp (- (sqrt 3 * d)) - 1) by ring. apply G; auto; try lra. apply sqrt3_pos. rewrite sqrt3_sq; lra.
  - replace (_ - _) with ((1 + sqrt 5 * d + 5 / 3 * (d * d)) * exp (- (sqrt 5 * d)) - 1) by ring. apply G; auto; try lra. apply sqrt5_pos. rewrite sqrt5_sq; lra.
Qed.
Lemma wl_nonneg ell x t : 0 <= sum3 wl ell x t.
Proof. apply sum3_nonneg. intros. unfold wl. apply Rle_0_sqr. Qed.
Lemma wl_zero ell x t : positive ell -> length ell = length x -> length t = length x -> sum3 wl ell x t = 0 -> x = t.
Proof.
  intros P L1 L2 Z. apply (nth_ext _ _ 0 0); auto. intros j Hj.
  assert (E : wl (nth j ell 0) (nth j x 0) (nth j t 0) = 0) by (apply sum3_zero; auto; intros; unfold wl; apply Rle_0_sqr).
  unfold positive in P. rewrite Forall_forall in P. assert (0 < nth j ell 0) by (apply P, nth_In; lia). unfold wl in E. apply Rmult_integral in E.
  assert (F : (nth j x 0 - nth j t 0) / nth j ell 0 = 0) by tauto. apply (Rmult_eq_compat_r (nth j ell 0)) in F. unfold Rdiv in F. rewrite Rmult_assoc, Rinv_l in F by lra. lra.
Qed.
(** C141: [kernel_dx] is the gradient of the Matern kernels with nu = 3/2 (the one that is fitted) and
    5/2 everywhere, training points included, and of nu = 1/2 away from the training point. *)
Theorem C141_matern k s2 ell x t : k <> RBF -> (k = Matern12 -> x <> t) -> positive ell -> length ell = length x -> length t = length x ->
  has_gradient (fun z => Some (sk_value k s2 ell z t)) x (kernel_dx k s2 ell x t).
Proof.
  intros Hk H12 P L1 L2. apply grad_intro with (F := fun z => sk_value k s2 ell z t).
  - unfold kernel_dx. rewrite map_length, !map2_length. lia.
  - auto.
  - intros j Hj. assert (Pl : 0 < nth j ell 0) by (unfold positive in P; rewrite Forall_forall in P; apply P, nth_In; lia).
    set (s := fun u => sum3 wl ell (set_coord x j u) t).
    apply (is_derive_ext (fun u => sk_of k s2 (sqrt (s u)))). { intros u. unfold sk_value, sk_of, sk_distance, s. now rewrite sum_wl. }
    assert (Sx : s (nth j x 0) = sum3 wl ell x t) by (unfold s; now rewrite set_coord_same).
    assert (D : is_derive s (nth j x 0) (2 * (nth j x 0 - nth j t 0) / (nth j ell 0 * nth j ell 0))) by (apply wl_d; auto).
    destruct (Req_dec (sum3 wl ell x t) 0) as [Z|Z].
    + assert (x = t) by (apply (wl_zero ell); auto). assert (K : k = Matern32 \/ k = Matern52) by (destruct k; auto; exfalso; [now apply H12|now apply Hk]).
      assert (E0 : nth j (kernel_dx k s2 ell x t) 0 = 0).
      { unfold kernel_dx. rewrite nth_map_R by (rewrite !map2_length; lia). unfold sk_distance. rewrite sum_wl, Z, sqrt_0. destruct K as [-> | ->]; ring. }
      rewrite E0. apply flat_derive with (C := Rabs s2 * (5 / (nth j ell 0 * nth j ell 0))). intros u.
      rewrite Sx, Z, sqrt_0. apply Rle_trans with (1 := sk_flat k s2 (sqrt (s u)) K (sqrt_pos _)). apply Req_le. rewrite sqrt_sqrt by apply wl_nonneg.
      unfold s. rewrite sum3_set by auto. rewrite Z. subst t. unfold wl. field. lra.
    + pose proof (wl_nonneg ell x t) as N. assert (Ps : 0 < s (nth j x 0)) by lra.
      pose proof (sqrt_d s _ _ D Ps) as Dr. apply (sk_nonzero k s2 ell x t (fun u => sqrt (s u)) (2 * (nth j x 0 - nth j t 0) / (nth j ell 0 * nth j ell 0) / (2 * sqrt (s (nth j x 0)))) j Hj L1 L2 Hk Pl); [now apply sqrt_lt_R0| |exact Dr|].
      * unfold sk_distance. rewrite sum_wl, Sx. reflexivity.
      * field. split; [lra|]. apply Rgt_not_eq. now apply sqrt_lt_R0.
Qed.
Print Assumptions C141_matern.
(** For the squared exponential (RBF) kernel a factor, the distance, is missing. *)
Theorem C143_rbf_refuted : exists s2 ell x t, positive ell /\ length ell = length x /\ length t = length x /\ x <> t /\
  (exists g, has_gradient (fun z => Some (sk_value RBF s2 ell z t)) x g) /\
  ~ has_gradient (fun z => Some (sk_value RBF s2 ell z t)) x (kernel_dx RBF s2 ell x t).
Proof.
  exists 1, [1], [2], [0]. split; [repeat constructor; lra|]. split; [reflexivity|]. split; [reflexivity|]. split; [intros H; injection H; lra|].
  assert (V : forall u, sk_value RBF 1 [1] [u] [0] = exp (- (u * u) / 2)).
  { intros u. unfold sk_value, sk_distance. cbn. unfold sum. cbn. replace ((u - 0) / 1 * ((u - 0) / 1) + 0) with (u * u) by field. rewrite sqrt_sqrt by nra. ring. }
  assert (G : has_gradient (fun z => Some (sk_value RBF 1 [1] z [0])) [2] [-2 * exp (-2)]).
  { split; [reflexivity|]. intros [|j] Hj; [|cbn in Hj; lia]. exists (fun u => exp (- (u * u) / 2)). split; [|apply filter_forall; intros u; cbn [set_coord firstn skipn app]; unfold set_coord; cbn [firstn skipn app]; now rewrite V].
    cbn [nth]. auto_derive; auto. replace (- (2 * 2) * / 2) with (-2) by field. set (e := exp _). field. }
  split; [eauto|]. intros Z. pose proof (gradient_unique _ _ _ _ G Z) as U. unfold kernel_dx, sk_distance in U. cbn in U. unfold sum in U. cbn in U.
  replace ((2 - 0) / 1 * ((2 - 0) / 1) + 0) with (2 * 2) in U by field. rewrite sqrt_square in U by lra. unfold safe_divide in U. destruct (Req_EM_T (2 * (1 * 1)) 0); [lra|].
  inversion U as [W]. replace (- (2 * 2) / 2) with (-2) in W by field. pose proof (exp_pos (-2)). set (e := exp (-2)) in *. clearbody e. field_simplify in W. lra.
Qed.
Print Assumptions C143_rbf_refuted.
Example C141_example : Matern32 <> RBF /\ (Matern32 = Matern12 -> [1] <> [1]) /\ positive [2] /\ length [2] = length [1].
Proof. repeat split; try discriminate. repeat constructor. lra. Qed.
