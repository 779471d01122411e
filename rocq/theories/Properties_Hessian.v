(** The Hessian of the predicted mean (C246, C247). *)
From Coq Require Import Reals List Arith Bool Lra Lia.
From Coquelicot Require Import Coquelicot.
From Verif Require Import Model_Kernel Spec_Kernel Proofs_Kernel Properties_KernelGrad Model_Hessian Spec_Hessian Proofs_Hessian.
Import ListNotations.
Open Scope R_scope.

(** The shapes of the attributes of a model with [n] features. *)
Definition well_shaped (g : gp) (n : nat) : Prop :=
  rectangular (X g) n /\ accepted (theta g) n /\ length (gamma g) = length (X g) /\ length (beta g) = n_dim (tr g) n.

(** ** C246: the entries are the second derivatives of the mean. *)
Theorem C246_squared_exponential_partial g n x : well_shaped g n -> kern g = SqExp -> tr g <> Quadratic -> length (theta g) = n ->
  length x = n -> exists H, hessian g x = Some H /\ second_derivatives n (mean g) x H.
Proof.
  intros (HX & _ & Lg & Lb) K T Lt Lx. destruct (corr_part_sq g n x K HX Lt Lx) as (H & EH & VH).
  exists (fun k l => dot (repeat 0 (length (beta g))) (beta g) + H k l). split. { unfold hessian. rewrite EH. destruct (tr g); cbn; congruence. }
  assert (RX : forall t, In t (X g) -> length t = n) by (unfold rectangular in HX; rewrite Forall_forall in HX; exact HX).
  exists (fun z => map (fun l => slope (tr g) (beta g) l + dot (map (term1 (theta g) z l) (X g)) (gamma g)) (seq 0 n)). split.
  - intros z Hz. apply grad_intro with (F := fun y => dot (basis (tr g) y) (beta g) + dot (map (term (theta g) y) (X g)) (gamma g)).
    + rewrite map_length, seq_length. auto.
    + intros j t Hj. apply (mean_sq g n); auto. now rewrite set_coord_length.
    + intros j Hj. match goal with |- context [nth j (map ?f (seq 0 n)) 0] => rewrite (nth_indep (map f (seq 0 n)) 0 (f 0%nat)) by (rewrite map_length, seq_length; lia); rewrite (map_nth f); cbv beta end.
      rewrite seq_nth by lia. change (0 + j)%nat with j.
      apply (is_derive_plus (fun t => dot (basis (tr g) (set_coord z j t)) (beta g))).
      * apply slope_d; auto. now rewrite Hz.
      * apply (ex_base _ _ _ _ (dot_map_d (fun a v => term (theta g) (set_coord z j v) a) (fun a _ => term1 (theta g) z j a) (X g) (gamma g) (nth j z 0)
          ltac:(intros a Ha; apply term_d; auto; rewrite ?(RX a Ha); lia))). reflexivity.
  - intros l Hl. apply grad_intro with (F := fun y => slope (tr g) (beta g) l + dot (map (term1 (theta g) y l) (X g)) (gamma g)).
    + rewrite map_length, seq_length. auto.
    + intros j t Hj. rewrite nth_error_map. rewrite (nth_error_nth' _ 0%nat) by (rewrite seq_length; auto). rewrite seq_nth by auto. reflexivity.
    + intros j Hj. match goal with |- context [nth j (map ?f (seq 0 n)) 0] => rewrite (nth_indep (map f (seq 0 n)) 0 (f 0%nat)) by (rewrite map_length, seq_length; lia); rewrite (map_nth f); cbv beta end.
      rewrite seq_nth by lia. change (0 + j)%nat with j. rewrite dot_zeros, VH by lia.
      apply (is_derive_plus (fun _ => slope (tr g) (beta g) l)); [exact (is_derive_const _ _)|].
      apply (ex_base _ _ _ _ (dot_map_d (fun a v => term1 (theta g) (set_coord x j v) l a) (fun a _ => term2 (theta g) x j l a) (X g) (gamma g) (nth j x 0)
          ltac:(intros a Ha; apply term1_d; auto; rewrite ?(RX a Ha); lia))). reflexivity.
Qed.
Print Assumptions C246_squared_exponential_partial.
Example C246_example : well_shaped (GP SqExp [1; 2] [[0; 1]; [2; 3]] LinearT [1; 2; 3] [4; 5]) 2.
Proof. repeat split; try (right; reflexivity). repeat constructor. Qed.

(** The other configurations raise: the default Matern function, the generalized exponential and the cubic one, one parameter for
    several features, a quadratic trend, and the absolute exponential with several training points where no coordinate of the
    query is one of the first training point. *)
Theorem C246_raises_refuted g n x : well_shaped g n -> length x = n ->
  (kern g = Matern \/ kern g = GenExp \/ kern g = Cubic \/ kern g = SqExp /\ (length (theta g) < n)%nat \/ tr g = Quadratic \/
   kern g = AbsExp /\ (1 < length (X g))%nat /\ (forall j, (j < n)%nat -> nth j x 0 <> nth j (nth 0 (X g) []) 0)) ->
  hessian g x = None.
Proof.
  intros (HX & _ & _ & _) Lx C. unfold hessian. destruct (trend_Hessian (tr g) (beta g)) as [TT|] eqn:T; auto. unfold corr_part, corr_Hessian.
  destruct C as [K | [K | [K | [(K & L) | [Q | (K & L & N)]]]]]; rewrite ?K; auto.
  - destruct (Nat.ltb_spec (length (theta g)) (length x)); [auto|lia].
  - rewrite Q in T. discriminate.
  - destruct (X g) as [|t [|t' X']] eqn:EX; try (cbn in L; lia). destruct (sequence _) as [r|]; auto.
    assert (Lt : length t = n) by (unfold rectangular in HX; rewrite Forall_forall in HX; apply HX; left; auto).
    destruct (existsb _ _) eqn:E.
    + apply existsb_exists in E as (v & Iv & Ev). destruct (In_nth _ _ 0 Iv) as (j & Hj & Nj). rewrite map2_length, Lx, Lt, Nat.min_id in Hj.
      rewrite diff_nth in Nj by lia. specialize (N j Hj). cbn [nth] in N. destruct (Req_EM_T v 0); [|discriminate]. lra.
    + destruct r as [|? [|? ?]]; auto.
Qed.
Print Assumptions C246_raises_refuted.
(** The absolute exponential returns zeros where the query shares a coordinate with the first training point, although the mean has a
    second derivative along the other coordinate that is not zero. *)
Theorem C246_zeros_refuted : exists g x H v, well_shaped g 2 /\ positive (theta g) /\ kern g = AbsExp /\ hessian g x = Some H /\
  second_derivative (mean g) x 1 v /\ H 1%nat 1%nat <> v.
Proof.
  exists (GP AbsExp [1; 1] [[0; 0]; [2; 0]] Constant [0] [1; 1]), [0; 1], (fun _ _ => dot (repeat 0 1) [0] + 0), (exp (- 1) + exp (- 3)).
  repeat apply conj; try (right; reflexivity); try reflexivity; try (repeat constructor; lra).
  - unfold hessian, trend_Hessian, corr_part. cbn [kern theta X beta tr gamma]. rewrite (sequence_total _ (fun t => exp (- sum (map2 Rmult [1; 1] (map Rabs (absdiff [0; 1] t)))))).
    2:{ intros t [<- | [<- | []]]; reflexivity. }
    cbn [map2 existsb]. destruct (Req_EM_T (0 - 0) 0); [|exfalso; lra]. reflexivity.
  - exists (fun t => exp (- Rabs t) + exp (- (2 + Rabs t))), (fun t => - exp (- t) - exp (- (2 + t))). cbn [nth]. split; [|split].
    + intros t. unfold mean. cbn [kern theta X beta tr gamma]. cbn. unfold dot, sum. cbn. f_equal.
      rewrite !Rminus_0_r. unfold Rminus. rewrite Rplus_0_l. rewrite !Rabs_R0, ?Rabs_Rabsolu, ?Rabs_Ropp, (Rabs_pos_eq 2) by lra.
      replace (- (1 * 0 + (1 * Rabs t + 0))) with (- Rabs t) by ring. replace (- (1 * 2 + (1 * Rabs t + 0))) with (- (2 + Rabs t)) by ring. ring.
    + apply (filter_imp (fun t => 0 < t)); [|apply open_gt; lra]. intros t Ht.
      apply (is_derive_ext_loc (fun t => exp (- t) + exp (- (2 + t)))).
      { apply (filter_imp (fun t => 0 < t)); [intros u Hu; now rewrite Rabs_pos_eq by lra|]. apply open_gt; lra. }
      auto_derive; auto. ring.
    + auto_derive; auto. replace (- (1)) with (-1) by ring. replace (- (2 + 1)) with (-3) by ring. ring.
  - rewrite dot_zeros. pose proof (exp_pos (- 1)). pose proof (exp_pos (- 3)). lra.
Qed.
Print Assumptions C246_zeros_refuted.

(** ** C247: what is returned is symmetric. *)
Theorem C247_symmetric g n x H : well_shaped g n -> length x = n -> hessian g x = Some H ->
  forall k l, (k < n)%nat -> (l < n)%nat -> H k l = H l k.
Proof.
  intros (HX & A & _) Lx E k l Hk Hl. unfold hessian in E. destruct (trend_Hessian (tr g) (beta g)) as [T|] eqn:ET; [|discriminate].
  assert (ST : T k l = T l k) by (unfold trend_Hessian in ET; destruct (tr g); inversion ET; reflexivity).
  destruct (corr_part g x) as [C|] eqn:EC; [|discriminate]. injection E as <-. rewrite ST. f_equal.
  destruct (kern g) eqn:K; try (unfold corr_part, corr_Hessian in EC; rewrite K in EC; discriminate).
  - unfold corr_part in EC. rewrite K in EC. destruct (sequence _) as [r|]; [|discriminate]. destruct (X g) as [|t X']; [discriminate|].
    destruct (existsb _ _); [injection EC as <-; reflexivity|]. destruct r as [|r0 [|]]; try discriminate. destruct X'; try discriminate. destruct (theta g) as [|a [|]]; try discriminate.
    destruct (map2 Rminus x t) as [|v [|]]; try discriminate. injection EC as <-. reflexivity.
  - destruct (Nat.ltb_spec (length (theta g)) n) as [L|L]; [unfold corr_part, corr_Hessian in EC; rewrite K, Lx in EC; destruct (Nat.ltb_spec (length (theta g)) n); [discriminate|lia]|].
    assert (Lt : length (theta g) = n) by (destruct A as [A|A]; lia).
    destruct (corr_part_sq g n x K HX Lt Lx) as (C' & EC' & V). assert (C = C') by congruence. subst C'. rewrite !V by auto. apply dot_ext. intros t _.
    unfold term2. rewrite (Nat.eqb_sym l k). destruct (Nat.eqb_spec k l) as [->|]; ring.
Qed.
Print Assumptions C247_symmetric.
Example C247_example : exists H, hessian (GP SqExp [1; 2] [[2; 3]] LinearT [1; 2; 3] [4]) [1; 1] = Some H /\ H 0%nat 1%nat <> 0.
Proof.
  eexists. split; [reflexivity|]. cbv beta. unfold dot, sum. cbn. match goal with |- context [exp ?a] => pose proof (exp_pos a) as P; set (e := exp a) in * end.
  clearbody e. lra.
Qed.
