(** Properties of the correlation functions (C62, C136, C140). *)
From Coq Require Import Reals List Arith Bool Lra Lia Psatz FinFun.
From Coquelicot Require Import Coquelicot.
From Verif Require Import Model_Kernel Spec_Kernel Proofs_Kernel.
Import ListNotations.
Open Scope R_scope.

(** ** The correlation matrix *)
Lemma mset_eq M i j v : mset M i j v i j = v.
Proof. unfold mset. now rewrite !Nat.eqb_refl. Qed.
Lemma mset_ne M i j v a b : (a, b) <> (i, j) -> mset M i j v a b = M a b.
Proof. intros H. unfold mset. destruct (Nat.eqb_spec a i), (Nat.eqb_spec b j); auto. subst. congruence. Qed.
Lemma assign_out ij r M a b : ~ In (a, b) ij -> assign ij r M a b = M a b.
Proof.
  revert r M. induction ij as [|q ij IH]; intros [|v r] M H; auto. cbn in H. change (assign (q :: ij) (v :: r) M) with (assign ij r (mset M (fst q) (snd q) v)).
  rewrite IH by tauto. apply mset_ne. destruct q; cbn. intros E. apply H. left. congruence.
Qed.
Lemma assign_in ij r M n : NoDup ij -> length r = length ij -> (n < length ij)%nat ->
  assign ij r M (fst (nth n ij (0, 0)%nat)) (snd (nth n ij (0, 0)%nat)) = nth n r 0.
Proof.
  revert r M n. induction ij as [|q ij IH]; intros [|v r] M n ND L H; cbn [length] in *; try lia.
  change (assign (q :: ij) (v :: r) M) with (assign ij r (mset M (fst q) (snd q) v)). inversion ND; subst. destruct n as [|n]; cbn [nth].
  - rewrite assign_out by (now rewrite <- surjective_pairing). apply mset_eq.
  - apply IH; auto; lia.
Qed.
(** The rows of [cross_distances]: every pair i < j once, with the distance of the two points. *)
Lemma block_row X k q : In q (block X k) -> exists j, (k < j < length X)%nat /\ q = (absdiff (nth k X []) (nth j X []), (k, j)).
Proof. intros H. apply in_map_iff in H as (j & <- & Hj). apply in_seq in Hj. exists j. split; auto. lia. Qed.
Lemma cross_row X q : In q (cross_distances X) -> exists i j, (i < j < length X)%nat /\ q = (absdiff (nth i X []) (nth j X []), (i, j)).
Proof. intros H. apply in_flat_map in H as (k & Hk & H). apply block_row in H as (j & Hj & ->). eauto. Qed.
Lemma cross_all X i j : (i < j < length X)%nat -> In (absdiff (nth i X []) (nth j X []), (i, j)) (cross_distances X).
Proof. intros H. apply in_flat_map. exists i. split; [apply in_seq; lia|]. apply in_map_iff. exists j. split; auto. apply in_seq. lia. Qed.
Lemma cross_nodup X : NoDup (map snd (cross_distances X)).
Proof.
  unfold cross_distances. generalize (seq_NoDup (length X - 1) 0). generalize (seq 0 (length X - 1)). intros l ND. induction ND as [|k l Hk _ IH]; cbn; [constructor|].
  rewrite map_app. assert (G : forall (a b : list (nat * nat)), NoDup a -> NoDup b -> (forall q, In q a -> ~ In q b) -> NoDup (a ++ b)).
  { induction a; cbn; intros b Na Nb D; auto. inversion Na; subst. constructor; [rewrite in_app_iff; intros [?|?]; [auto|apply (D a); auto]|]. apply IHa; auto. }
  apply G; auto.
  - unfold block. rewrite map_map. cbn. apply FinFun.Injective_map_NoDup; [intros a b E; congruence|apply seq_NoDup].
  - intros q Hq Hq'. apply in_map_iff in Hq as (r & <- & Hr). apply block_row in Hr as (j & _ & ->). cbn in Hq'.
    apply in_map_iff in Hq' as (r' & E & Hr'). apply in_flat_map in Hr' as (k' & Hk' & Hr'). apply block_row in Hr' as (j' & _ & ->). cbn in E. inversion E; subst. auto.
Qed.

(** C62: the correlation matrix is symmetric with unit diagonal, and its other entries are the
    correlation function of the componentwise distances of the two points. *)
Theorem C62_correlation_matrix k theta X M : correlation_matrix k theta X = Some M ->
  forall i j, (i < length X)%nat -> (j < length X)%nat ->
    M i j = M j i /\ M i i = 1 /\
    (i <> j -> corr k theta (map2 (fun a b => Rabs (a - b)) (nth i X []) (nth j X [])) = Some (M i j)).
Proof.
  intros E. unfold correlation_matrix in E. destruct (sequence _) as [r|] eqn:Er; [|discriminate]. apply sequence_some in Er.
  inversion E; subst M; clear E. set (ij := map snd (cross_distances X)). set (ji := map (fun q => (snd q, fst q)) ij).
  assert (Lr : length r = length ij) by (unfold ij; rewrite <- (map_length Some r), <- Er, !map_length; auto).
  assert (ND : NoDup ij) by apply cross_nodup.
  assert (NDi : NoDup ji) by (unfold ji; apply FinFun.Injective_map_NoDup; [intros [? ?] [? ?]; cbn; congruence|auto]).
  assert (Lt : forall q, In q ij -> (fst q < snd q)%nat).
  { intros q Hq. apply in_map_iff in Hq as (w & <- & Hw). apply cross_row in Hw as (a & b & ? & ->). cbn. lia. }
  assert (Ltj : forall q, In q ji -> (snd q < fst q)%nat).
  { intros q Hq. apply in_map_iff in Hq as (w & <- & Hw). cbn. auto. }
  assert (Pair : forall a b, (a < b < length X)%nat ->
     exists v, corr k theta (absdiff (nth a X []) (nth b X [])) = Some v /\ assign ji r (assign ij r eye) a b = v /\ assign ji r (assign ij r eye) b a = v).
  { intros a b Hab. destruct (In_nth _ _ ([], (0, 0)%nat) (cross_all X a b Hab)) as (n & Hn & Nn).
    assert (Nij : nth n ij (0, 0)%nat = (a, b)) by (unfold ij; change (0, 0)%nat with (snd (([] : list R), (0, 0)%nat)); rewrite map_nth, Nn; auto).
    assert (Nji : nth n ji (0, 0)%nat = (b, a)).
    { unfold ji. change (0, 0)%nat with ((fun q : nat * nat => (snd q, fst q)) (0, 0)%nat). rewrite map_nth, Nij. auto. }
    assert (Ln : (n < length ij)%nat) by (unfold ij; rewrite map_length; auto).
    exists (nth n r 0). split; [|split].
    - assert (W : nth n (map Some r) None = Some (nth n r 0)) by (rewrite (nth_indep _ None (Some 0)) by (rewrite map_length; lia); apply map_nth).
      rewrite <- Er in W. rewrite (nth_indep _ None (corr k theta (fst (([] : list R), (0, 0)%nat)))) in W by (rewrite map_length; auto).
      rewrite (map_nth (fun q => corr k theta (fst q))), Nn in W. exact W.
    - rewrite assign_out; [|intros F; apply Ltj in F; cbn in F; lia].
      pose proof (assign_in ij r eye n ND Lr Ln) as W. rewrite Nij in W. exact W.
    - pose proof (assign_in ji r (assign ij r eye) n NDi) as W. rewrite Nji in W. apply W; [unfold ji; rewrite map_length; auto|unfold ji; rewrite map_length; auto]. }
  assert (Diag : forall a, assign ji r (assign ij r eye) a a = 1).
  { intros a. rewrite assign_out; [|intros F; apply Ltj in F; cbn in F; lia]. rewrite assign_out; [|intros F; apply Lt in F; cbn in F; lia]. unfold eye. now rewrite Nat.eqb_refl. }
  intros i j Hi Hj. split; [|split].
  - destruct (Nat.lt_trichotomy i j) as [L|[->|L]]; auto.
    + destruct (Pair i j) as (v & _ & -> & ->); auto.
    + destruct (Pair j i) as (v & _ & -> & ->); auto.
  - apply Diag.
  - intros N. fold (absdiff (nth i X []) (nth j X [])). destruct (Nat.lt_trichotomy i j) as [L|[->|L]]; [|tauto|].
    + destruct (Pair i j) as (v & E & -> & _); auto.
    + destruct (Pair j i) as (v & E & _ & ->); auto. rewrite <- E. f_equal. unfold absdiff.
      clear. generalize (nth i X []) (nth j X []). induction l; intros [|]; cbn; auto. rewrite Rabs_minus_sym. now rewrite IHl.
Qed.
Print Assumptions C62_correlation_matrix.

Lemma corr_some k theta d v : corr k theta d = Some v -> positive theta ->
  match k with
  | AbsExp => accepted theta (length d) /\ v = exp (- sum (map2 Rmult (each theta (length d)) (map Rabs d)))
  | SqExp => accepted theta (length d) /\ v = exp (- sum (map2 Rmult (each theta (length d)) (map Rsqr d)))
  | Matern => accepted theta (length d) /\ v = matern_of (sum (map2 Rmult (each theta (length d)) (map Rsqr d)))
  | Cubic => accepted theta (length d) /\ v = prod (map2 (fun t v => spline (Rabs v * t)) (each theta (length d)) d)
  | GenExp => length theta = Datatypes.S (length d) /\ v = exp (- sum (map2 Rmult (removelast theta) (map (fun v => power (Rabs v) (last theta 0)) d)))
  end.
Proof.
  intros H P.
  assert (A : k <> GenExp -> accepted theta (length d)).
  { intros N. destruct k; try congruence; cbn in H;
      unfold absolute_exponential, squared_exponential, cubic, matern in H; destruct theta as [|t0 [|t1 ts]]; try (now left); rewrite ?map_length in H;
      match type of H with context [Nat.eqb ?a ?b] => destruct (Nat.eqb_spec a b); [now right|discriminate] end. }
  destruct k; cbn in H.
  - assert (A' := A ltac:(discriminate)). split; auto. rewrite abs_each in H by auto. congruence.
  - assert (A' := A ltac:(discriminate)). split; auto. rewrite sq_each in H by auto. congruence.
  - unfold generalized_exponential in H. destruct (_ && _)%bool; [discriminate|]. destruct (Nat.eqb_spec (length theta) (length d + 1)); [|discriminate]. cbn in H. split; [lia|congruence].
  - assert (A' := A ltac:(discriminate)). split; auto. rewrite cubic_each in H by auto. congruence.
  - assert (A' := A ltac:(discriminate)). split; auto. rewrite matern_each in H by auto. congruence.
Qed.
Lemma removelast_in {A} (l : list A) x : In x (removelast l) -> In x l.
Proof. induction l as [|a [|b l] IH]; intros H; [destruct H|destruct H|]. destruct H as [->|H]; [now left|right; apply IH; exact H]. Qed.
Lemma last_in {A} (l : list A) d : l <> [] -> In (last l d) l.
Proof. induction l as [|a [|b l] IH]; intros H; [congruence|cbn; auto|right; apply IH; discriminate]. Qed.

(** The correlation lies in (0, 1] (in [0, 1] for the cubic function). *)
Theorem C62_range k theta d v : positive theta -> corr k theta d = Some v -> 0 <= v <= 1 /\ (k <> Cubic -> 0 < v).
Proof.
  intros P H. pose proof (corr_some k theta d v H P) as W. pose proof (each_pos theta (length d) P) as PE.
  assert (NN : forall l, List.Forall (fun v => 0 <= v) l -> 0 <= sum (map2 Rmult (each theta (length d)) l)).
  { intros l Hl. apply sum_nonneg, Forall_map2. intros x y Hx Hy. rewrite Forall_forall in PE, Hl. specialize (PE x Hx). specialize (Hl y Hy). nra. }
  assert (NA : List.Forall (fun v => 0 <= v) (map Rabs d)) by (apply Forall_map, Forall_forall; intros; apply Rabs_pos).
  assert (NS : List.Forall (fun v => 0 <= v) (map Rsqr d)) by (apply Forall_map, Forall_forall; intros; apply Rle_0_sqr).
  destruct k; destruct W as (_ & ->).
  - pose proof (exp_range _ (NN _ NA)). lra.
  - pose proof (exp_range _ (NN _ NS)). lra.
  - assert (E : 0 <= sum (map2 Rmult (removelast theta) (map (fun v => power (Rabs v) (last theta 0)) d))).
    { apply sum_nonneg, Forall_map2. intros x y Hx Hy. unfold positive in P. rewrite Forall_forall in P. specialize (P x (removelast_in _ _ Hx)). apply in_map_iff in Hy as (u & <- & _). pose proof (power_nonneg (Rabs u) (last theta 0)). nra. }
    pose proof (exp_range _ E). lra.
  - split; [|congruence]. apply prod_range, Forall_map2. intros x y Hx Hy. apply spline_range. rewrite Forall_forall in PE. specialize (PE x Hx). pose proof (Rabs_pos y). nra.
  - pose proof (matern_range _ (NN _ NS)). lra.
Qed.
Print Assumptions C62_range.
(** It is one at distance zero. *)
Theorem C62_zero_distance k theta d v : positive theta -> List.Forall (fun u => u = 0) d -> corr k theta d = Some v -> v = 1.
Proof.
  intros P Z H. pose proof (corr_some k theta d v H P) as W. rewrite Forall_forall in Z.
  assert (S0 : forall (f : R -> R) th, (f 0 = 0) -> sum (map2 Rmult th (map f d)) = 0).
  { intros f th E. apply sum_zero, Forall_map2. intros x y Hx Hy. apply in_map_iff in Hy as (u & <- & Hu). rewrite (Z u Hu), E. lra. }
  destruct k; destruct W as (L & ->).
  - rewrite S0, Ropp_0, exp_0; auto. apply Rabs_R0.
  - rewrite S0, Ropp_0, exp_0; auto. apply Rsqr_0.
  - rewrite (S0 (fun v => power (Rabs v) (last theta 0))), Ropp_0, exp_0; auto. rewrite Rabs_R0. unfold power. destruct (Req_EM_T 0 0); [|lra].
    destruct (Req_EM_T (last theta 0) 0) as [E|]; auto. unfold positive in P. rewrite Forall_forall in P. assert (In (last theta 0) theta) by (apply last_in; destruct theta; [cbn in L; lia|discriminate]). specialize (P _ H0). lra.
  - assert (G : forall l, (forall u, In u l -> u = 1) -> prod l = 1) by (induction l; cbn; intros; auto; unfold prod in IHl; rewrite IHl by auto; rewrite (H0 a) by auto; lra).
    apply G. intros u Hu. assert (X : List.Forall (fun u => u = 1) (map2 (fun t v => spline (Rabs v * t)) (each theta (length d)) d)).
    { apply Forall_map2. intros x y Hx Hy. rewrite (Z y Hy), Rabs_R0, Rmult_0_l. unfold spline, clip. destruct Rlt_dec; lra. }
    rewrite Forall_forall in X. auto.
  - rewrite S0 by apply Rsqr_0. unfold matern_of. rewrite sqrt_0, Rmult_0_l, Ropp_0, exp_0. lra.
Qed.
Print Assumptions C62_zero_distance.
(** It exists for every data set whose points have as many coordinates as the parameters allow. *)
Theorem C62_defined k theta X n : rectangular X n ->
  (match k with GenExp => length theta = Datatypes.S n | _ => accepted theta n end) ->
  exists M, correlation_matrix k theta X = Some M.
Proof.
  intros HX HT. unfold correlation_matrix. destruct (sequence_all (map (fun q => corr k theta (fst q)) (cross_distances X))) as (r & ->); [|eauto].
  intros o Ho. apply in_map_iff in Ho as (q & <- & Hq). apply cross_row in Hq as (i & j & Hij & ->). cbn [fst].
  assert (Ln : length (absdiff (nth i X []) (nth j X [])) = n).
  { unfold rectangular in HX. rewrite Forall_forall in HX. rewrite absdiff_length; [apply HX, nth_In; lia|]. rewrite !HX; auto; apply nth_In; lia. }
  set (d := absdiff _ _) in *. destruct k; rewrite <- Ln in HT; cbn [corr].
  - rewrite abs_each by auto. discriminate.
  - rewrite sq_each by auto. discriminate.
  - unfold generalized_exponential. rewrite HT. replace (length d + 1)%nat with (Datatypes.S (length d)) by lia. rewrite Nat.eqb_refl.
    destruct (Nat.ltb_spec 1 (length d)); cbn [andb negb]; [|discriminate]. destruct (Nat.eqb_spec (Datatypes.S (length d)) 2); [lia|discriminate].
  - rewrite cubic_each by auto. discriminate.
  - rewrite matern_each by auto. discriminate.
Qed.
Print Assumptions C62_defined.
Example C62_example : positive [1; 2] /\ rectangular [[0; 0]; [1; 3]; [1; 3]] 2 /\ accepted [1; 2] 2 /\
  exists v, corr SqExp [1; 2] [1; 3] = Some v /\ v = exp (- 19).
Proof. split; [repeat constructor; lra|]. split; [repeat constructor|]. split; [now right|]. eexists. split; [reflexivity|]. f_equal. unfold Rsqr, sum. cbn. lra. Qed.

(** ** C136: one parameter for all features is the same as the parameter repeated *)
Theorem C136_isotropic_partial k t0 d : k <> GenExp -> corr k [t0] d = corr k (repeat t0 (length d)) d.
Proof.
  intros N. assert (A1 : accepted [t0] (length d)) by (now left). assert (A2 : accepted (repeat t0 (length d)) (length d)) by (right; apply repeat_length).
  assert (E : each (repeat t0 (length d)) (length d) = each [t0] (length d)) by (destruct d as [|? [|]]; reflexivity).
  destruct k; try congruence; cbn [corr]; rewrite ?abs_each, ?sq_each, ?cubic_each, ?matern_each by auto; now rewrite E.
Qed.
Print Assumptions C136_isotropic_partial.
(** The generalized exponential documents two parameters for the isotropic case, which always raise. *)
Theorem C136_generalized_refuted : forall t0 p d, (1 < length d)%nat ->
  corr GenExp [t0; p] d = None /\ corr GenExp (repeat t0 (length d) ++ [p]) d <> None.
Proof.
  intros t0 p d H. cbn [corr]. unfold generalized_exponential. rewrite app_length, repeat_length. cbn [length Nat.eqb].
  destruct (Nat.ltb_spec 1 (length d)); [|lia]. cbn [andb]. split; auto. rewrite Nat.eqb_refl. destruct (Nat.eqb_spec (length d + 1) 2); [lia|]. cbn. discriminate.
Qed.
Print Assumptions C136_generalized_refuted.
Example C136_example : (1 < length [1; 2])%nat /\ SqExp <> GenExp. Proof. split; [cbn; lia|discriminate]. Qed.

(** ** C140: the correlation does not increase with the distance in any coordinate *)
Theorem C140_monotone k theta d d' v v' : positive theta -> Forall2 (fun a b => Rabs a <= Rabs b) d d' ->
  corr k theta d = Some v -> corr k theta d' = Some v' -> v' <= v.
Proof.
  intros P F H H'. pose proof (corr_some k theta d v H P) as W. pose proof (corr_some k theta d' v' H' P) as W'.
  assert (Ld : length d = length d') by (clear - F; induction F; cbn; auto). rewrite Ld in W. pose proof (each_pos theta (length d') P) as PE. set (th := each theta (length d')) in *.
  assert (SQ : sum (map2 Rmult th (map Rsqr d)) <= sum (map2 Rmult th (map Rsqr d'))).
  { apply sum_le. rewrite !map2_map_r. eapply map2_F2; [exact PE|exact F|]. cbn. intros t x y Ht Hxy. apply Rmult_le_compat_l; [lra|]. rewrite (Rsqr_abs x), (Rsqr_abs y). apply Rsqr_incr_1; auto; apply Rabs_pos. }
  assert (NS : 0 <= sum (map2 Rmult th (map Rsqr d))).
  { apply sum_nonneg, Forall_map2. intros x y Hx Hy. rewrite Forall_forall in PE. specialize (PE x Hx). apply in_map_iff in Hy as (u & <- & _). pose proof (Rle_0_sqr u). nra. }
  destruct k; destruct W as (L & ->); destruct W' as (_ & ->).
  - apply exp_anti, sum_le. rewrite !map2_map_r. eapply map2_F2; [exact PE|exact F|]. cbn. intros t x y Ht Hxy. apply Rmult_le_compat_l; lra.
  - apply exp_anti, SQ.
  - apply exp_anti, sum_le. rewrite !map2_map_r. unfold positive in P. rewrite Forall_forall in P. assert (Pl : 0 < last theta 0) by (apply P, last_in; destruct theta; [cbn in L; lia|discriminate]).
    eapply map2_F2; [|exact F|]. { apply Forall_forall. intros x Hx. apply P. now apply removelast_in. }
    cbn. intros t x y Ht Hxy. apply Rmult_le_compat_l; [lra|]. apply power_mono; auto. apply Rabs_pos.
  - apply prod_le. assert (F' : Forall2 (fun b a => Rabs a <= Rabs b) d' d) by (clear - F; induction F; constructor; auto). eapply map2_F2; [exact PE|exact F'|].
    cbn. intros t x y Ht Hxy. split; [apply spline_range; pose proof (Rabs_pos x); pose proof (Rabs_pos y); nra|]. apply spline_anti; pose proof (Rabs_pos x); pose proof (Rabs_pos y); nra.
  - apply matern_anti; auto.
Qed.
Print Assumptions C140_monotone.
Example C140_example : positive [1; 1] /\ Forall2 (fun a b => Rabs a <= Rabs b) [1; 2] [1; 3] /\
  corr AbsExp [1; 1] [1; 2] <> None /\ corr AbsExp [1; 1] [1; 3] <> None.
Proof. repeat split; try discriminate; repeat constructor; try lra; rewrite ?Rabs_pos_eq by lra; apply Rle_refl || lra. Qed.
