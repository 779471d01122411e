(** Properties C30, C31, C90, C91: the mixed-integer evolution strategy. *)
From Coq Require Import Bool Arith ZArith QArith String List Lia Lqa.
From Verif Require Import Model_Var Model_Pareto Model_Ask Model_Sol Spec_Ask Spec_Pareto Spec_Sol Proofs_Pareto.
From Verif Require Import Model_MIES Spec_MIES Proofs_MIES.
Import ListNotations.
Open Scope nat_scope.

(** C30: after any number of generations, whatever the random numbers, the objective, the
    stopping rules and the way argsort breaks ties, every individual ever evaluated, the current
    population and the incumbent are in the domains of their variables. *)
Theorem C30_domain :
  forall c fit argsort rnd other_stop X s fuel,
    sorts argsort -> Forall proper (m_vs c) -> Forall (in_domain (m_vs c)) X -> init c fit X = Some s ->
    let r := final (optimize c fit argsort rnd other_stop fuel 0 s) in
    (forall x f, In (x, f) (trace r) -> in_domain (m_vs c) x) /\
    (forall x f, In (x, f) (pop r) -> in_domain (m_vs c) x) /\
    in_domain (m_vs c) (xopt r).
Proof.
  intros c fit argsort rnd other_stop X s fuel S P D H r.
  destruct (init_inv c fit X s D H) as [I _].
  destruct (optimize_inv c fit argsort S rnd other_stop P fuel 0 s I) as [J _]. fold r in J.
  destruct J as [J1 J2 J3 _ _]. rewrite Forall_forall in J1.
  repeat split.
  - intros x f K. exact (J1 _ K).
  - intros x f K. exact (J1 _ (J2 _ K)).
  - exact (J1 _ J3).
Qed.
Print Assumptions C30_domain.

(** ... and, if the step of every Integer variable is 1, these are exactly the values the
    variables admit. *)
Theorem C30_in_space :
  forall c fit argsort rnd other_stop X s fuel,
    sorts argsort -> Forall proper (m_vs c) -> Forall (in_space (m_vs c)) X -> init c fit X = Some s ->
    (forall v lb ub st, In v (m_vs c) -> vkind v = KInt lb ub st -> st = 1%Z) ->
    let r := final (optimize c fit argsort rnd other_stop fuel 0 s) in
    (forall x f, In (x, f) (trace r) -> in_space (m_vs c) x) /\ in_space (m_vs c) (xopt r).
Proof.
  intros c fit argsort rnd other_stop X s fuel S P D H U r.
  assert (K : forall x, in_domain (m_vs c) x -> in_space (m_vs c) x).
  { intros x. unfold in_domain, in_space. clear - U. revert U. generalize (m_vs c). intros vs U F.
    induction F as [|v a vs x W F IH]; constructor.
    - destruct (vkind v) as [|lb ub st| | | |] eqn:E; simpl in *; auto.
      rewrite (U v lb ub st (or_introl eq_refl) E). destruct W as [z [-> W]]. exists (z - lb)%Z.
      repeat split; try lia. f_equal. lia.
    - apply IH. intros. eapply U; eauto. now right. }
  assert (Dm : Forall (in_domain (m_vs c)) X).
  { eapply Forall_impl; [|exact D]. intros x. unfold in_domain, in_space. clear - U. revert U. generalize (m_vs c). intros vs U F.
    induction F as [|v a vs x W F IH]; constructor.
    - destruct (vkind v) as [|lb ub st| | | |] eqn:E; simpl in *; auto.
      rewrite (U v lb ub st (or_introl eq_refl) E) in W. destruct W as [i [Z [-> W]]]. exists (lb + i * 1)%Z.
      repeat split; lia.
    - apply IH. intros. eapply U; eauto. now right. }
  destruct (C30_domain c fit argsort rnd other_stop X s fuel S P Dm H) as [K1 [_ K2]]. fold r in K1, K2.
  split; [intros x f E; apply K; eauto|apply K; auto].
Qed.
Print Assumptions C30_in_space.

(** C31: the reported value belongs to the reported point, was obtained by an evaluation, and is
    at least as good as every value obtained; the evaluation counter is the number of
    evaluations. *)
Theorem C31_best_of_all :
  forall c fit argsort rnd other_stop X s fuel,
    sorts argsort -> Forall proper (m_vs c) -> Forall (in_domain (m_vs c)) X -> init c fit X = Some s ->
    let r := final (optimize c fit argsort rnd other_stop fuel 0 s) in
    In (xopt r, fopt r) (trace r) /\ (forall x f, In (x, f) (trace r) -> no_worse (m_min c) (fopt r) f) /\
    evals r = length (trace r).
Proof.
  intros c fit argsort rnd other_stop X s fuel S P D H r.
  destruct (init_inv c fit X s D H) as [I _].
  destruct (optimize_inv c fit argsort S rnd other_stop P fuel 0 s I) as [J _]. fold r in J.
  destruct J as [_ _ J3 J4 J5]. repeat split; auto. intros x f K. exact (J4 _ K).
Qed.
Print Assumptions C31_best_of_all.

(** The incumbent after n+1 generations is at least as good as after n. *)
Theorem C31_monotone :
  forall c fit argsort rnd other_stop X s n,
    sorts argsort -> Forall proper (m_vs c) -> Forall (in_domain (m_vs c)) X -> init c fit X = Some s ->
    no_worse (m_min c) (fopt (final (optimize c fit argsort rnd other_stop (S n) 0 s)))
                       (fopt (final (optimize c fit argsort rnd other_stop n 0 s))).
Proof.
  intros c fit argsort rnd other_stop X s n S P D H.
  destruct (init_inv c fit X s D H) as [I _]. now apply optimize_mono.
Qed.
Print Assumptions C31_monotone.

(** With a finite budget the run ends without an error, after at most max_eval + 1 generations,
    having evaluated the initial population or at most one generation more than the budget.  The other
    stopping criteria are an arbitrary function here; C200 shows when those of the program raise. *)
Theorem C31_budget :
  forall c fit argsort rnd other_stop X s m,
    sorts argsort -> Forall proper (m_vs c) -> Forall (in_domain (m_vs c)) X -> init c fit X = Some s ->
    m_max c = Some m -> length X = m_mu c -> 1 <= m_mu c -> 1 <= m_lambda c ->
    (m_elitism c = true \/ m_mu c <= m_lambda c) ->
    (forall g i, i < m_lambda c -> draws_ok (m_vs c) (m_mu c) (rnd g i)) ->
    exists r, optimize c fit argsort rnd other_stop (S m) 0 s = Done r /\
      length (trace r) <= Nat.max (m_mu c) (m + m_lambda c).
Proof.
  intros c fit argsort rnd other_stop X s m S P D H M L Mu La E R.
  destruct (init_inv c fit X s D H) as [I [PT EV]].
  destruct (optimize_total c fit argsort S rnd other_stop P m M Mu La E R (Datatypes.S m) 0 s I) as [r G].
  - rewrite PT. rewrite <- (i_evals c s I). lia.
  - lia.
  - exists r. split; auto.
    pose proof (optimize_budget c fit argsort S rnd other_stop P m M (Datatypes.S m) 0 s I) as B.
    destruct (optimize_inv c fit argsort S rnd other_stop P (Datatypes.S m) 0 s I) as [J _].
    rewrite G in B, J. cbn [final] in B, J. rewrite <- (i_evals c r J). lia.
Qed.
Print Assumptions C31_budget.

(** An example of everything above: one variable of each kind, two parents, three offspring. *)
Definition ex_vs : list var :=
  [mkVar "x" (KReal 0 1 (Some 2%Z)); mkVar "n" (KInt (-3) 3 1);
   mkVar "d" (KDiscrete [VS "a"; VI 1; VS "a"]); mkVar "b" KBool; mkVar "s" (KSubset [VI 1; VI 2])].
Definition ex_cfg : mcfg := mkM ex_vs 2 3 true false (Some 9).
Definition ex_X : list point :=
  [[VR (1#2); VI 1; VS "a"; VB true; VT [VI 1]]; [VR (1#4); VI (-2); VI 1; VB false; VT [VI 1; VI 2]]].
Definition ex_fit (n i : nat) (x : point) : Q :=
  match x with VR q :: VI z :: _ => q + inject_Z z * inject_Z z | _ => 100 end%Q.
Definition ex_rnd (g i : nat) : draws :=
  mkDraws 0 1 Nat.even (fun j => (inject_Z (Z.of_nat (g + i)) * (7#3))%Q) (fun j => Z.of_nat g - 2)%Z (fun j => Nat.even (i + j)) (fun _ => i mod 2).
Example C30_example :
  sorts argsort_stable /\ Forall proper ex_vs /\ Forall (in_domain ex_vs) ex_X /\
  (forall g i, i < 3 -> draws_ok ex_vs 2 (ex_rnd g i)) /\
  exists s r, init ex_cfg ex_fit ex_X = Some s /\
    optimize ex_cfg ex_fit argsort_stable ex_rnd (fun _ _ => false) 10 0 s = Done r /\
    evals r = 11 /\ iters r = 3 /\ (fopt r < fopt s)%Q.
Proof.
  split; [apply argsort_stable_sorts|].
  split; [repeat constructor|].
  assert (L : forall e (t : list val), In t (flat_map (combinations e) (seq 1 (length e))) ->
     exists r t', 1 <= r <= length e /\ VT t = VT t' /\ In t' (combinations e r)).
  { intros e t H. apply in_flat_map in H as [r [H1 H2]]. apply in_seq in H1. exists r, t. repeat split; auto; lia. }
  split.
  { assert (R : forall q : Q, (0 <= q)%Q -> (q <= 1)%Q -> within (KReal 0 1 (Some 2%Z)) (VR q)) by (intros q A B; exists q; auto).
    assert (N : forall z : Z, (-3 <= z <= 3)%Z -> within (KInt (-3) 3 1) (VI z)) by (intros z A; exists z; auto).
    repeat apply Forall_cons; try apply Forall_nil; unfold in_domain, ex_vs;
      repeat apply Forall2_cons; try apply Forall2_nil; cbn [vkind];
      try (apply R; vm_compute; discriminate); try (apply N; lia); cbn; auto;
      apply (L [VI 1; VI 2]); simpl; auto. }
  split.
  { intros g i Hi. repeat split; simpl; try lia. intros j k v Hj Hk.
    assert (B : i mod 2 < 2) by (apply Nat.mod_upper_bound; lia).
    change (id_d ex_vs) with [2; 3; 4] in Hj.
    destruct j as [|[|[|j]]]; simpl in Hj; try discriminate; try (destruct j; discriminate);
      injection Hj as <-; simpl in Hk; injection Hk as <-; simpl; exact B || (etransitivity; [exact B|]; vm_compute; lia). }
  eexists. eexists. split; [vm_compute; reflexivity|]. split; [vm_compute; reflexivity|].
  vm_compute. auto.
Qed.

(** C90: the step of an Integer variable is not respected. *)
Theorem C90_integer_step_refuted :
  exists c fit rnd other_stop X s fuel,
    Forall proper (m_vs c) /\ Forall (in_space (m_vs c)) X /\ init c fit X = Some s /\
    (forall g i, i < m_lambda c -> draws_ok (m_vs c) (m_mu c) (rnd g i)) /\
    exists r, optimize c fit argsort_stable rnd other_stop fuel 0 s = Done r /\ ~ in_space (m_vs c) (xopt r).
Proof.
  exists (mkM [mkVar "n" (KInt 0 10 5)] 1 1 true false (Some 1)),
    (fun _ _ x => match x with [VI z] => inject_Z z | _ => 0%Q end),
    (fun _ _ => mkDraws 0 0 (fun _ => false) (fun _ => 0%Q) (fun _ => (-1)%Z) (fun _ => false) (fun _ => 0)),
    (fun _ _ => false), [[VI 5]].
  eexists. exists 2.
  split; [repeat constructor|].
  split. { repeat constructor. exists 1%Z. repeat split; lia. }
  split; [vm_compute; reflexivity|].
  split. { intros g i _. simpl. repeat split; simpl; try lia. intros j k v Hj. destruct j; discriminate. }
  eexists. split; [vm_compute; reflexivity|].
  intro H. unfold in_space in H. cbn [m_vs xopt] in H. inversion H as [|v a l l' A B]; subst.
  cbn [vkind admissible] in A. destruct A as [i [_ [E _]]]. injection E. intro E'. lia.
Qed.
Print Assumptions C90_integer_step_refuted.

(** What does hold for every step: the values stay integers between the bounds. *)
Theorem C90_integer_bounds_partial :
  forall c fit argsort rnd other_stop X s fuel,
    sorts argsort -> Forall proper (m_vs c) -> Forall (in_domain (m_vs c)) X -> init c fit X = Some s ->
    forall x f i v lb ub st, In (x, f) (trace (final (optimize c fit argsort rnd other_stop fuel 0 s))) ->
      nth_error (m_vs c) i = Some v -> vkind v = KInt lb ub st ->
      exists z, nth_error x i = Some (VI z) /\ (lb <= z <= ub)%Z.
Proof.
  intros c fit argsort rnd other_stop X s fuel S P D H x f i v lb ub st T V K.
  destruct (C30_domain c fit argsort rnd other_stop X s fuel S P D H) as [C _].
  destruct (component_exists _ _ _ _ (C x f T) V) as [a [A W]]. rewrite K in W.
  destruct W as [z [-> W]]. eauto.
Qed.
Print Assumptions C90_integer_bounds_partial.

(** C91: the constructor fails for every initial point. *)
Theorem C91_initial_point_refuted :
  forall h pop id_var, is_2d pop -> exists e, evaluate_x0 h pop id_var = SErr e.
Proof.
  intros h pop id_var H. unfold evaluate_x0, is_2d in *.
  destruct (getitem h pop (Rows (SInt 0))) as [[row h']|e] eqn:G; [|simpl; eauto].
  cbn [sbind]. destruct row as [v|r]; [eauto|].
  assert (K : exists ps, xa r = A1 ps).
  { unfold getitem in G. destruct (xa pop) as [|rs c]; [tauto|].
    cbn -[pick sel_positions read List.concat] in G.
    repeat match type of G with
    | sbind ?e _ = _ => destruct e; cbn [sbind] in G; try discriminate
    end.
    injection G as <- _. simpl. eauto. }
  destruct K as [ps K]. unfold getitem. rewrite K. eauto.
Qed.
Print Assumptions C91_initial_point_refuted.

Example C91_example : exists h pop, new (mkHeap [] [] [] []) (XRows [[VR (1#2); VR (1#20)]; [VR (1#2); VR (1#20)]])
    (FScalar None) (NScalar 0) INone (Some ["r"; "sigma0"]%string) None 1 = SOk (pop, h) /\ is_2d pop /\
  evaluate_x0 h pop [0%Z] = SErr SIndex.
Proof. do 2 eexists. split; [vm_compute; reflexivity|]. split; [exact I|]. vm_compute. reflexivity. Qed.
