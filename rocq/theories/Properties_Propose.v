(** C201, C202: the proposals made with the evolution strategy, from the choice of the optimizer to the points of ask. *)
From Coq Require Import Bool Arith ZArith QArith String List Lia Lqa.
From Verif Require Import Model_Opt Model_Var Model_Pareto Model_Box Model_Ask Model_Sol Spec_Ask Proofs_Ask Spec_Pareto Proofs_Pareto.
From Verif Require Import Model_MIES Spec_MIES Properties_MIES Model_MiesPar Spec_MiesPar Properties_MiesPar.
From Verif Require Import Properties_Box Model_Propose Spec_Propose Proofs_Propose.
Import ListNotations.
Open Scope nat_scope.

(** C201: every point ask returns is in the space.  It is either a rounded sample or a proposal that satisfies the constraints.
    The acquisition function, the constraints, the samples and the random numbers are arbitrary. *)
Theorem C201_ask :
  forall vs h g argsort wait n_restart fit start rnd budget samp batch fitted data n_default doe_size n_point X,
    sorts argsort -> plain_space vs -> (forall j i, run_inputs_ok vs (start j i) (rnd j i)) ->
    (forall count n x, In x (samp count n) -> in_space vs x) ->
    ask_mies vs h g argsort wait n_restart fit start rnd budget samp batch fitted data n_default doe_size n_point = Ok X ->
    forall x, In x X -> in_space vs x /\
      ((exists j, x = proposal vs h g argsort wait n_restart fit start rnd budget j /\ satisfies h g x) \/
       (exists count n s, In s (samp count n) /\ x = round_point vs s)).
Proof.
  intros vs h g argsort wait n_restart fit start rnd budget samp batch fitted data nd ds np X SO PS OK SP H x I. unfold ask_mies in H.
  assert (PR : forall j, proposal vs h g argsort wait n_restart fit start rnd budget j <> [] ->
     in_space vs (proposal vs h g argsort wait n_restart fit start rnd budget j) /\ satisfies h g (proposal vs h g argsort wait n_restart fit start rnd budget j)).
  { intros j NE. destruct (proposal_spec vs h g argsort wait n_restart fit start rnd budget j SO PS (OK j)) as (runs & _ & _ & RU & B & _).
    destruct (B NE) as (r & Ir & <- & S & _). split; [|exact S]. destruct (In_nth_error _ _ Ir) as (k & K). destruct (RU k r K) as (b & _ & R).
    destruct (mies_run_spec vs argsort fit start rnd j k b SO PS (OK j k)) as (r' & R' & A & C & _). assert (r' = r) as -> by congruence. eapply A; eauto. }
  split.
  - apply (ask_in_space vs samp (proposal vs h g argsort wait n_restart fit start rnd budget) batch fitted data nd ds np X); auto. 
    + intros v lb ub p Iv K. destruct PS as (P & _). rewrite Forall_forall in P. specialize (P v Iv). unfold Spec_MIES.proper in P. rewrite K in P. now apply Qlt_le_weak.
    + intros j NE. exact (proj1 (PR j NE)).
  - destruct (ask_origin_free _ _ _ _ _ _ _ _ _ _ _ H I) as [(j & NE & ->)|(c & n & s & Is & ->)]; [left|right].
    + exists j. split; [reflexivity|]. exact (proj2 (PR j NE)).
    + now exists c, n, s.
Qed.
Print Assumptions C201_ask.

(** Every restart ends without an error, within its budget and one generation.  All it evaluates is in the space, and what it
    returns is the best of that. *)
Theorem C201_restarts :
  forall vs argsort fit start rnd j i b,
    sorts argsort -> plain_space vs -> run_inputs_ok vs (start j i) (rnd j i) ->
    exists r, mies_run vs argsort fit start rnd j i b = Some (Done_par r) /\
      (forall x f, In (x, f) (evaluated r) -> in_space vs x) /\ In (p_xopt r, p_fopt r) (evaluated r) /\
      (forall x f, In (x, f) (evaluated r) -> (f <= p_fopt r)%Q) /\ p_evals r = List.length (evaluated r) /\
      List.length (evaluated r) <= Nat.max 4 (Z.to_nat b + 10).
Proof. exact mies_run_spec. Qed.
Print Assumptions C201_restarts.
(** The proposal is the best feasible result of the restarts made; without one there is no proposal. *)
Theorem C201_best :
  forall vs h g argsort wait n_restart fit start rnd budget j,
    sorts argsort -> plain_space vs -> (forall i, run_inputs_ok vs (start j i) (rnd j i)) ->
    exists runs, List.length runs <= n_restart /\ (0 < n_restart -> runs <> []) /\
      (forall k r, nth_error runs k = Some r -> exists b, (b <= budget)%Z /\ mies_run vs argsort fit start rnd j k b = Some (Done_par r)) /\
      (proposal vs h g argsort wait n_restart fit start rnd budget j <> [] ->
         exists r, In r runs /\ p_xopt r = proposal vs h g argsort wait n_restart fit start rnd budget j /\ satisfies h g (p_xopt r) /\
           forall r', In r' runs -> satisfies h g (p_xopt r') -> (p_fopt r' <= p_fopt r)%Q) /\
      (vs <> [] -> proposal vs h g argsort wait n_restart fit start rnd budget j = [] -> forall r, In r runs -> ~ satisfies h g (p_xopt r)).
Proof. exact proposal_spec. Qed.
Print Assumptions C201_best.
(** A space with a real, an integer and a categorical variable, one restart with twelve evaluations and the constraint n <= 5. *)
Definition asked_space : list var := m_vs mixed.
Definition asked_start : list point := [[VR 0; VI 2; VS "a"%string]; [VR (1 # 2); VI 4; VS "b"%string]; [VR 1; VI 9; VS "a"%string]; [VR (1 # 4); VI 3; VS "b"%string]].
Definition asked_g (x : point) : list Q := match x with [_; VI n; _] => [inject_Z (n - 5)] | _ => [] end.
Definition asked_fit (j i g k : nat) (x : point) : Q := match x with [VR a; VI n; _] => a - inject_Z n | _ => 0 end%Q.
Example C201_example :
  sorts argsort_stable /\ plain_space asked_space /\ run_inputs_ok asked_space asked_start (fun _ _ => small_noise) /\
  exists x, ask_mies asked_space None (Some asked_g) argsort_stable 3 1 asked_fit (fun _ _ => asked_start) (fun _ _ _ _ => small_noise) 5 (fun _ _ => []) false true [] 1 1 None = Ok [x].
Proof.
  split; [apply argsort_stable_sorts|]. split.
  { split; [repeat constructor|]. intros v lb ub st [<-|[<-|[<-|[]]]] E; try discriminate. cbn in E. congruence. }
  split; [|eexists; vm_compute; reflexivity].
  split; [reflexivity|]. split.
  { repeat (apply Forall_cons; [constructor; [eexists; split; [reflexivity|split; discriminate]|constructor; [|constructor; [cbn; auto|constructor]]]|]); [| | | |constructor];
      [exists 2%Z|exists 4%Z|exists 9%Z|exists 3%Z]; repeat split; discriminate. }
  split; [intros; repeat split; intros; cbn; lra|]. intros g i _. split; [cbn; lia|]. split; [cbn; lia|].
  intros [|[|j]] k v E1 E2; cbn in E1; try discriminate. injection E1 as <-. cbn in E2. injection E2 as <-. cbn. lia.
Qed.

(** C202: a request for "BFGS" with a constraint on a space that is not real becomes a request for a strategy for real spaces,
    and ask fails; without a constraint the evolution strategy is given a function that also returns a gradient.  A name that is
    not known is found out by the constructor only if no budget is given; otherwise ask fails. *)
Theorem C202_given_refuted :
  (forall m gradient n_obj dim, acquisition_setup (Some "BFGS"%string) m false gradient n_obj true dim = inl AssertionError) /\
  (forall m gradient n_obj dim, exists b, acquisition_setup (Some "BFGS"%string) m false gradient n_obj false dim = inr (b, (EvolutionStrategy, true))) /\
  (forall real gradient n_obj constrained dim, acquisition_setup (Some "CMA"%string) None real gradient n_obj constrained dim = inl KeyError) /\
  (forall m real gradient n_obj constrained dim, acquisition_setup (Some "CMA"%string) (Some m) real gradient n_obj constrained dim = inl UnboundLocalError).
Proof.
  split; [intros [m|] gradient n_obj dim; reflexivity|]. split; [intros [m|] gradient n_obj dim; eexists; reflexivity|].
  split; [intros [] gradient n_obj [] dim; reflexivity|intros m [] gradient n_obj [] dim; reflexivity].
Qed.
Print Assumptions C202_given_refuted.
(** Left to itself the optimizer fits the problem. *)
Theorem C202_default_partial :
  forall m real gradient n_obj constrained dim,
    exists b e d, acquisition_setup None m real gradient n_obj constrained dim = inr (b, (e, d)) /\
      (e = LBFGSB <-> real = true /\ gradient = true /\ n_obj = 1 /\ constrained = false) /\ (e = EvolutionStrategy <-> real = false) /\
      (d = true <-> e = LBFGSB) /\
      match m with Some z => b = z | None => b = ((if d then 100 else 1000) * Z.of_nat dim)%Z end.
Proof.
  intros m real gradient n_obj constrained dim. unfold acquisition_setup, chosen.
  destruct real, gradient, constrained, (Nat.eqb_spec n_obj 1) as [N|N]; destruct m; cbn;
    (eexists; eexists; eexists; split; [reflexivity|]); repeat split; intros; try discriminate; try reflexivity; auto; intuition (discriminate || congruence).
Qed.
Print Assumptions C202_default_partial.
(** Which given names work, and which engine they start. *)
Theorem C202_given_partial :
  forall o m real gradient n_obj constrained dim b e d,
    acquisition_setup (Some o) m real gradient n_obj constrained dim = inr (b, (e, d)) <->
    acquisition_budget (chosen (Some o) real gradient n_obj constrained) m dim = inr b /\
    ((o = "MIES"%string /\ e = EvolutionStrategy /\ d = false) \/
     (o = "OnePlusOne_Cholesky_CMA"%string /\ real = true /\ e = CholeskyCMA /\ d = false) \/
     (o = "BFGS"%string /\ real = true /\ constrained = false /\ e = LBFGSB /\ d = true) \/
     (o = "BFGS"%string /\ real = true /\ constrained = true /\ e = CholeskyCMA /\ d = false) \/
     (o = "BFGS"%string /\ real = false /\ constrained = false /\ e = EvolutionStrategy /\ d = true)).
Proof.
  intros o m real gradient n_obj constrained dim b e d. unfold acquisition_setup. set (q := chosen (Some o) real gradient n_obj constrained).
  assert (K : forall r, restart_engine q real = inr r <->
    (o = "MIES"%string /\ r = (EvolutionStrategy, false)) \/ (o = "OnePlusOne_Cholesky_CMA"%string /\ real = true /\ r = (CholeskyCMA, false)) \/
    (o = "BFGS"%string /\ real = true /\ constrained = false /\ r = (LBFGSB, true)) \/ (o = "BFGS"%string /\ real = true /\ constrained = true /\ r = (CholeskyCMA, false)) \/
    (o = "BFGS"%string /\ real = false /\ constrained = false /\ r = (EvolutionStrategy, true))).
  { intro r. unfold q, chosen. destruct (String.eqb_spec o "BFGS") as [->|N1].
    - destruct real, constrained; cbn; split; intro H; try discriminate; intuition (discriminate || congruence).
    - cbn [andb]. unfold restart_engine. destruct (String.eqb_spec o "BFGS") as [|_]; [contradiction|]. rewrite andb_false_r. destruct (String.eqb_spec o "BFGS") as [|_]; [contradiction|].
      destruct (String.eqb_spec o "OnePlusOne_Cholesky_CMA") as [->|N2].
      + destruct real; cbn; split; intro H; try discriminate; intuition (discriminate || congruence).
      + destruct (String.eqb_spec o "MIES") as [->|N3]; split; intro H; try discriminate; intuition (discriminate || congruence). }
  destruct (acquisition_budget q m dim) as [x|b0]; [split; [discriminate|intros [E _]; discriminate]|].
  destruct (restart_engine q real) as [x|r] eqn:R.
  - split; [discriminate|]. intros [_ A]. assert (F : inl x = inr (e, d)) by (apply K; intuition congruence). discriminate.
  - split.
    + intro H. assert (b0 = b /\ r = (e, d)) as [-> ->] by (split; congruence). split; [reflexivity|]. specialize (proj1 (K (e, d)) eq_refl). intuition (left + idtac; try congruence).
    + intros [B A]. assert (F : inr r = inr (e, d)) by (apply K; intuition congruence). congruence.
Qed.
Print Assumptions C202_given_partial.
Example C202_example :
  acquisition_setup None None false true 1 true 3 = inr (3000%Z, (EvolutionStrategy, false)) /\ acquisition_setup None None true true 1 false 3 = inr (300%Z, (LBFGSB, true)).
Proof. split; reflexivity. Qed.
