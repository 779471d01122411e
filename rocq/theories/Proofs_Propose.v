(** Lemmas for Properties_Propose. *)
From Coq Require Import Bool Arith ZArith QArith String List Lia Lqa.
From Verif Require Import Model_Opt Model_Var Model_Pareto Model_Box Model_Ask Model_Sol Spec_Ask Proofs_Ask Spec_Pareto Proofs_Pareto.
From Verif Require Import Model_MIES Spec_MIES Proofs_MIES Properties_MIES Model_MiesPar Spec_MiesPar Proofs_MiesPar Proofs_MiesPar2 Proofs_MiesStop Properties_MiesPar.
From Verif Require Import Properties_Box Model_Propose Spec_Propose.
Import ListNotations.
Open Scope nat_scope.

Lemma domain_space vs x : plain_space vs -> in_domain vs x -> in_space vs x.
Proof.
  intros [_ U]. unfold in_domain, in_space. revert U. intros U F. induction F as [|v a vs x W F IH]; constructor.
  - destruct (vkind v) as [|lb ub st| | | |] eqn:E; simpl in *; auto. rewrite (U v lb ub st (or_introl eq_refl) E). destruct W as [z [-> W]]. exists (z - lb)%Z.
    repeat split; try lia. f_equal. lia.
  - apply IH. intros. eapply U; eauto. now right.
Qed.
Lemma space_domain vs x : plain_space vs -> in_space vs x -> in_domain vs x.
Proof.
  intros [_ U]. unfold in_domain, in_space. revert U. intros U F. induction F as [|v a vs x W F IH]; constructor.
  - destruct (vkind v) as [|lb ub st| | | |] eqn:E; simpl in *; auto. rewrite (U v lb ub st (or_introl eq_refl) E) in W. destruct W as [i [Z [-> W]]]. exists (lb + i * 1)%Z.
    repeat split; lia.
  - apply IH. intros. eapply U; eauto. now right.
Qed.

(** Every restart ends without an error; what its result is. *)
Lemma mies_run_spec vs argsort fit start rnd j i b :
  sorts argsort -> plain_space vs -> run_inputs_ok vs (start j i) (rnd j i) ->
  exists r, mies_run vs argsort fit start rnd j i b = Some (Done_par r) /\
    (forall x f, In (x, f) (evaluated r) -> in_space vs x) /\ In (p_xopt r, p_fopt r) (evaluated r) /\
    (forall x f, In (x, f) (evaluated r) -> (f <= p_fopt r)%Q) /\ p_evals r = List.length (evaluated r) /\
    List.length (evaluated r) <= Nat.max 4 (Z.to_nat b + 10).
Proof.
  intros SO PS (L & IS & NO & PO). assert (D : Forall (in_domain vs) (start j i)) by (revert IS; apply Forall_impl; intro x; now apply space_domain).
  assert (NE : start j i <> []) by (intro E; rewrite E in L; discriminate).
  destruct (default_constructs (mies_cfg vs b) (fit j i) (start j i) NE) as (s & E).
  destruct (C31_budget_with_parameters (mies_cfg vs b) (fit j i) argsort (rnd j i) (start j i) s (Z.to_nat b)) as (r & R & B & _); auto; try (cbn; lia); [exact (proj1 PS)|].
  exists r. unfold mies_run. rewrite E. cbn [option_map]. rewrite R. split; [reflexivity|].
  pose proof (C30_with_parameters (mies_cfg vs b) (fit j i) argsort (rnd j i) None None None (start j i) s (S (Z.to_nat b)) SO (proj1 PS) D NO E) as A. cbv zeta in A. rewrite R in A. cbn [final_par] in A. destruct A as (A1 & A2).
  pose proof (C31_with_parameters (mies_cfg vs b) (fit j i) argsort (rnd j i) None None None (start j i) s (S (Z.to_nat b)) SO (proj1 PS) D NO E) as C. cbv zeta in C. rewrite R in C. cbn [final_par] in C. destruct C as (C1 & C2 & C3).
  split; [intros x f I; apply domain_space; [exact PS|]; eapply A1; eauto|]. split; [exact C1|]. split; [exact C2|]. split; [exact C3|exact B].
Qed.

Lemma choose_list {A} (P : nat -> A -> Prop) n : (forall k, k < n -> exists r, P k r) -> exists l, List.length l = n /\ forall k r, nth_error l k = Some r -> P k r.
Proof.
  induction n as [|n IH]; intro H.
  - exists []. split; [reflexivity|]. intros [|k] r E; discriminate.
  - destruct IH as (l & L & F); [intros k K; apply H; lia|]. destruct (H n) as (r & R); [lia|]. exists (l ++ [r]). split; [rewrite app_length; cbn; lia|].
    intros k q E. destruct (Nat.lt_ge_cases k n) as [K|K].
    + rewrite nth_error_app1 in E by lia. now apply F.
    + rewrite nth_error_app2 in E by lia. rewrite L in E. destruct (k - n) as [|m] eqn:M; cbn in E; [|destruct m; discriminate].
      assert (k = n) as -> by lia. congruence.
Qed.

Lemma in_space_nonempty vs x : vs <> [] -> in_space vs x -> x <> [].
Proof. intros V F E. subst x. inversion F. now subst. Qed.

Lemma proposal_spec vs h g argsort wait n_restart fit start rnd budget j :
  sorts argsort -> plain_space vs -> (forall i, run_inputs_ok vs (start j i) (rnd j i)) ->
  exists runs, List.length runs <= n_restart /\ (0 < n_restart -> runs <> []) /\
    (forall k r, nth_error runs k = Some r -> exists b, (b <= budget)%Z /\ mies_run vs argsort fit start rnd j k b = Some (Done_par r)) /\
    (proposal vs h g argsort wait n_restart fit start rnd budget j <> [] ->
       exists r, In r runs /\ p_xopt r = proposal vs h g argsort wait n_restart fit start rnd budget j /\ satisfies h g (p_xopt r) /\
         forall r', In r' runs -> satisfies h g (p_xopt r') -> (p_fopt r' <= p_fopt r)%Q) /\
    (vs <> [] -> proposal vs h g argsort wait n_restart fit start rnd budget j = [] -> forall r, In r runs -> ~ satisfies h g (p_xopt r)).
Proof.
  intros SO PS OK. unfold proposal in *.
  destruct (argmax_restart h g (mies_restart vs argsort fit start rnd j) argsort wait budget n_restart) as [o n] eqn:E. cbn [fst] in *.
  destruct (C29_best_feasible_restart point h g _ argsort wait budget n_restart (feasible h g) o n SO (feasible_satisfies h g) E) as (LE & PN & outs & LO & T & M).
  destruct (choose_list (fun k r => exists ot b, nth_error outs k = Some ot /\ (b <= budget)%Z /\ mies_run vs argsort fit start rnd j k b = Some (Done_par r) /\
     ot = mkOut (p_xopt r) (p_fopt r) (p_evals r)) n) as (runs & LR & F).
  { intros k K. destruct (nth_error outs k) as [ot|] eqn:KO; [|apply nth_error_None in KO; lia]. pose proof (T k ot KO) as KK.
    set (b := (budget - Z.of_nat (list_sum (map calls (feasible_of (feasible h g) outs k))))%Z) in *.
    destruct (mies_run_spec vs argsort fit start rnd j k b SO PS (OK k)) as (r & R & _). exists r, ot, b. split; [reflexivity|]. split; [unfold b; lia|]. split; [exact R|].
    rewrite KK. unfold mies_restart. now rewrite R. }
  assert (TO : forall r, In r runs -> In (mkOut (p_xopt r) (p_fopt r) (p_evals r)) outs).
  { intros r I. destruct (In_nth_error _ _ I) as (k & K). destruct (F k r K) as (ot & b & N & _ & _ & Eo). rewrite <- Eo. eapply nth_error_In; eauto. }
  assert (OF : forall ot, In ot outs -> exists r, In r runs /\ ot = mkOut (p_xopt r) (p_fopt r) (p_evals r)).
  { intros ot I. destruct (In_nth_error _ _ I) as (k & K). assert (Lk : k < n) by (rewrite <- LO; apply nth_error_Some; congruence).
    destruct (nth_error runs k) as [r|] eqn:KR; [|apply nth_error_None in KR; lia]. exists r. split; [eapply nth_error_In; eauto|].
    destruct (F k r KR) as (ot' & b & N & _ & _ & Eo). congruence. }
  assert (IR : forall r, In r runs -> in_space vs (p_xopt r)).
  { intros r I. destruct (In_nth_error _ _ I) as (k & K). destruct (F k r K) as (ot & b & _ & _ & R & _).
    destruct (mies_run_spec vs argsort fit start rnd j k b SO PS (OK k)) as (r' & R' & A & B & _). assert (r' = r) as -> by congruence. eapply A; eauto. }
  exists runs. split; [lia|]. split; [intro Z; specialize (PN Z); intros ->; cbn in LR; lia|]. split.
  { intros k r K. destruct (F k r K) as (ot & b & _ & B & R & _). now exists b. }
  destruct o as [[x f]|].
  - destruct M as ((ot & I & X & Fo & S) & MX). destruct (OF ot I) as (r & Ir & Er). rewrite Er in X, Fo. cbn in X, Fo. split.
    + intros _. exists r. split; [exact Ir|]. split; [exact X|]. split; [now rewrite X|]. intros r' I' S'. specialize (MX _ (TO r' I') S'). cbn in MX. rewrite Fo. exact MX.
    + intros V Z. exfalso. apply (in_space_nonempty vs x V); [rewrite <- X; now apply IR|exact Z].
  - split; [congruence|]. intros _ _ r I S. exact (M _ (TO r I) S).
Qed.
