(** C196-C200: the strategy parameters and the stopping criteria of the mixed-integer evolution strategy; C30 and C31 with the
    step sizes the program computes.  The fitness, the random numbers and argsort are arbitrary. *)
From Coq Require Import Reals Qreals.
From Coq Require Import Bool Arith ZArith QArith Qabs Qminmax String List Lia Lqa.
From Verif Require Import Model_Var Model_Pareto Model_Ask Model_Sol Spec_Ask Spec_Pareto Proofs_Pareto.
From Verif Require Import Model_MIES Spec_MIES Proofs_MIES Properties_MIES Model_MiesPar Spec_MiesPar Proofs_MiesPar Proofs_MiesPar2 Proofs_MiesStop.
Import ListNotations.
Open Scope nat_scope.

(** C196: whatever happened before, the next offspring is drawn with arguments numpy accepts: the geometric distribution gets
    probabilities and the categorical variables are redrawn with a probability.  Afterwards the parameters are in their ranges. *)
Theorem C196_parameters :
  forall c fit argsort rnd X s0 fuel,
    Forall proper (m_vs c) -> (forall g i, noise_ok (rnd g i)) -> construct c fit None None None X = Some s0 ->
    let s := final_par (optimize_par c fit argsort rnd fuel 0 s0) in
    forall d a, noise_ok d -> recombine_par (map fst (p_pop s)) d = Some a ->
      Forall probability (geometric_args (m_vs c) d a) /\
      Forall (fun p => (0 < prob' d p /\ prob' d p <= 1)%Q) (i_prob a) /\
      forall b, mutate_par (m_vs c) d a = Some b ->
        Forall (fun s => (0 <= s)%Q) (i_sigma b) /\ List.length (i_sigma b) = List.length (id_r (m_vs c)) /\
        Forall (fun e => (0 < e /\ e <= 1)%Q) (i_eta b) /\ List.length (i_eta b) = List.length (id_i (m_vs c)) /\
        Forall (fun p => (1 / (3 * inject_Z (Z.of_nat (List.length (id_d (m_vs c))))) <= p /\ p <= 1 # 2)%Q) (i_prob b).
Proof.
  intros c fit argsort rnd X s0 fuel P N H s d a Nd R.
  assert (A : all_P (par_inv (m_vs c)) (par_inv (m_vs c)) s).
  { apply (optimize_par_P c fit argsort rnd 0 (par_inv (m_vs c)) (par_inv (m_vs c))); auto.
    - intros g i L a' b _ FL RL ML. apply (mutate_par_inv (m_vs c) (rnd g i) a' b (N g i)); auto. eapply recombine_par_inv; eauto.
    - apply (construct_all c fit _ X s0 H). intros x _. now apply default_inv. }
  assert (I : par_inv (m_vs c) a) by (eapply recombine_par_inv; [|exact R]; apply Forall_map; exact (proj1 A)).
  destruct I as (I1 & I2 & I3 & I4 & I5 & I6). assert (Nd' := Nd). destruct Nd' as (N1 & N2 & N3 & N4). split; [|split].
  - unfold geometric_args. pose proof (eta'_ok d a N3 I4) as E. apply Forall_map. apply Forall_forall. intros e He. rewrite Forall_forall in E.
    apply geometric_p_ok; [|apply E; exact He]. rewrite <- I3. rewrite <- (indexed_map_length (fun p => Qmin (snd p * n_eta d (fst p)) 1)%Q (i_eta a)). fold (eta' d a). destruct (eta' d a); [destruct He|cbn; lia].
  - revert I6. apply Forall_impl. intros p (P1 & P2). now apply prob'_ok.
  - intros b M. destruct (mutate_par_inv (m_vs c) d a b Nd (conj I1 (conj I2 (conj I3 (conj I4 (conj I5 I6))))) M) as ((B1 & B2 & B3 & B4 & _) & B5 & B6). auto.
Qed.
Print Assumptions C196_parameters.
(** A run on a space with a real, an integer and a categorical variable: three generations of two offspring. *)
Definition mixed : mcfg := mkM [mkVar "x"%string (KReal 0 1 None); mkVar "n"%string (KInt 0 9 1); mkVar "k"%string (KDiscrete [VS "a"%string; VS "b"%string])] 2 2 true false (Some 7).
Definition small_noise : noise := mkNoise 0 1 (fun j => j =? 1) (fun _ => 1%Q) (fun _ => 1%Q) (fun _ => 1%Q) (fun _ => 3%Z) (fun _ => 1%Z) 1%Q (fun _ => 0%Q) (fun _ => 1).
Example C196_example :
  Forall proper (m_vs mixed) /\ noise_ok small_noise /\
  exists s0 r a b, construct mixed (fun n i _ => inject_Z (Z.of_nat (n + i))) None None None [[VR 0; VI 2; VS "a"%string]; [VR (1 # 2); VI 5; VS "a"%string]] = Some s0 /\
    optimize_par mixed (fun n i _ => inject_Z (Z.of_nat (n + i))) argsort_stable (fun _ _ => small_noise) 9 0 s0 = Done_par r /\ p_stop r = [MaxEval] /\
    recombine_par (map fst (p_pop r)) small_noise = Some a /\ mutate_par (m_vs mixed) small_noise a = Some b /\ i_eta b <> [] /\ i_prob b <> [].
Proof.
  split; [repeat constructor|]. split; [repeat split; intros; try reflexivity; discriminate|].
  do 4 eexists. split; [vm_compute; reflexivity|]. split; [vm_compute; reflexivity|]. split; [vm_compute; reflexivity|]. split; [vm_compute; reflexivity|]. split; [vm_compute; reflexivity|]. split; discriminate.
Qed.

(** C197: a step size that has become zero never recovers, and the rounding to a coarse precision makes it zero.  Here the
    variable has the two values 0 and 1; started at 0, no run evaluates any other point, unless one of the first offspring moves
    by more than ten initial step sizes. *)
Theorem C197_frozen_refuted :
  exists c X, Forall proper (m_vs c) /\ Forall (in_domain (m_vs c)) X /\ List.length X = m_mu c /\ in_space (m_vs c) [VR 1] /\ m_mu c = 4 /\ m_lambda c = 10 /\
    (forall x, In x X -> x = [VR 0]) /\
    forall fit argsort rnd s0 fuel, (forall g i, noise_ok (rnd g i)) ->
      (forall i, (Qabs (n_sigma (rnd 0%nat i) 0%nat * n_R (rnd 0%nat i) 0%nat) < 10)%Q) -> construct c fit None None None X = Some s0 ->
      forall x f, In (x, f) (evaluated (final_par (optimize_par c fit argsort rnd fuel 0 s0))) -> exists q, x = [VR q] /\ (q == 0)%Q.
Proof.
  exists (mkM coarse 4 10 true false (Some 1000)), (repeat [VR 0] 4).
  assert (D : in_domain coarse [VR 0]) by (constructor; [exists 0%Q; repeat split; discriminate|constructor]).
  split; [repeat constructor|]. split; [apply Forall_forall; intros x I; apply repeat_spec in I; subst x; exact D|]. split; [reflexivity|]. split; [constructor; [exists 1%Q; repeat split; discriminate|constructor]|]. do 2 (split; [reflexivity|]).
  assert (X0 : forall x, In x (repeat [VR 0] 4) -> x = [VR 0]) by (intros x I; now apply repeat_spec in I). split; [exact X0|].
  intros fit argsort rnd s0 fuel N B H x f I. unfold evaluated in I. apply in_map_iff in I as (a & E & I). injection E as <- <-.
  assert (F := coarse_frozen (mkM coarse 4 10 true false (Some 1000)) fit argsort rnd (repeat [VR 0] 4) s0 fuel eq_refl eq_refl (fun x Hx => or_introl (X0 x Hx)) (fun g i => proj1 (N g i)) B H).
  rewrite Forall_forall in F. destruct (F a I) as (q & y & E1 & E2 & E3). exists q. split; [exact E1|]. apply X0 in E2. injection E2 as ->. exact E3.
Qed.
Print Assumptions C197_frozen_refuted.

(** C197, what holds: without a precision the repair of a step out of the box never increases the step size, and a step that
    stays inside keeps it. *)
Theorem C197_step_size_partial :
  forall vs d a b i j v lb ub s, noise_ok d -> Forall proper vs -> in_domain vs (i_x a) -> mutate_par vs d a = Some b ->
    nth_error (id_r vs) j = Some i -> nth_error vs i = Some v -> vkind v = KReal lb ub None -> nth_error (i_sigma a) j = Some s -> (0 <= s)%Q ->
    exists u q s', nth_error (i_x a) i = Some u /\ as_num u = Some q /\ nth_error (i_sigma b) j = Some s' /\ (0 <= s')%Q /\ (s' <= s * n_sigma d j)%Q /\
      ((lb <= q + s * n_sigma d j * n_R d j)%Q -> (q + s * n_sigma d j * n_R d j <= ub)%Q -> (s' == s * n_sigma d j)%Q).
Proof. exact sigma_step. Qed.
Print Assumptions C197_step_size_partial.
Example C197_example :
  let d := mkNoise 0 0 (fun _ => false) (fun _ => 1%Q) (fun _ => 3%Q) (fun _ => 1%Q) (fun _ => 1%Z) (fun _ => 1%Z) 1%Q (fun _ => 1%Q) (fun _ => 0) in
  let a := mkInd [VR (9 # 10)] [(1 # 10)%Q] [] [] in
  noise_ok d /\ in_domain [mkVar "x"%string (KReal 0 1 None)] (i_x a) /\
  exists b s', mutate_par [mkVar "x"%string (KReal 0 1 None)] d a = Some b /\ i_sigma b = [s'] /\ (s' < 1 # 10)%Q.
Proof.
  cbv zeta. split; [repeat split; intros; try reflexivity; discriminate|]. split; [constructor; [exists (9 # 10)%Q; repeat split; discriminate|constructor]|].
  do 2 eexists. split; [vm_compute; reflexivity|]. split; [reflexivity|reflexivity].
Qed.

(** C198: parameters given by the caller (sigma0, eta0, P0) for variables that exist make the constructor raise. *)
Theorem C198_given_refuted :
  forall c fit s0 e0 p0 X,
    (id_r (m_vs c) <> [] /\ (exists l, s0 = Some l /\ l <> [])) \/ (id_i (m_vs c) <> [] /\ (exists l, e0 = Some l /\ l <> [])) \/ (id_d (m_vs c) <> [] /\ (exists l, p0 = Some l /\ l <> [])) ->
    construct c fit s0 e0 p0 X = None.
Proof. exact given_raises. Qed.
Print Assumptions C198_given_refuted.
Theorem C198_default_partial : forall c fit X, X <> [] -> exists s, construct c fit None None None X = Some s /\ map fst (evaluated s) = X.
Proof.
  intros c fit X H. destruct (default_constructs c fit X H) as (s & E). exists s. split; [exact E|]. destruct (construct_forget _ _ _ _ _ _ _ E) as (I & _). unfold init in I. destruct (first_best c (evaluate fit 0 X)) as [[x f]|]; [|discriminate].
  assert (T : evaluated s = evaluate fit 0 X) by (unfold forget in I; congruence). rewrite T. apply evaluate_fst.
Qed.
Print Assumptions C198_default_partial.
Example C198_example : id_r (m_vs mixed) <> [] /\ construct mixed (fun _ _ _ => 0%Q) (Some [(1 # 4)%Q]) None None [[VR 0; VI 2; VS "a"%string]] = None /\
  exists s, construct mixed (fun _ _ _ => 0%Q) None None None [[VR 0; VI 2; VS "a"%string]] = Some s.
Proof. split; [discriminate|]. split; [reflexivity|]. eexists. vm_compute. reflexivity. Qed.

(** C199: the tolerance on the fitness is never reported unless the number of offspring divides the number of parents; the default
    numbers are 4 and 10.  A run on values that never differ by more than a thousandth of the tolerance goes on for ever. *)
Theorem C199_dead_refuted :
  (forall c fit argsort rnd X s0 fuel, construct c fit None None None X = Some s0 -> ~ Nat.divide (m_lambda c) (List.length X) ->
     ~ In TolFun (p_stop (final_par (optimize_par c fit argsort rnd fuel 0 s0)))) /\
  exists c fit, m_mu c = 4 /\ m_lambda c = 10 /\
    forall argsort rnd X s0, sorts argsort -> (forall g i, noise_ok (rnd g i)) -> (forall g i, i < m_lambda c -> positions_ok (m_vs c) (m_mu c) (rnd g i)) ->
      Forall (in_domain (m_vs c)) X -> List.length X = m_mu c -> construct c fit None None None X = Some s0 ->
      forall fuel, exists r, optimize_par c fit argsort rnd fuel 0 s0 = OutOfFuel_par r /\ p_iters r = fuel /\
        forall x1 f1 x2 f2, In (x1, f1) (evaluated r) -> In (x2, f2) (evaluated r) -> (Qabs (f1 - f2) <= tolfun / 1000)%Q.
Proof.
  split.
  - intros c fit argsort rnd X s0 fuel H ND T. destruct (construct_forget _ _ _ _ _ _ _ H) as (_ & P & _). apply ND.
    destruct (tolfun_divides c fit argsort rnd (List.length X) fuel s0 (counted_construct c fit _ _ _ _ _ H) P T) as (k & E). exists k. exact E.
  - exists default_run, slight. do 2 (split; [reflexivity|]). intros argsort rnd X s0 SO N PO D L H fuel.
    destruct (construct_forget _ _ _ _ _ _ _ H) as (_ & P & I & _). pose proof (counted_construct _ _ _ _ _ _ _ H) as C. rewrite L in C.
    assert (F0 : Forall (fun a => (0 <= snd a /\ snd a <= 1 # 100000000)%Q) (p_trace s0)).
    { unfold construct in H. cbn [par_columns] in H. destruct (_ =? _); [|discriminate]. destruct (first_best _ _) as [[? ?]|]; [|discriminate].
      assert (E' : Some s0 = Some s0) by reflexivity. rewrite <- H in E' at 1. injection E' as E'. subst s0. cbn [p_trace]. apply slight_small. rewrite map_length, L. cbn. lia. }
    destruct (endless argsort rnd SO N PO fuel 0 s0 (healthy_construct _ _ _ _ _ _ _ D L H) C P F0 (or_introl I)) as (r & R1 & R2 & R3). exists r. split; [exact R1|]. split; [lia|].
    intros x1 f1 x2 f2 A B. unfold evaluated in A, B. apply in_map_iff in A as (a & E & A). apply in_map_iff in B as (b & E2 & B). injection E as _ <-. injection E2 as _ <-. rewrite Forall_forall in R3. apply R3 in A, B.
    unfold tolfun. change ((1 # 100000) / 1000)%Q with (1 # 100000000)%Q. apply Qabs_Qle_condition. split; Lqa.lra.
Qed.
Print Assumptions C199_dead_refuted.
Example C199_example : exists s0, construct default_run slight None None None (repeat [VR 0] 4) = Some s0 /\ positions_ok (m_vs default_run) 4 small_noise /\ noise_ok small_noise /\
  ~ Nat.divide (m_lambda default_run) (List.length (repeat [VR 0] 4)).
Proof.
  eexists. split; [vm_compute; reflexivity|]. split; [split; [cbn; lia|split; [cbn; lia|]]; intros [|j] i v E; discriminate E|]. split; [repeat split; intros; try reflexivity; discriminate|]. intros (k & K). cbn in K. lia.
Qed.

(** C199, what holds: if the number of offspring divides the number of parents, the criterion is reported only when the first
    offspring of the last nbin generations agree up to the tolerance, and then always at the generations where it is tested. *)
Theorem C199_tolerance_partial :
  forall c fit argsort rnd X s0 fuel k, 1 <= m_lambda c -> construct c fit None None None X = Some s0 -> List.length X = k * m_lambda c ->
    match optimize_par c fit argsort rnd fuel 0 s0 with
    | Done_par r | OutOfFuel_par r =>
        (In TolFun (p_stop r) -> (k + p_iters r) mod nbin c = 0 /\ stagnant (List.length X) (m_lambda c) (nbin c) tolfun r) /\
        (nbin c <= p_iters r -> (k + p_iters r) mod nbin c = 0 -> stagnant (List.length X) (m_lambda c) (nbin c) tolfun r -> In TolFun (p_stop r))
    | Raised_par _ => True
    end.
Proof.
  intros c fit argsort rnd X s0 fuel k L H E. destruct (construct_forget _ _ _ _ _ _ _ H) as (I & P & I0 & _). pose proof (counted_construct _ _ _ _ _ _ _ H) as C. rewrite E in *.
  assert (K : 1 <= k). { destruct k; [|lia]. destruct X; [|discriminate]. discriminate. }
  exact (tol_run c fit argsort rnd k fuel s0 L K C I0 P).
Qed.
Print Assumptions C199_tolerance_partial.
(** Thirty parents and thirty offspring, the first of which is always the best: the run ends with this reason. *)
Definition square : mcfg := mkM [mkVar "x"%string (KReal 0 1 None)] 2 2 true false None.
Definition wide : mcfg := mkM [mkVar "x"%string (KReal 0 1 None)] 30 30 true false None.
Example C199_example2 : exists s0 r, construct wide (fun _ i _ => inject_Z (Z.of_nat i)) None None None (repeat [VR 0] 30) = Some s0 /\ List.length (repeat [VR 0] 30) = 1 * m_lambda wide /\
  optimize_par wide (fun _ i _ => inject_Z (Z.of_nat i)) argsort_stable (fun _ _ => mkNoise 0 0 (fun _ => false) (fun _ => 1%Q) (fun _ => 1%Q) (fun _ => 1%Q) (fun _ => 1%Z) (fun _ => 1%Z) 1%Q (fun _ => 1%Q) (fun _ => 0)) 9 0 s0 = Done_par r /\
  p_stop r = [TolFun] /\ p_iters r = 3 /\ nbin wide = 4.
Proof. do 2 eexists. split; [vm_compute; reflexivity|]. split; [reflexivity|]. split; [vm_compute; reflexivity|]. repeat split; vm_compute; reflexivity. Qed.

(** C200: the flat-fitness criterion compares two entries of the unsorted offspring.  With one parent it compares an offspring with
    itself, so that every run ends after one generation; with one offspring and several parents it raises IndexError. *)
Theorem C200_one_parent_refuted :
  forall c fit argsort rnd X s0 fuel, m_mu c = 1 -> 1 <= m_lambda c -> construct c fit None None None X = Some s0 ->
    p_iters (final_par (optimize_par c fit argsort rnd fuel 0 s0)) <= 1.
Proof.
  intros c fit argsort rnd X s0 fuel M L H. destruct (construct_forget _ _ _ _ _ _ _ H) as (_ & P & I & _). exact (flat_one c fit argsort rnd fuel 0 s0 M L _ (counted_construct _ _ _ _ _ _ _ H) P I).
Qed.
Print Assumptions C200_one_parent_refuted.
Theorem C200_one_offspring_refuted :
  forall c fit argsort rnd X s0 fuel, sorts argsort -> (forall g i, noise_ok (rnd g i)) -> (forall g i, i < m_lambda c -> positions_ok (m_vs c) (m_mu c) (rnd g i)) ->
    Forall proper (m_vs c) -> Forall (in_domain (m_vs c)) X -> List.length X = m_mu c -> construct c fit None None None X = Some s0 ->
    2 <= m_mu c -> m_lambda c = 1 -> m_elitism c = true -> (forall m, m_max c = Some m -> m_mu c <= m) -> 1 <= fuel ->
    exists r, optimize_par c fit argsort rnd fuel 0 s0 = Raised_par r /\ p_iters r = 1.
Proof.
  intros c fit argsort rnd X s0 fuel SO N PO PR D LX H M L E B F. destruct (construct_forget _ _ _ _ _ _ _ H) as (_ & P & I & V & _). destruct fuel as [|fuel]; [lia|].
  apply (one_offspring c fit argsort SO rnd N PO PR ltac:(lia) (or_introl E) (List.length X)); auto.
  - eapply healthy_construct; eauto.
  - eapply counted_construct; eauto.
  - unfold over. destruct (m_max c) as [m|]; [|reflexivity]. rewrite V, LX. specialize (B m eq_refl). replace (m <? m_mu c) with false; [reflexivity|]. symmetry. apply Nat.ltb_ge. exact B.
Qed.
Print Assumptions C200_one_offspring_refuted.
(** What holds: with at least two of each it is reported only if two different offspring of the last generation are equally good. *)
Theorem C200_flat_partial :
  forall c fit argsort rnd X s0 fuel r, 2 <= m_mu c -> 2 <= m_lambda c -> construct c fit None None None X = Some s0 ->
    optimize_par c fit argsort rnd fuel 0 s0 = Done_par r -> In FlatFitness (p_stop r) ->
    exists i j f f', i <> j /\ i < m_lambda c /\ j < m_lambda c /\
      option_map snd (nth_error (p_trace r) (List.length X + (p_iters r - 1) * m_lambda c + i)) = Some f /\
      option_map snd (nth_error (p_trace r) (List.length X + (p_iters r - 1) * m_lambda c + j)) = Some f' /\ (f == f')%Q.
Proof.
  intros c fit argsort rnd X s0 fuel r M L H R F. destruct (construct_forget _ _ _ _ _ _ _ H) as (_ & P & I & V & _). pose proof (counted_construct _ _ _ _ _ _ _ H) as C.
  pose proof (optimize_inv_par c fit argsort rnd (counted c (List.length X)) (counted c (List.length X)) (fun s s' A _ B => stop_counted c _ s s' A B) (fun g s s' A _ B => generation_counted c fit argsort rnd _ g s s' A B) fuel 0 s0 C P) as J.
  rewrite R in J. destruct J as (CR & s' & Cs & Ps & ES). destruct (flat_sound c s' r M L Ps ES F) as (i & j & f & NE & E1 & f' & E2 & EQ).
  destruct CR as (A1 & A2 & A3 & A4 & _).
  assert (I1 : 1 <= p_iters r).
  { destruct (stop_par_same _ _ _ ES) as (_ & _ & EI & _). destruct (Nat.eq_dec (p_iters s') 0) as [Z|Z]; [|lia]. exfalso. destruct (stop_first c s' Z) as (s1 & E & PS & _). assert (s1 = r) by congruence. subst s1. rewrite PS, Ps in F. apply over_max in F. discriminate. }
  destruct (A4 I1) as (old & LO & TO). exists i, j, f, f'. split; [exact NE|]. split; [rewrite <- A2; apply nth_error_Some; congruence|]. split; [rewrite <- A2; apply nth_error_Some; congruence|].
  assert (G : forall k, option_map snd (nth_error (p_trace r) (List.length X + (p_iters r - 1) * m_lambda c + k)) = nth_error (p_off r) k).
  { intro k. rewrite <- nth_error_map, TO, nth_error_app2 by lia. f_equal. lia. }
  rewrite !G. auto.
Qed.
Print Assumptions C200_flat_partial.
Example C200_example :
  (exists s0, construct (mkM [mkVar "x"%string (KReal 0 1 None)] 1 3 true true (Some 100)) (fun _ _ _ => 0%Q) None None None [[VR 0]] = Some s0) /\
  (exists s0, construct (mkM [mkVar "x"%string (KReal 0 1 None)] 2 1 true true (Some 100)) (fun _ i _ => inject_Z (Z.of_nat i)) None None None [[VR 0]; [VR 1]] = Some s0 /\
     exists r, optimize_par (mkM [mkVar "x"%string (KReal 0 1 None)] 2 1 true true (Some 100)) (fun _ i _ => inject_Z (Z.of_nat i)) argsort_stable (fun _ _ => small_noise) 5 0 s0 = Raised_par r /\ p_iters r = 1) /\
  (exists s0 r, construct square (fun _ _ _ => 0%Q) None None None [[VR 0]; [VR 1]] = Some s0 /\ optimize_par square (fun _ _ _ => 0%Q) argsort_stable (fun _ _ => small_noise) 5 0 s0 = Done_par r /\ p_stop r = [FlatFitness]).
Proof.
  split; [eexists; vm_compute; reflexivity|]. split.
  - eexists. split; [vm_compute; reflexivity|]. eexists. split; vm_compute; reflexivity.
  - do 2 eexists. split; [vm_compute; reflexivity|]. split; vm_compute; reflexivity.
Qed.

(** C30 and C31 for the runs of this model: with the step sizes and the criteria the program computes. *)
Theorem C30_with_parameters :
  forall c fit argsort rnd s0 e0 p0 X s fuel,
    sorts argsort -> Forall proper (m_vs c) -> Forall (in_domain (m_vs c)) X -> (forall g i, noise_ok (rnd g i)) -> construct c fit s0 e0 p0 X = Some s ->
    let r := final_par (optimize_par c fit argsort rnd fuel 0 s) in
    (forall x f, In (x, f) (evaluated r) -> in_domain (m_vs c) x) /\ in_domain (m_vs c) (p_xopt r).
Proof.
  intros c fit argsort rnd s0 e0 p0 X s fuel SO PR D N H r. destruct (construct_forget _ _ _ _ _ _ _ H) as (I & P & _).
  destruct (forget_final c fit argsort rnd fuel 0 s (fun g i => proj1 (N g i)) P) as (rnd' & st' & _ & E). fold r in E.
  destruct (C30_domain c fit argsort rnd' st' X (forget s) fuel SO PR D I) as (A & _ & B). rewrite <- E in A, B. split; [exact A|exact B].
Qed.
Print Assumptions C30_with_parameters.
Theorem C31_with_parameters :
  forall c fit argsort rnd s0 e0 p0 X s fuel,
    sorts argsort -> Forall proper (m_vs c) -> Forall (in_domain (m_vs c)) X -> (forall g i, noise_ok (rnd g i)) -> construct c fit s0 e0 p0 X = Some s ->
    let r := final_par (optimize_par c fit argsort rnd fuel 0 s) in
    In (p_xopt r, p_fopt r) (evaluated r) /\ (forall x f, In (x, f) (evaluated r) -> no_worse (m_min c) (p_fopt r) f) /\ p_evals r = List.length (evaluated r).
Proof.
  intros c fit argsort rnd s0 e0 p0 X s fuel SO PR D N H r. destruct (construct_forget _ _ _ _ _ _ _ H) as (I & P & _).
  destruct (forget_final c fit argsort rnd fuel 0 s (fun g i => proj1 (N g i)) P) as (rnd' & st' & _ & E). fold r in E.
  destruct (C31_best_of_all c fit argsort rnd' st' X (forget s) fuel SO PR D I) as (A & B & C). rewrite <- E in A, B, C. split; [exact A|]. split; [exact B|exact C].
Qed.
Print Assumptions C31_with_parameters.
(** The run ends within the budget and one generation, unless there is one offspring for several parents (C200). *)
Theorem C31_budget_with_parameters :
  forall c fit argsort rnd X s m,
    sorts argsort -> Forall proper (m_vs c) -> Forall (in_domain (m_vs c)) X -> List.length X = m_mu c -> construct c fit None None None X = Some s ->
    (forall g i, noise_ok (rnd g i)) -> (forall g i, i < m_lambda c -> positions_ok (m_vs c) (m_mu c) (rnd g i)) ->
    m_max c = Some m -> 1 <= m_mu c -> 1 <= m_lambda c -> (m_elitism c = true \/ m_mu c <= m_lambda c) -> (m_mu c = 1 \/ 2 <= m_lambda c) ->
    exists r, optimize_par c fit argsort rnd (S m) 0 s = Done_par r /\ List.length (evaluated r) <= Nat.max (m_mu c) (m + m_lambda c) /\
      List.length (evaluated r) = m_mu c + p_iters r * m_lambda c.
Proof.
  intros c fit argsort rnd X s m SO PR D LX H N PO B M L E K. destruct (construct_forget _ _ _ _ _ _ _ H) as (I & P & I0 & V & _). pose proof (counted_construct _ _ _ _ _ _ _ H) as C.
  destruct (optimize_par_total c fit argsort SO rnd N PO PR M E (List.length X) m B K L (S m) 0 s) as (r & R); auto; [eapply healthy_construct; eauto|lia|].
  exists r. split; [exact R|]. unfold evaluated. rewrite map_length.
  pose proof (optimize_inv_par c fit argsort rnd (fun t => counted c (List.length X) t /\ p_evals t <= Nat.max (m_mu c) (m + m_lambda c))
    (fun t => counted c (List.length X) t /\ p_evals t <= Nat.max (m_mu c) (m + m_lambda c) /\ (p_stop t = [] -> p_evals t <= m))) as J.
  specialize (J ltac:(intros t t' (A & A') Pt ES; split; [eapply stop_counted; eauto|]; destruct (stop_par_same _ _ _ ES) as (_ & _ & _ & EV & _); destruct (stop_forget _ _ _ ES) as (_ & ST); rewrite EV; split; [exact A'|];
    intro Z; destruct (le_lt_dec (p_evals t) m) as [G|G]; [exact G|]; destruct (ST Pt m B G Z))).
  specialize (J ltac:(intros g t t' (A & A' & A'') Pt G; split; [eapply generation_counted; eauto|]; destruct (generation_counts _ _ _ _ _ _ _ G) as (off & _ & _ & _ & EV & _); specialize (A'' Pt); lia)).
  specialize (J (S m) 0 s ltac:(split; [exact C|lia]) P). rewrite R in J. destruct J as ((CR & LE & _) & _). destruct CR as (A1 & _ & A3 & _). lia.
Qed.
Print Assumptions C31_budget_with_parameters.
