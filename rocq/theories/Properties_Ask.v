(** Properties C10 - C15: proposals and batch evaluation. *)
From Coq Require Import List Bool Arith ZArith QArith Qabs String Lia.
From Verif Require Import Model_Opt Model_Var Model_Ask Spec_Ask Proofs_Ask.
Import ListNotations.
Open Scope nat_scope.

(** A space of one real variable, one integer and one categorical variable for the examples. *)
Definition ex_vars : list var :=
  [mkVar "x" (KReal 0 1 None); mkVar "i" (KInt 0 10 1); mkVar "c" (KDiscrete [VS "a"; VS "b"])].
Definition ex_row (q : Q) (z : Z) (s : string) : point := [VR q; VI z; VS s].
Definition ex_samp (count n : nat) : list point :=
  map (fun i => ex_row (Z.of_nat (i + count) # 7) (Z.of_nat i) "a") (seq 0 n).
Definition ex_inner (i : nat) : point :=
  match i with 0 => ex_row (1#3) 2 "b" | 1 => [] | _ => ex_row (1#4) 3 "b" end.

(** C10: for every state, every outcome of the samplers ([samp] never returns more rows than
    requested) and of the inner optimizer, ask(n), n >= 1, returns between 1 and n points or
    raises.  n_point = None stands for the defaults. *)
Theorem C10_ask_count :
  forall vs samp inner batch (fitted : bool) data n_default doe_size n_point fixed X,
    (forall count n, List.length (samp count n) <= n) ->
    let n : nat := match n_point with Some n => n | None => if fitted then n_default else doe_size end in
    1 <= n ->
    ask vs samp inner batch fitted data n_default doe_size n_point fixed = Ok X ->
    1 <= List.length X <= n.
Proof. exact ask_count. Qed.
Print Assumptions C10_ask_count.

(** The only ways of raising: the empty-proposal error, or NotImplementedError when a class
    without a batch strategy is asked for several points.  Rows have one value per free variable. *)
Theorem C10_ask_errors :
  forall vs samp inner batch (fitted : bool) data n_default doe_size n_point fixed e,
    let free := free_vars vs (match fixed with Some f => f | None => [] end) in
    (forall count n x, In x (samp count n) -> List.length x = List.length free) ->
    (forall i, inner i = [] \/ List.length (inner i) = List.length free) ->
    ask vs samp inner batch fitted data n_default doe_size n_point fixed = Err e ->
    e = EAskEmpty \/ e = ENotImplemented.
Proof. exact ask_errors. Qed.
Print Assumptions C10_ask_errors.

Example C10_example :
  (forall count n, List.length (ex_samp count n) <= n) /\
  exists X, ask ex_vars ex_samp ex_inner true true [ex_row 0 0 "a"] 3 5 None None = Ok X /\ List.length X = 3.
Proof.
  split.
  - intros. unfold ex_samp. rewrite map_length, seq_length. lia.
  - eexists. split; [vm_compute; reflexivity|reflexivity].
Qed.
Example C10_example_empty :
  ask ex_vars (fun _ n => repeat (ex_row 0 0 "a") n) (fun _ => []) true true [ex_row 0 0 "a"] 3 5 None None = Err EAskEmpty.
Proof. vm_compute. reflexivity. Qed.

(** C11: no returned point has a near-duplicate among the evaluated points. *)
Theorem C11_no_repeat :
  forall vs samp inner batch fitted data n_default doe_size n_point fixed X x y,
    ask vs samp inner batch fitted data n_default doe_size n_point fixed = Ok X ->
    In x X -> In y data -> ~ near_duplicate vs y x.
Proof.
  intros vs samp inner batch fitted data nd ds np fx X x y H Hx Hy HN.
  apply near_iff in HN. rewrite (ask_not_near _ _ _ _ _ _ _ _ _ _ _ _ _ H Hx Hy) in HN. discriminate.
Qed.
Print Assumptions C11_no_repeat.

Example C11_example :
  near_duplicate ex_vars (ex_row (1#3) 2 "b") (ex_row ((1#3) + (1#1000000)) 2 "b") /\
  ~ near_duplicate ex_vars (ex_row (1#3) 2 "b") (ex_row (1#3) 2 "a") /\
  ask ex_vars ex_samp ex_inner true true [ex_row ((1#3) + (1#1000000)) 2 "b"] 1 5 None None = Ok [ex_row (0#7) 0 "a"].
Proof.
  split; [apply near_iff; vm_compute; reflexivity|]. split.
  - intro H. apply near_iff in H. vm_compute in H. discriminate.
  - vm_compute. reflexivity.
Qed.

Definition ex_same (count n : nat) : list point := repeat (ex_row (1#3) 2 "b") n.
(** C12: refuted.  The random points that top up a batch are compared with the evaluated
    points but not with the acquisition's candidates of the same batch. *)
Theorem C12_batch_distinct_refuted :
  exists vs samp inner X x,
    (forall count n, List.length (samp count n) <= n) /\
    ask vs samp inner true true [] 2 5 None None = Ok X /\
    nth_error X 0 = Some x /\ nth_error X 1 = Some x.
Proof.
  exists ex_vars, ex_same, ex_inner, [ex_row (1#3) 2 "b"; ex_row (1#3) 2 "b"], (ex_row (1#3) 2 "b").
  split; [intros; unfold ex_same; rewrite repeat_length; lia|].
  repeat split; vm_compute; reflexivity.
Qed.
Print Assumptions C12_batch_distinct_refuted.

(** The initial design has the same gap between its passes: rows accepted in one pass are not
    compared with rows of a later one. *)
Definition ex_passes (count n : nat) : list point :=
  firstn n (match count with
            | 0 => [ex_row 0 0 "a"; ex_row (1#2) 5 "b"; ex_row (1#2) 5 "b"]
            | _ => [ex_row 0 0 "a"; ex_row (1#4) 1 "b"]
            end).
Theorem C12_design_distinct_refuted :
  exists vs samp inner X x,
    (forall count n, List.length (samp count n) <= n) /\
    ask vs samp inner true false [] 2 3 None None = Ok X /\
    nth_error X 0 = Some x /\ nth_error X 1 = Some x.
Proof.
  exists ex_vars, ex_passes, ex_inner, [ex_row 0 0 "a"; ex_row 0 0 "a"; ex_row (1#4) 1 "b"], (ex_row 0 0 "a").
  split; [intros; unfold ex_passes; apply firstn_le_length|].
  repeat split; vm_compute; reflexivity.
Qed.
Print Assumptions C12_design_distinct_refuted.

(** What holds: points that passed one duplicate check together are pairwise distinct (not even
    near-duplicates), so a batch is distinct when no top-up was needed.  Missing: batches
    completed by random points. *)
Theorem C12_batch_distinct_partial :
  forall vs samp inner batch data n_default doe_size n_point fixed X C a b x y,
    let n := match n_point with Some n => n | None => n_default end in
    ask vs samp inner batch true data n_default doe_size n_point fixed = Ok X ->
    arg_max_acquisition vs inner batch n fixed = Ok C ->
    n <= List.length (pre_eval_check vs data C) ->
    a <> b -> nth_error X a = Some x -> nth_error X b = Some y -> ~ near_duplicate vs x y.
Proof.
  intros vs samp inner batch data nd ds np fx X C a b x y n H HA HL N Ha Hb HD.
  apply near_iff in HD. rewrite (ask_pairwise _ _ _ _ _ _ _ _ _ _ _ _ _ _ _ H HA HL N Ha Hb) in HD. discriminate.
Qed.
Print Assumptions C12_batch_distinct_partial.

(** Likewise for an initial design whose first sample had no duplicates. *)
Theorem C12_design_distinct_partial :
  forall vs samp data n fixed r a b x y,
    (forall X, fillin vs (Some (match fixed with Some f => f | None => [] end)) (samp 0 n) = Ok X ->
       n <= List.length (pre_eval_check vs data (map (round_point vs) X))) ->
    create_doe vs samp data n fixed = Ok r ->
    a <> b -> nth_error r a = Some x -> nth_error r b = Some y -> ~ near_duplicate vs x y.
Proof.
  intros vs samp data n fx r a b x y HL H N Ha Hb HD.
  apply near_iff in HD. rewrite (doe_pairwise _ _ _ _ _ _ _ _ _ _ HL H N Ha Hb) in HD. discriminate.
Qed.
Print Assumptions C12_design_distinct_partial.

Example C12_example :
  let inner := fun i => ex_row (1#3) (Z.of_nat i) "b" in
  exists X C, ask ex_vars ex_samp inner true true [ex_row 0 0 "a"] 3 5 None None = Ok X /\
    arg_max_acquisition ex_vars inner true 3 None = Ok C /\
    3 <= List.length (pre_eval_check ex_vars [ex_row 0 0 "a"] C) /\ List.length X = 3.
Proof. do 2 eexists. repeat split; vm_compute; try reflexivity; auto. Qed.
Example C12_example_design :
  (forall X, fillin ex_vars (Some []) (ex_samp 0 4) = Ok X ->
     4 <= List.length (pre_eval_check ex_vars [] (map (round_point ex_vars) X))) /\
  exists r, create_doe ex_vars ex_samp [] 4 None = Ok r /\ List.length r = 4.
Proof.
  split.
  - vm_compute. intros X [= <-]. auto.
  - eexists. split; vm_compute; reflexivity.
Qed.

(** C13: refuted.  Sampled points are rounded after the fixed values have been filled in, so a
    value fixed for a real variable with a precision comes back rounded. *)
Theorem C13_fixed_exact_refuted :
  exists vs samp inner f X x n c c',
    NoDup (map vname vs) /\ In n (map vname vs) /\ lookup f n = Some c /\
    ask vs samp inner false false [] 1 1 None (Some f) = Ok X /\ In x X /\
    component vs x n = Some c' /\ val_eqb c' c = false.
Proof.
  exists [mkVar "x" (KReal 0 1 (Some 1%Z)); mkVar "y" (KReal 0 1 None)],
    (fun _ n => repeat [VR (1#3)] n), (fun _ => []), [("x"%string, VR (1#4))],
    [[VR (2#10); VR (1#3)]], [VR (2#10); VR (1#3)], "x"%string, (VR (1#4)), (VR (2#10)).
  split; [repeat constructor; simpl; intuition discriminate|].
  repeat split; try (vm_compute; reflexivity); simpl; auto.
Qed.
Print Assumptions C13_fixed_exact_refuted.

(** What holds: if each fixed value is unchanged by the rounding of its variable (every
    non-real variable, every real variable without a precision, values already on the grid),
    every returned point has the fixed value (==) in each fixed variable, and its free
    components are, in order, those of one acquisition candidate or of one (rounded) sample. *)
Theorem C13_fixed_exact_partial :
  forall vs samp inner batch fitted data n_default doe_size n_point (f : fixed_t) X x,
    NoDup (map vname vs) ->
    (forall v c lb ub p, In v vs -> lookup f (vname v) = Some c -> vkind v = KReal lb ub (Some p) ->
       exists q, as_num c = Some q /\ (real_round lb ub (Some p) q == q)%Q) ->
    ask vs samp inner batch fitted data n_default doe_size n_point (Some f) = Ok X -> In x X ->
    (forall n c, In n (map vname vs) -> lookup f n = Some c ->
       exists c', component vs x n = Some c' /\ val_eqb c' c = true) /\
    ((exists i, inner i <> [] /\ free_part vs f x = inner i) \/
     (exists count n s, In s (samp count n) /\ free_part vs f x = round_point (free_vars vs f) s)).
Proof.
  intros vs samp inner batch fitted data nd ds np f X x HN HR.
  apply ask_fixed; auto. intros v c Hv Hl.
  destruct (vkind v) as [lb ub [p|]| | | | |] eqn:E; try (apply round_val_noprec; discriminate).
  destruct (HR v c lb ub p Hv Hl E) as (q&E1&E2). eapply round_val_grid; eauto.
Qed.
Print Assumptions C13_fixed_exact_partial.

Example C13_example :
  let f := [("i"%string, VI 7)] in
  let samp := fun _ n => repeat [VR (1#3); VS "b"] n in
  NoDup (map vname ex_vars) /\
  ask ex_vars samp (fun _ => []) true true [ex_row 0 7 "a"] 1 5 None (Some f) = Ok [ex_row (1#3) 7 "b"] /\
  component ex_vars (ex_row (1#3) 7 "b") "i" = Some (VI 7) /\
  free_part ex_vars f (ex_row (1#3) 7 "b") = [VR (1#3); VS "b"].
Proof.
  split; [repeat constructor; simpl; intuition discriminate|]. repeat split; vm_compute; reflexivity.
Qed.

(** C14: every returned point lies in the space, given that samples and non-empty results of
    the inner optimizer do (rounding to a precision included). *)
Theorem C14_in_space :
  forall vs samp inner batch fitted data n_default doe_size n_point X,
    (forall v lb ub p, In v vs -> vkind v = KReal lb ub p -> (lb <= ub)%Q) ->
    (forall count n x, In x (samp count n) -> in_space vs x) ->
    (forall i, inner i <> [] -> in_space vs (inner i)) ->
    ask vs samp inner batch fitted data n_default doe_size n_point None = Ok X ->
    forall x, In x X -> in_space vs x.
Proof. exact ask_in_space. Qed.
Print Assumptions C14_in_space.

Example C14_example :
  let vs := [mkVar "x" (KReal (1#3) (2#3) (Some 1%Z)); mkVar "i" (KInt 1 10 3)] in
  let samp := fun (_ n : nat) => repeat [VR (1#3); VI 7] n in
  (forall count n x, In x (samp count n) -> in_space vs x) /\
  ask vs samp (fun _ => []) false false [] 1 1 None None = Ok [[VR (1#3); VI 7]].
Proof.
  cbv zeta. split; [|vm_compute; reflexivity]. intros _ n x H. apply repeat_spec in H. subst x.
  constructor; [|constructor; [|constructor]]; simpl.
  - exists (1#3). repeat split; discriminate.
  - exists 2%Z. repeat split; try discriminate.
Qed.

(** C15: whatever the order in which the jobs finish (any schedule in which every job
    finishes), the result has the value of X[i] at position i. *)
Theorem C15_evaluate_order :
  forall (A B : Type) (f : A -> B) (X : list A) (schedule : list nat),
    (forall i, i < List.length X -> In i schedule) ->
    exists out, evaluate_parallel f X schedule = Some out /\
      List.length out = List.length X /\
      forall i x, nth_error X i = Some x -> nth_error out i = Some (f x).
Proof.
  intros A B f X sched H. exists (map f X). split; [apply evaluate_parallel_ok, H|].
  split; [apply map_length|]. intros i x E. rewrite nth_error_map, E. reflexivity.
Qed.
Print Assumptions C15_evaluate_order.

Theorem C15_evaluate_multi :
  forall (A B : Type) (fs : list (A -> B)) (X : list A), fs <> [] ->
    List.length (evaluate_multi fs X) = List.length X /\
    forall i k x f, nth_error X i = Some x -> nth_error fs k = Some f ->
      exists row, nth_error (evaluate_multi fs X) i = Some row /\ List.length row = List.length fs /\
                  nth_error row k = Some (f x).
Proof.
  intros A B fs X H. destruct (zip_star_entry fs X H) as [H1 H2]. split; [exact H1|].
  intros i k x f Hx Hf. exists (map (fun f => f x) fs). split; [apply H2, Hx|].
  split; [apply map_length|]. rewrite nth_error_map, Hf. reflexivity.
Qed.
Print Assumptions C15_evaluate_multi.

Example C15_example :
  evaluate_parallel (fun n => n * n) [3; 4; 5] [2; 0; 1] = Some [9; 16; 25] /\
  evaluate_parallel (fun n => n * n) [3; 4; 5] [2; 0] = None /\
  evaluate_multi [(fun n => n * n); (fun n => n + 1)] [3; 4; 5] = [[9; 4]; [16; 5]; [25; 6]].
Proof. repeat split. Qed.
