(** Properties C24 - C26, C95: multi-objective recommendation, reference point, accounting,
    evaluation. *)
From Coq Require Import List Bool Arith ZArith QArith Sorted Lia Lqa.
From Verif Require Import Lib_List Model_Pareto Spec_Pareto Proofs_Pareto Model_MOBO Spec_MOBO Proofs_MOBO Proofs_Float32.
Import ListNotations.
Open Scope nat_scope.

(** C24, full statement (refuted): the recommendation consists of exactly the observed points
    that no observed point beats in the user's orientation.
    (a) Of several non-dominated observations with the same objective values only the first is
    returned, whatever the precision of the conversion. *)
Theorem C24_duplicates_refuted :
  exists minimize F i p, rectangular (length minimize) F /\ nth_error F i = Some p /\
    (forall q, In q F -> ~ beats minimize q p) /\
    ~ In i (xopt_index (fun v => v) minimize F) /\ ~ In i (xopt_index float32 minimize F).
Proof.
  exists [true; true], [[1#1; 2#1]; [1#1; 2#1]]%Q, 1, [1#1; 2#1]%Q.
  split; [intros p H; simpl in H; intuition (subst; reflexivity)|]. split; [reflexivity|]. split.
  - intros q Hq (_&j&mn&Hj&B). assert (q = [1#1; 2#1]%Q) by (simpl in Hq; intuition congruence). subst q.
    destruct j as [|[|j]]; simpl in Hj; [| |destruct j; discriminate]; injection Hj as <-; unfold better in B; simpl in B; lra.
  - split; vm_compute; intuition discriminate.
Qed.
Print Assumptions C24_duplicates_refuted.

(** (b) The values are rounded to single precision before they are compared: a dominated point is
    recommended, and the point that beats it is not. *)
Theorem C24_single_precision_refuted :
  exists minimize F i j p q, rectangular (length minimize) F /\
    nth_error F i = Some p /\ nth_error F j = Some q /\ beats minimize q p /\
    (forall r, In r F -> ~ beats minimize r q) /\
    In i (xopt_index float32 minimize F) /\ ~ In j (xopt_index float32 minimize F).
Proof.
  exists [true; true], [[0#1; 1#1]; [1#1; 0#1]; [536870913 # 1073741824; 1#2]; [1#2; 1#2]]%Q, 2, 3,
    [536870913 # 1073741824; 1#2]%Q, [1#2; 1#2]%Q.
  split; [intros p H; simpl in H; intuition (subst; reflexivity)|]. split; [reflexivity|]. split; [reflexivity|].
  split; [|split].
  - split.
    + intros [|[|[|j]]] mn Hj; simpl in Hj; try discriminate; injection Hj as <-; unfold at_least_as_good; vm_compute; discriminate.
    + exists 0, true. split; reflexivity.
  - intros r Hr (A&j&mn&Hj&B). specialize (A 0 true eq_refl) as A0. specialize (A 1 true eq_refl) as A1.
    unfold at_least_as_good in *.
    destruct j as [|[|j]]; simpl in Hj; [| |destruct j; discriminate]; injection Hj as <-; unfold better in B;
      simpl in Hr; destruct Hr as [<-|[<-|[<-|[<-|[]]]]]; simpl in *; lra.
  - split; vm_compute; intuition discriminate.
Qed.
Print Assumptions C24_single_precision_refuted.

(** The part that holds: whenever the conversion keeps the order of the normalised values that
    occur in each objective, the positions returned are, in increasing order, exactly those of the observations
    that no observation beats, less the repetitions of earlier observations. *)
Theorem C24_recommendation_partial :
  forall cast minimize F, rectangular (length minimize) F ->
    (forall j, j < length minimize -> keeps_order cast (column j (y_of minimize F))) ->
    StronglySorted lt (xopt_index cast minimize F) /\
    forall i, In i (xopt_index cast minimize F) <->
      exists p, nth_error F i = Some p /\ (forall q, In q F -> ~ beats minimize q p) /\
        forall j q, j < i -> nth_error F j = Some q -> ~ same_values q p.
Proof.
  intros cast mn F HR HC. split; [apply positions_sorted|]. intros i. apply xopt_spec; assumption.
Qed.
Print Assumptions C24_recommendation_partial.

(** In particular, rescaling the objectives alone never changes the recommended set. *)
Theorem C24_rescaling_partial :
  forall minimize F, rectangular (length minimize) F ->
    forall i, In i (xopt_index (fun v => v) minimize F) <->
      exists p, nth_error F i = Some p /\ (forall q, In q F -> ~ beats minimize q p) /\
        forall j q, j < i -> nth_error F j = Some q -> ~ same_values q p.
Proof.
  intros mn F HR. apply (C24_recommendation_partial (fun v => v) mn F HR). intros j _ a b _ _. reflexivity.
Qed.
Print Assumptions C24_rescaling_partial.

(** With the conversion the code makes: if in every objective any two different values are further apart
    than 2^-23 times the range of that objective, the recommendation is exact, whatever the number of
    observations and objectives. *)
Theorem C24_resolution_partial :
  forall minimize F, rectangular (length minimize) F ->
    (forall j p q r s, j < length minimize -> In p F -> In q F -> In r F -> In s F -> (nth j p 0 < nth j q 0)%Q ->
       (nth j s 0 - nth j r 0 < (8388608 # 1) * (nth j q 0 - nth j p 0))%Q) ->
    StronglySorted lt (xopt_index float32 minimize F) /\
    forall i, In i (xopt_index float32 minimize F) <->
      exists p, nth_error F i = Some p /\ (forall q, In q F -> ~ beats minimize q p) /\
        forall j q, j < i -> nth_error F j = Some q -> ~ same_values q p.
Proof.
  intros mn F HR G. apply C24_recommendation_partial; [exact HR|]. intros j Hj. apply objective_order; [exact Hj|].
  intros p q r s Hp Hq Hr Hs. now apply (G j p q r s).
Qed.
Print Assumptions C24_resolution_partial.

(** Values a millionth of the range apart are still told apart. *)
Example C24_resolution_example :
  let F := [[0#1; 1000000#1]; [1000000#1; 0#1]; [500000#1; 3#1]; [499999#1; 3#1]]%Q in
  rectangular 2 F /\
  (forall j p q r s, j < 2 -> In p F -> In q F -> In r F -> In s F -> (nth j p 0 < nth j q 0)%Q ->
     (nth j s 0 - nth j r 0 < (8388608 # 1) * (nth j q 0 - nth j p 0))%Q) /\
  xopt_index float32 [true; true] F = [0; 1; 3] /\ beats [true; true] [499999#1; 3#1]%Q [500000#1; 3#1]%Q.
Proof.
  cbv zeta. split; [|split; [|split]].
  - intros p H. simpl in H. intuition (subst; reflexivity).
  - intros j p q r s Hj Hp Hq Hr Hs. simpl in Hp, Hq, Hr, Hs.
    assert (J : j = 0 \/ j = 1) by lia.
    destruct J as [-> | ->]; destruct Hp as [<-|[<-|[<-|[<-|[]]]]]; destruct Hq as [<-|[<-|[<-|[<-|[]]]]]; simpl; intros L; try lra;
      destruct Hr as [<-|[<-|[<-|[<-|[]]]]]; destruct Hs as [<-|[<-|[<-|[<-|[]]]]]; simpl; lra.
  - vm_compute. reflexivity.
  - split.
    + intros [|[|[|j]]] mn Hj; simpl in Hj; try discriminate; injection Hj as <-; unfold at_least_as_good; vm_compute; discriminate.
    + exists 0, true. split; reflexivity.
Qed.

Example C24_example :
  let F := [[5#1; 100#1]; [3#1; 100#1]; [5#1; 400#1]; [9#1; 900#1]; [9#1; 900#1]]%Q in
  rectangular 2 F /\ (forall j, j < 2 -> keeps_order float32 (column j (y_of [true; false] F))) /\
  xopt_index float32 [true; false] F = [1; 2; 3] /\ beats [true; false] [3#1; 100#1]%Q [5#1; 100#1]%Q.
Proof.
  cbv zeta. split; [|split; [|split]].
  - intros p H. simpl in H. intuition (subst; reflexivity).
  - intros j Hj. apply keeps_order_columns; [|exact Hj]. intros a b Ha Hb. remember (concat _) as L eqn:E. vm_compute in E. subst L.
    simpl in Ha, Hb.
    repeat (destruct Ha as [<-|Ha]; [|]); try destruct Ha;
    repeat (destruct Hb as [<-|Hb]; [|]); try destruct Hb; vm_compute; split; intros; try discriminate; congruence.
  - vm_compute. reflexivity.
  - split.
    + intros [|[|[|j]]] mn Hj; simpl in Hj; try discriminate; injection Hj as <-; unfold at_least_as_good; vm_compute; discriminate.
    + exists 0, true. split; reflexivity.
Qed.

(** C25, refuted: for every data set and every objective to be minimised that takes two
    different values, the reference point is strictly better than the worst observation. *)
Theorem C25_ref_point_refuted :
  (forall minimize F j, nth_error minimize j = Some true ->
     (exists p q, In p F /\ In q F /\ (nth j p 0 < nth j q 0)%Q) ->
     exists y, In y (y_of minimize F) /\ (nth j y 0 < nth j (ref_point minimize F) 0)%Q) /\
  exists minimize F y, In y (y_of minimize F) /\ Forall2 Qlt y (ref_point minimize F).
Proof.
  split.
  - intros mn F j Hj (p&q&Hp&Hq&L). assert (Hl : j < length mn) by (apply nth_error_Some; congruence).
    assert (Hn : nth j mn true = true) by (apply nth_error_nth; exact Hj).
    assert (N : column j (y_of mn F) <> []) by (rewrite ycol by exact Hl; destruct F; [destruct Hp|discriminate]).
    destruct (col_min_in _ N) as (v&Hv&E). unfold column in Hv. apply in_map_iff in Hv. destruct Hv as (y&<-&Hy).
    exists y. split; [exact Hy|]. rewrite ref_nth by exact Hl.
    assert (K : (col_min (column j (y_of mn F)) < 0)%Q).
    { assert (M := col_min_le (column j (y_of mn F)) (orient true (minmax (column j F) (nth j q 0%Q)))).
      assert (I : In (orient true (minmax (column j F) (nth j q 0%Q))) (column j (y_of mn F))).
      { rewrite ycol by exact Hl. apply in_map_iff. exists q. rewrite Hn. auto. }
      specialize (M I). unfold orient in M.
      assert (C : column j F <> []) by (destruct F; [destruct Hp|discriminate]).
      assert (P : (0 <= minmax (column j F) (nth j p 0%Q))%Q).
      { apply minmax_range. apply in_map_iff. exists p; auto. }
      assert (Z : (minmax (column j F) (nth j p 0%Q) < minmax (column j F) (nth j q 0%Q))%Q).
      { apply Qnot_le_lt. intros H. apply (proj1 (minmax_le _ _ _ C)) in H. lra. }
      lra. }
    lra.
  - exists [true; true], [[0#1; 0#1]; [1#1; 1#1]]%Q, [-1#1; -1#1]%Q. split; [vm_compute; auto|].
    vm_compute. constructor; [reflexivity|]. constructor; [reflexivity|]. constructor.
Qed.
Print Assumptions C25_ref_point_refuted.

(** The part that holds: for an objective to be maximised, and for one on which all
    observations agree, the reference point is no better than any observation. *)
Theorem C25_ref_point_partial :
  forall minimize F j, j < length minimize ->
    nth_error minimize j = Some false \/ (forall p q, In p F -> In q F -> (nth j p 0 == nth j q 0)%Q) ->
    forall y, In y (y_of minimize F) -> (nth j (ref_point minimize F) 0 <= nth j y 0)%Q.
Proof.
  intros mn F j Hl H y Hy. rewrite ref_nth by exact Hl.
  assert (Iy : In (nth j y 0%Q) (column j (y_of mn F))) by (unfold column; apply in_map_iff; exists y; auto).
  assert (M := col_min_le _ _ Iy).
  assert (N : column j (y_of mn F) <> []) by (intros E; rewrite E in Iy; destruct Iy).
  destruct (col_min_in _ N) as (v&Hv&E). rewrite ycol in Hv by exact Hl. apply in_map_iff in Hv.
  destruct Hv as (r&<-&Hr).
  assert (P : (0 <= minmax (column j F) (nth j r 0%Q))%Q) by (apply minmax_range, in_map_iff; exists r; auto).
  destruct H as [H|H].
  - rewrite (nth_error_nth mn j true H) in E. unfold orient in E. lra.
  - assert (Z : (minmax (column j F) (nth j r 0%Q) == 0)%Q).
    { assert (C : column j F <> []) by (destruct F; [destruct Hr|discriminate]).
      destruct (col_min_in _ C) as (w&Hw&Ew). unfold column in Hw. apply in_map_iff in Hw. destruct Hw as (t&<-&Ht).
      rewrite minmax_eq. specialize (H r t Hr Ht). rewrite Ew, H. pose proof (width_pos _ C). field. lra. }
    unfold orient in E. destruct (nth j mn true); lra.
Qed.
Print Assumptions C25_ref_point_partial.

Example C25_example :
  let F := [[0#1; 2#1]; [1#1; 4#1]; [1#2; 4#1]]%Q in
  nth_error [true; false] 1 = Some false /\ In [-1#1; 1#1]%Q (map (map Qred) (y_of [true; false] F)) /\
  map Qred (ref_point [true; false] F) = [-4#5; 0#1]%Q.
Proof. vm_compute. auto. Qed.

(** C26, full statement (refuted): data holds the points told, in order.  A batch with one failed
    evaluation raises an error after its evaluations were counted, and the successful
    evaluations of that batch are lost. *)
Theorem C26_failed_evaluation_refuted :
  exists (xs : list nat) F s, tell 2 true mstart false xs F = Raised s /\
    eval_count s = 4 /\ data s = [] /\
    length xs = 2 /\ nth_error F 0 = Some [Fin (1#1); Fin (2#1)] /\ nth_error F 1 = Some [Fin (1#1); NaN].
Proof. exists [0; 1], [[Fin (1#1); Fin (2#1)]; [Fin (1#1); NaN]]. eexists. repeat split; reflexivity. Qed.
Print Assumptions C26_failed_evaluation_refuted.

(** The part that holds: after any sequence of calls with finite values the counter is the number
    of objectives times the number of points told outside warm-start calls, data holds all points
    told with their values in order, and there is one history entry per such call. *)
Theorem C26_accounting_partial :
  forall (X : Type) n_obj (cs : list (call X)), (forall c, In c cs -> good_call n_obj c) ->
    let s := run_calls n_obj cs in
    eval_count s = n_obj * length (concat (map c_xs (filter (fun c => negb (c_warm c)) cs))) /\
    map (fun r => (r_x r, r_fit r)) (data s) = concat (map told cs) /\
    iter_count s = length (filter (fun c => negb (c_warm c)) cs) /\ hist_len s = iter_count s.
Proof.
  intros X n cs H s. unfold s. destruct (run_good X n cs H) as (A&B&C&D).
  split; [exact A|]. split; [|split; [exact C|congruence]].
  rewrite B, map_map. erewrite map_ext; [apply map_id|]. intros [x f]. reflexivity.
Qed.
Print Assumptions C26_accounting_partial.

Example C26_example :
  let c1 := Call true [7; 8] [[Fin (1#1); Fin (2#1)]; [Fin (3#1); Fin (4#1)]] true in
  let c2 := Call false [9] [[Fin (5#1); Fin (6#1)]] true in
  good_call 2 c1 /\ good_call 2 c2 /\ eval_count (run_calls 2 [c1; c2]) = 2 /\ length (data (run_calls 2 [c1; c2])) = 3.
Proof.
  cbv zeta. split; [|split; [|split; reflexivity]]; (split; [reflexivity|]; split; [reflexivity|]);
    intros f Hf; cbn [c_F] in Hf; simpl in Hf; intuition (subst; try reflexivity);
    match goal with H : In _ _ |- _ => simpl in H end; intuition (subst; eauto).
Qed.

(** C95: evaluate returns, for each point, the values of all objective functions at this point in
    the order of the functions, and calls each function exactly once per point. *)
Theorem C95_evaluate :
  forall (X : Type) (fs : list (X -> fval)) (xs : list X), fs <> [] ->
    fst (evaluate fs xs) = map (fun x => map (fun f => f x) fs) xs /\
    forall k, k < length fs -> map snd (filter (fun e => fst e =? k) (snd (evaluate fs xs))) = xs.
Proof.
  intros X fs xs H. split.
  - unfold evaluate. cbn [fst]. rewrite shortest_spec by exact H. apply zip_star_spec.
  - intros k Hk. unfold evaluate. cbn [snd].
    assert (G : forall n a, map snd (filter (fun e => fst e =? k) (flat_map (fun k => map (pair k) xs) (seq a n))) =
                 if (a <=? k) && (k <? a + n) then xs else []).
    { induction n as [|n IH]; intros a; cbn [seq flat_map].
      - rewrite Nat.add_0_r. cbn [filter map]. destruct (Nat.leb_spec a k); destruct (Nat.ltb_spec k a); simpl; try reflexivity; lia.
      - rewrite filter_app, map_app, IH.
        assert (E : map snd (filter (fun e : nat * X => fst e =? k) (map (pair a) xs)) = if a =? k then xs else []).
        { clear. induction xs as [|x l IH]; simpl; [destruct (a =? k); reflexivity|].
          destruct (a =? k) eqn:E; simpl; rewrite IH; reflexivity. }
        rewrite E. destruct (Nat.eqb_spec a k) as [Ea|N].
        + clear E; subst a. destruct (Nat.leb_spec k k); [|lia]. destruct (Nat.leb_spec (S k) k); [lia|]. destruct (Nat.ltb_spec k (k + S n)); [|lia].
          simpl. apply app_nil_r.
        + destruct (Nat.leb_spec a k); destruct (Nat.leb_spec (S a) k); destruct (Nat.ltb_spec k (a + S n));
            destruct (Nat.ltb_spec k (S a + n)); simpl; try reflexivity; lia. }
    rewrite G. destruct (Nat.leb_spec 0 k); [|lia]. destruct (Nat.ltb_spec k (0 + length fs)); [reflexivity|lia].
Qed.
Print Assumptions C95_evaluate.

Example C95_example :
  evaluate [fun x => Fin (inject_Z (Z.of_nat x)); fun _ => NaN] [3; 5] =
  ([[Fin (3#1); NaN]; [Fin (5#1); NaN]], [(0, 3); (0, 5); (1, 3); (1, 5)]).
Proof. reflexivity. Qed.
