(** What the optimizers pass to the acquisition functions (C121 to C126). *)
From Coq Require Import Reals List Bool Lra Lia Psatz Arith.
From Verif Require Import Lib_Normal Model_Acquisition Properties_Acquisition.
Import ListNotations.
Open Scope R_scope.

(** ** C121: maximising is minimising the negated problem *)
(** The surrogate of the negated objective function. *)
Definition negated (s : surrogate) : surrogate :=
  Surrogate (fun x => (- fst (s_predict s x), snd (s_predict s x)))
            (fun x => (map Ropp (fst (s_gradient s x)), snd (s_gradient s x)))
            (s_sigma2 s) (option_map (map Ropp) (s_y s)).
Definition negated_kwargs (k : kwargs) : kwargs := Kwargs (k_alpha k) (k_epsilon k) (k_t k) (option_map Ropp (k_plugin k)).

Lemma neg_predict s x : predict false s x = predict true (negated s) x.
Proof. unfold predict, negated. cbn. destruct (s_predict s x). cbn. f_equal. ring. Qed.
Lemma neg_gradient s x : gradient false s x = gradient true (negated s) x.
Proof. unfold gradient, negated. cbn. destruct (s_gradient s x) as [a b]. cbn. f_equal. apply map_ext. intros. ring. Qed.
Lemma neg_max l a : - list_max a l = list_min (- a) (map Ropp l).
Proof. revert a; induction l as [|b l IH]; intros a; cbn; auto. rewrite IH. f_equal. unfold Rmin, Rmax. destruct (Rle_dec a b), (Rle_dec (- a) (- b)); lra. Qed.
Lemma neg_plugin s p : set_plugin false s p = set_plugin true (negated s) (option_map Ropp p).
Proof.
  unfold set_plugin. destruct p as [p|]; cbn; [do 2 f_equal; ring|]. destruct (s_y s) as [[|a l]|]; cbn; auto. rewrite <- neg_max. do 2 f_equal. ring.
Qed.
Theorem C121_maximising_is_minimising_the_negation :
  forall s k c exp_max a x,
    construct c false s k = construct c true (negated s) (negated_kwargs k) /\
    value exp_max a false s x = value exp_max a true (negated s) x /\
    value_dx exp_max a false s x = value_dx exp_max a true (negated s) x.
Proof.
  intros s k c em a x. split; [|split].
  - assert (U : forall p, unexpected (option_map Ropp p) = unexpected p) by (destruct p; auto).
    destruct c; cbn; unfold new_EpsilonPI; cbn; rewrite ?neg_plugin, ?U; reflexivity.
  - destruct a; cbn [value]; unfold UCB_value, EI_value, PI_value, MGFI_value; rewrite neg_predict; reflexivity.
  - destruct a; cbn [value_dx]; unfold UCB_dx, EI_dx, PI_dx, MGFI_dx; rewrite neg_predict, neg_gradient; reflexivity.
Qed.
Print Assumptions C121_maximising_is_minimising_the_negation.
(** It is not the identity: for a maximisation problem the better of two predictions is the larger. *)
Example C121_nonvacuous : value 700 (AUCB 1) false line [1] = Some 0 /\ value 700 (AUCB 1) true line [1] = Some 2.
Proof. cbn. unfold UCB_value, predict. cbn. rewrite sqrt_1. split; f_equal; lra. Qed.

(** ** C122: without a plugin the best observation is used *)
Lemma list_min_spec l a : In (list_min a l) (a :: l) /\ forall v, In v (a :: l) -> list_min a l <= v.
Proof.
  revert a; induction l as [|b l IH]; intros a; cbn [list_min]; [split; [now left|intros v [<-|[]]; lra]|].
  destruct (IH (Rmin a b)) as [I L]. split.
  - destruct I as [E|I]; [|right; now right]. rewrite <- E. unfold Rmin. destruct (Rle_dec a b); [now left|right; now left].
  - pose proof (L (Rmin a b) (or_introl eq_refl)). pose proof (Rmin_l a b). pose proof (Rmin_r a b). intros v [<-|[<-|H2]]; [lra|lra|apply L; now right].
Qed.
Lemma list_max_spec l a : In (list_max a l) (a :: l) /\ forall v, In v (a :: l) -> v <= list_max a l.
Proof.
  revert a; induction l as [|b l IH]; intros a; cbn [list_max]; [split; [now left|intros v [<-|[]]; lra]|].
  destruct (IH (Rmax a b)) as [I L]. split.
  - destruct I as [E|I]; [|right; now right]. rewrite <- E. unfold Rmax. destruct (Rle_dec a b); [right; now left|now left].
  - pose proof (L (Rmax a b) (or_introl eq_refl)). pose proof (Rmax_l a b). pose proof (Rmax_r a b). intros v [<-|[<-|H2]]; [lra|lra|apply L; now right].
Qed.
(** [best] is the best of the values [y] for the optimisation direction. *)
Definition best (minimize : bool) (y : list R) (b : R) : Prop :=
  In b y /\ forall v, In v y -> if minimize then b <= v else v <= b.
Theorem C122_default_plugin_is_best_observation :
  forall minimize s y, s_y s = Some y -> y <> [] ->
    exists b, best minimize y b /\ set_plugin minimize s None = Ok (Some (if minimize then b else - b)) /\
      set_plugin minimize s None = set_plugin minimize s (Some b).
Proof.
  intros mi s y E N. unfold set_plugin. rewrite E. destruct y as [|a l]; [easy|]. destruct mi.
  - exists (list_min a l). split; [|auto]. unfold best. apply list_min_spec.
  - exists (list_max a l). split; [unfold best; apply list_max_spec|]. split; auto. do 2 f_equal. ring.
Qed.
Print Assumptions C122_default_plugin_is_best_observation.
(** The plugin that [BO] passes is the best of the values that the surrogate was fitted to. *)
Theorem C122_bo_plugin :
  forall minimize s y c k, s_y s = Some y -> y <> [] -> has_plugin c = true -> k_plugin k = None ->
    exists fmin fmax, best true y fmin /\ best false y fmax /\
      create_acquisition c minimize s fmin fmax k = construct c minimize s k.
Proof.
  intros mi s y c k E N Hp Hk. destruct y as [|a l]; [easy|]. exists (list_min a l), (list_max a l).
  split; [apply list_min_spec|]. split; [apply list_max_spec|]. unfold create_acquisition. rewrite Hp, Hk.
  assert (P : set_plugin mi s (Some (if mi then list_min a l else list_max a l)) = set_plugin mi s None) by (unfold set_plugin; rewrite E; destruct mi; auto).
  destruct c; try discriminate; unfold construct, new_EpsilonPI; cbn [k_alpha k_epsilon k_t k_plugin]; rewrite P, Hk; reflexivity.
Qed.
Print Assumptions C122_bo_plugin.
Example C122_nonvacuous : s_y line = Some [3] /\ [3] <> [] /\ has_plugin EI = true /\ k_plugin no_kwargs = None.
Proof. repeat split. discriminate. Qed.

(** ** C123: the user's acquisition parameters *)
(** The sequential optimizer never uses them: whatever the dictionary, the acquisition function is
    built from the class's defaults. *)
Theorem C123_single_point_refuted :
  forall par c minimize s fmin fmax,
    single_point par c minimize s fmin fmax = single_point no_kwargs c minimize s fmin fmax /\
    single_point (Kwargs None None (Some 3) None) MGFI minimize s fmin fmax = Ok (AMGFI 1 (Some (if minimize then fmin else -1 * fmax))).
Proof.
  intros par c mi s fmin fmax. split; [reflexivity|]. unfold single_point, create_acquisition. cbn. unfold MGFI_set_t. destruct (rltb_spec 0 1); [|lra]. cbn.
  assert (E : Rmin 1 (2236 / 100) = 1) by (apply Rmin_left; lra). rewrite E. destruct mi; reflexivity.
Qed.
Print Assumptions C123_single_point_refuted.
(** In batches every entry but the sampled one reaches the acquisition function. *)
Theorem C123_batch_partial :
  forall par c minimize s fmin fmax z v, sample c (parameter c par) z = Ok v ->
    batch_element par c minimize s fmin fmax z = create_acquisition c minimize s fmin fmax (with_sample c par v) /\
    (forall p, k_plugin par = Some p -> c = MGFI -> k_alpha par = None -> k_epsilon par = None -> 0 < v ->
       batch_element par c minimize s fmin fmax z = Ok (AMGFI (Rmin v (2236 / 100)) (Some (if minimize then p else -1 * p)))).
Proof.
  intros par c mi s fmin fmax z v E. unfold batch_element. rewrite E. cbn [bind]. split; auto. intros p Hp -> Ha He Hv.
  unfold create_acquisition. cbn. rewrite Hp. cbn. rewrite ?Ha, ?He. cbn. rewrite ?Hp. cbn. unfold MGFI_set_t. destruct (rltb_spec 0 v); [|lra]. reflexivity.
Qed.
Print Assumptions C123_batch_partial.
Example C123_nonvacuous : exists v, sample MGFI (parameter MGFI no_kwargs) 1 = Ok v /\ 0 < v.
Proof. eexists. split; [reflexivity|apply exp_pos]. Qed.

(** ** C124: sampled parameters are accepted *)
Definition plain (c : cls) (par : kwargs) : Prop :=
  match c with MGFI => k_alpha par = None /\ k_epsilon par = None | UCB => k_epsilon par = None /\ k_t par = None /\ k_plugin par = None | _ => k_alpha par = None /\ k_t par = None end.
Theorem C124_sampled_parameters_accepted_partial :
  forall par c minimize s fmin fmax z, c = MGFI \/ c = UCB -> plain c par ->
    exists a, batch_element par c minimize s fmin fmax z = Ok a /\
      match a with AMGFI t _ => 0 < t <= 2236 / 100 | AUCB al => 0 < al < 1 | _ => False end.
Proof.
  intros par c mi s fmin fmax z [-> | ->] P; unfold batch_element; cbn.
  - set (v := exp _). assert (V : 0 < v) by apply exp_pos. destruct P as [P1 P2]. unfold create_acquisition. cbn.
    assert (C : forall q, 0 < q -> 0 < Rmin q (2236 / 100) <= 2236 / 100) by (intros q Hq; split; [apply Rmin_pos; lra|apply Rmin_r]).
    destruct (k_plugin par) as [p|] eqn:E; cbn; rewrite P1, P2; cbn; rewrite ?E; cbn; unfold MGFI_set_t; (destruct (rltb_spec 0 v); [|lra]); cbn; eexists; split; try reflexivity; cbv beta iota; apply C; auto.
  - destruct P as (P1 & P2 & P3). set (e := exp _). assert (V : 0 < e) by apply exp_pos. unfold create_acquisition. cbn. rewrite P1, P2, P3. cbn. unfold set_positive.
    assert (A : 0 < 1 / (1 + e)) by (apply Rdiv_lt_0_compat; lra). destruct (rltb_spec 0 (1 / (1 + e))); [|lra]. cbn. eexists; split; [reflexivity|]. split; auto.
    apply Rmult_lt_reg_r with (1 + e); [lra|]. unfold Rdiv. rewrite Rmult_assoc, Rinv_l by lra. lra.
Qed.
Print Assumptions C124_sampled_parameters_accepted_partial.
(** The sampler of the third class that the optimizer accepts does not exist. *)
Theorem C124_epsilon_pi_refuted :
  forall par minimize s fmin fmax z, batch_element par EpsilonPI minimize s fmin fmax z = Err TypeError.
Proof. reflexivity. Qed.
Print Assumptions C124_epsilon_pi_refuted.

(** ** C125: a larger parameter gives larger samples *)
Theorem C125_mgfi_samples_follow_parameter_partial :
  forall v v' z, 0 < v < v' -> exists w w', sample MGFI v z = Ok w /\ sample MGFI v' z = Ok w' /\ w < w' /\ (z = 0 -> w = v /\ w' = v').
Proof.
  intros v v' z H. eexists _, _. split; [reflexivity|]. split; [reflexivity|]. split.
  - apply exp_increasing. assert (ln v < ln v') by (apply ln_increasing; lra). lra.
  - intros ->. rewrite !Rmult_0_r, !Rplus_0_r. rewrite !exp_ln by lra. auto.
Qed.
Print Assumptions C125_mgfi_samples_follow_parameter_partial.
(** For UCB it is the other way around, for every draw. *)
Theorem C125_ucb_samples_refuted :
  forall v v' z, v < v' -> exists w w', sample UCB v z = Ok w /\ sample UCB v' z = Ok w' /\ w' < w.
Proof.
  intros v v' z H. eexists _, _. split; [reflexivity|]. split; [reflexivity|].
  assert (L : exp (v * 4 - 2 + 6 / 10 * z) < exp (v' * 4 - 2 + 6 / 10 * z)) by (apply exp_increasing; lra).
  pose proof (exp_pos (v * 4 - 2 + 6 / 10 * z)). unfold Rdiv. rewrite !Rmult_1_l. apply Rinv_lt_contravar; [apply Rmult_lt_0_compat; lra|lra].
Qed.
Print Assumptions C125_ucb_samples_refuted.

(** ** C126: scaling of the objective values *)
Lemma rsum_app_map (f : R -> R) c l : rsum (map (fun v => c * f v) l) = c * rsum (map f l).
Proof. unfold rsum. induction l as [|a l IH]; cbn; [ring|]. rewrite IH. ring. Qed.
Lemma average_scale (f : R -> R) c l : average (map (fun v => c * f v) l) = c * average (map f l).
Proof. unfold average. rewrite rsum_app_map, !map_length. unfold Rdiv. ring. Qed.
Lemma rsum_affine a b l : rsum (map (fun v => a * v + b) l) = a * rsum l + b * INR (length l).
Proof. induction l as [|v l IH]; [cbn; ring|]. cbn [map length]. rewrite S_INR. unfold rsum in *. cbn. rewrite IH. ring. Qed.
Lemma length_pos {A} (l : list A) : l <> [] -> 0 < INR (length l).
Proof. destruct l; [easy|]. intros _. apply lt_0_INR. cbn; lia. Qed.
Lemma average_affine a b l : l <> [] -> average (map (fun v => a * v + b) l) = a * average l + b.
Proof. intros N. unfold average. rewrite rsum_affine, map_length. pose proof (length_pos l N). field. lra. Qed.
Lemma std_affine a b l : 0 <= a -> l <> [] -> std (map (fun v => a * v + b) l) = a * std l.
Proof.
  intros Ha N. unfold std. rewrite average_affine by auto. rewrite map_map.
  assert (E : average (map (fun v => (a * v + b - (a * average l + b)) * (a * v + b - (a * average l + b))) l) = (a * a) * average (map (fun v => (v - average l) * (v - average l)) l)).
  { rewrite (map_ext _ (fun v => (a * a) * ((v - average l) * (v - average l)))) by (intros; ring). apply (average_scale (fun v => (v - average l) * (v - average l))). }
  rewrite E. rewrite sqrt_mult_alt by nra. rewrite sqrt_square by auto. reflexivity.
Qed.
Lemma flat_spec l : reflect (std l <= / 100000000) (flat l).
Proof. unfold flat. rewrite Rabs_right by (apply Rle_ge, sqrt_pos). apply rleb_spec. Qed.
(** When the values are standardised their mean is zero, their deviation is one, and their order is
    that of the observations. *)
Theorem C126_standardised :
  forall l, l <> [] -> flat l = false ->
    exists l', standardise l = Some l' /\ length l' = length l /\ average l' = 0 /\ std l' = 1 /\
      (forall i j u v u' v', nth_error l i = Some u -> nth_error l j = Some v -> nth_error l' i = Some u' -> nth_error l' j = Some v' -> (u < v <-> u' < v')).
Proof.
  intros l N F. unfold standardise. rewrite F, andb_false_r. eexists; split; [reflexivity|]. destruct (flat_spec l) as [|P]; [discriminate|].
  assert (P' : 0 < std l) by lra. split; [apply map_length|].
  assert (E : map (fun v => (v - average l) / std l) l = map (fun v => / std l * v + - average l / std l) l) by (apply map_ext; intros; field; lra). split; [|split].
  - rewrite E, average_affine by auto. field. lra.
  - rewrite E, std_affine; auto; [field; lra|left; now apply Rinv_0_lt_compat].
  - intros i j u v u' v' Hu Hv Hu' Hv'. rewrite nth_error_map, Hu in Hu'. rewrite nth_error_map, Hv in Hv'. cbn in *. injection Hu' as <-. injection Hv' as <-.
    split; intros L.
    + apply Rmult_lt_compat_r; [now apply Rinv_0_lt_compat|lra].
    + apply Rmult_lt_reg_r in L; [lra|now apply Rinv_0_lt_compat].
Qed.
Print Assumptions C126_standardised.
(** Rescaling and shifting the objective does not change what the surrogate and the acquisition
    function see, as long as neither version counts as flat. *)
Theorem C126_rescaling_partial :
  forall a b l, 0 < a -> l <> [] -> flat l = false -> flat (map (fun v => a * v + b) l) = false ->
    standardise (map (fun v => a * v + b) l) = standardise l.
Proof.
  intros a b l Ha N F F'. unfold standardise. rewrite F, F', !andb_false_r. f_equal. rewrite std_affine, average_affine, map_map by (auto; lra).
  destruct (flat_spec l) as [|P]; [discriminate|]. apply map_ext. intros v. field. split; lra.
Qed.
Print Assumptions C126_rescaling_partial.
Example C126_nonvacuous : flat [0; 2] = false /\ flat (map (fun v => 3 * v + 1) [0; 2]) = false.
Proof.
  assert (S : std [0; 2] = 1). { unfold std, average, rsum. cbn. match goal with |- sqrt ?e = _ => replace e with 1 by lra end. apply sqrt_1. }
  split; [destruct (flat_spec [0; 2]); auto; lra|]. destruct (flat_spec (map (fun v => 3 * v + 1) [0; 2])) as [L|]; auto. rewrite std_affine in L by (lra || discriminate). lra.
Qed.
(** The bound on the deviation is absolute: six different values on a small scale stop the
    optimizer with FlatFitnessError although the same values on a larger scale do not. *)
Theorem C126_small_scale_refuted :
  exists a l, 0 < a /\ NoDup l /\ (5 < length l)%nat /\
    (exists l', standardise l = Some l') /\ standardise (map (fun v => a * v + 0) l) = None.
Proof.
  set (l := [0; 1; 2; 3; 4; 5]). assert (V : std l = sqrt (35 / 12)) by (unfold std, average, rsum, l; cbn; f_equal; lra).
  assert (B : 1 <= std l <= 2). { rewrite V. split; [rewrite <- sqrt_1; apply sqrt_le_1_alt; lra|]. rewrite <- (sqrt_square 2) by lra. apply sqrt_le_1_alt. lra. }
  exists (/ 1000000000), l. split; [lra|]. split; [unfold l; repeat (constructor; [cbn; lra|]); constructor|]. split; [cbn; lia|]. split.
  - unfold standardise. destruct (flat_spec l) as [|P]; [lra|]. rewrite andb_false_r. eauto.
  - unfold standardise. destruct (flat_spec (map (fun v => / 1000000000 * v + 0) l)) as [|P]; [reflexivity|]. exfalso. apply P. rewrite std_affine; [lra|lra|discriminate].
Qed.
Print Assumptions C126_small_scale_refuted.
