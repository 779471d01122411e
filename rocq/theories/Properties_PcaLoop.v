(** C203-C206: the PCA-assisted optimizer over whole runs. *)
From Coq Require Import Bool Arith Lia Reals Lra List.
From Verif Require Import Model_PCA Properties_PCA Model_PcaLoop Spec_PcaLoop Proofs_PcaLoop.
Import ListNotations.
Open Scope R_scope.

(** C203: if the acquisition function is never negative and every proposal maximizes its penalized version over the reduced
    space, then every point evaluated in a run is in the box, for every objective function and number of iterations. *)
Theorem C203_run :
  forall bounds minimize doe_size sk_fit gp_fits inner sample f acq n,
    pca_ok (length bounds) sk_fit -> samples_ok bounds sample -> (forall s x, 0 <= acq s x) ->
    (forall s, reached bounds minimize doe_size 1 sk_fit gp_fits inner sample f s -> exact_inner bounds acq inner s) ->
    forall x, In x (fst (run bounds minimize doe_size 1 sk_fit gp_fits inner sample f n p_start)) -> in_box x bounds.
Proof. intros. eapply run_in_box; eauto; [constructor|apply good_start]. Qed.
Print Assumptions C203_run.
(** The reason: as long as the observations are in the box, the reduced space has a point that is mapped into the box. *)
Theorem C203_feasible :
  forall bounds minimize sk_fit X y p, pca_ok (length bounds) sk_fit -> linear_fit bounds minimize sk_fit X y = Some p -> length X = length y ->
    (forall x, In x X -> in_box x bounds) -> exists z, in_box z (compute_bounds p bounds) /\ in_box (inverse_transform p z) bounds.
Proof. intros bounds minimize sk_fit X y p PK E L B. destruct (origin_in_box bounds minimize sk_fit PK X y p E L B) as (_ & _ & _ & _ & I & J). eexists. split; [exact J|exact I]. Qed.
Print Assumptions C203_feasible.

(** A run on the unit square: the initial design has the points (0, 0) and (1, 0), the objective function is constant and the
    first axis is the principal component. *)
Definition square : list (R * R) := [(0, 1); (0, 1)].
Definition first_axis (_ : list (list R)) : option (list (list R)) := Some [[1; 0]].
Definition corners (s : pst) (n : nat) : list (list R) := match p_space s with None => [[0; 0]; [1; 0]] | Some _ => [] end.
Lemma first_axis_ok : pca_ok (length square) first_axis.
Proof.
  intros M comps E. injection E as <-. split.
  - intros c [<-|[]]. split; [reflexivity|]. unfold norm2, dot. cbn. lra.
  - intros i j a b A B. destruct i as [|[|i]], j as [|[|j]]; try discriminate. injection A as <-. injection B as <-. cbn. unfold dot. cbn. lra.
Qed.
Lemma corners_ok : samples_ok square corners.
Proof. intros s n x I. unfold corners in I. destruct (p_space s); [destruct I|]. destruct I as [<-|[<-|[]]]; repeat constructor; cbn; lra. Qed.
(** The first iteration. *)
Definition flat_state : pst := mkP [([0; 0], 1); ([1; 0], 1)] 1 2 [] (Some (Pca [0; 0] [[1; 0]] [1 / 2; 0])) (Some (compute_bounds (Pca [0; 0] [[1; 0]] [1 / 2; 0]) square)) true.
Lemma flat_tell minimize : tell square minimize first_axis (fun _ => true) p_start [[0; 0]; [1; 0]] [Some 1; Some 1] = (flat_state, true).
Proof.
  unfold tell. cbn [p_data p_start finite_rows combine flat_map snd fst app map].
  assert (E : linear_fit square minimize first_axis [[0; 0]; [1; 0]] [1; 1] = Some (Pca [0; 0] [[1; 0]] [1 / 2; 0])).
  { destruct (C77_rank_weights minimize [1; 1]) as (w & W & L & P & S & _ & Q); [cbn; lia|]. unfold linear_fit. rewrite W. destruct w as [|u [|v [|? w]]]; try discriminate.
    specialize (Q 0%nat 1%nat 1 u v eq_refl eq_refl eq_refl eq_refl). subst v. cbn in S. assert (u = 1 / 2) as -> by lra. unfold first_axis. do 2 f_equal.
    - unfold vmean, scaled, vadd, vsub. cbn. f_equal; [field|f_equal; field].
    - unfold vmean, vadd. cbn. f_equal; [field|f_equal; field]. }
  rewrite E. reflexivity.
Qed.
Example C203_example : exists acq inner,
  (forall s x, 0 <= acq s x) /\ (forall s, reached square true 2 1 first_axis (fun _ => true) inner corners (fun _ => Some 1) s -> exact_inner square acq inner s) /\
  exists x, fst (run square true 2 1 first_axis (fun _ => true) inner corners (fun _ => Some 1) 2 p_start) = [[0; 0]; [1; 0]; x].
Proof.
  exists (fun _ _ => 0), (fun _ => Some [0]). split; [intros; lra|].
  assert (EX : forall s, good square true first_axis s -> exact_inner square (fun _ _ => 0) (fun _ => Some [0]) s).
  { intros s [D [(M & _)|(M & p & P & SP & LF)]] p' b M' P' S'; [congruence|]. assert (p' = p) as -> by congruence. assert (b = compute_bounds p square) as -> by congruence. exists [0]. split; [reflexivity|].
    destruct (origin_in_box square true first_axis first_axis_ok (map fst (p_data s)) (map snd (p_data s)) p LF) as (LM & LC & PC & _ & I & J); [now rewrite !map_length|intros x Ix; apply in_map_iff in Ix as (a & <- & Ia); now apply D|].
    assert (CO : components_ p = [[1; 0]]) by (unfold linear_fit, first_axis in LF; destruct (weights true _); [|discriminate]; injection LF as <-; reflexivity). rewrite CO in I, J. cbn [length repeat] in I, J.
    split; [exact J|]. intros z' _. destruct (C113_outside_never_wins p square (fun _ => 0) LM LC) as (IN & OUT & _); [intros c H; now apply PC|].
    rewrite (IN _ I). destruct (Classical_Prop.classic (in_box (inverse_transform p z') square)) as [Z|Z]; [rewrite (IN _ Z); lra|specialize (OUT _ Z); lra]. }
  split.
  - intros s RE. apply EX. induction RE as [|s X s' RE IH A T]; [apply good_start|]. eapply tell_good; [exact IH| |exact T].
    eapply (ask_good square true 2 1 first_axis (fun _ => Some [0]) corners first_axis_ok (fun _ _ => 0) s None X IH); eauto; [intros; lra|apply corners_ok].
  - cbn [run]. unfold ask at 1. cbn [p_model p_start corners p_space map back p_pca]. rewrite flat_tell. unfold ask at 1. cbn [p_model flat_state Nat.ltb Nat.leb length map].
    destruct (tell square true first_axis (fun _ => true) flat_state _ _) as [s' []]; eexists; reflexivity.
Qed.

(** C204: an optimizer that only stays in the reduced space can propose a point outside of the box, and it is evaluated. *)
Theorem C204_inside_refuted :
  exists bounds minimize doe_size sk_fit gp_fits inner sample f,
    pca_ok (length bounds) sk_fit /\ samples_ok bounds sample /\
    (forall s b z, reached bounds minimize doe_size 1 sk_fit gp_fits inner sample f s -> p_space s = Some b -> inner s = Some z -> in_box z b) /\
    exists x, In x (fst (run bounds minimize doe_size 1 sk_fit gp_fits inner sample f 2 p_start)) /\ ~ in_box x bounds.
Proof.
  assert (BD : in_box [6 / 10] (compute_bounds (Pca [0; 0] [[1; 0]] [1 / 2; 0]) square)).
  { unfold compute_bounds, square. cbn. unfold norm2, dot, vsub. cbn. constructor; [|constructor]. cbn.
    match goal with |- context [sqrt ?a] => replace a with (1 / 2) by field end. assert (S : 7 / 10 <= sqrt (1 / 2)).
    { rewrite <- (sqrt_Rsqr (7 / 10)) by lra. apply sqrt_le_1_alt. unfold Rsqr. lra. }
    lra. }
  exists square, true, 2%nat, first_axis, (fun s => (length (p_data s) =? 2)%nat), (fun s => if (length (p_data s) =? 2)%nat then Some [6 / 10] else None), corners, (fun _ => Some 1).
  assert (T1 : tell square true first_axis (fun s => (length (p_data s) =? 2)%nat) p_start [[0; 0]; [1; 0]] [Some 1; Some 1] = (flat_state, true)).
  { pose proof (flat_tell true) as F. unfold tell in *. destruct (linear_fit square true first_axis _ _); [|discriminate F]. exact F. }
  split; [apply first_axis_ok|]. split; [apply corners_ok|]. split.
  - intros s b z RE. induction RE as [|s X s' RE IH A T]; [discriminate|]. clear IH. intros SP IZ. destruct (length (p_data s') =? 2)%nat eqn:L2; [|discriminate]. injection IZ as <-.
    assert (K : s = p_start /\ X = [[0; 0]; [1; 0]]).
    { assert (C : s = p_start \/ (2 <= length (p_data s))%nat).
      { destruct RE as [|s0 X0 s1 RE0 A0 T0]; [now left|right]. pose proof (tell_returns square true first_axis (fun s => (length (p_data s) =? 2)%nat) s0 X0 (map (fun _ => Some 1) X0)) as TR. rewrite T0 in TR. specialize (TR eq_refl).
        pose proof (tell_data square true first_axis (fun s => (length (p_data s) =? 2)%nat) s0 X0 (map (fun _ => Some 1) X0)) as TD. rewrite T0 in TD. cbn in TD. now rewrite TD. }
      destruct C as [-> |C]; [split; [reflexivity|]; unfold ask in A; cbn in A; congruence|]. exfalso.
      pose proof (tell_data square true first_axis (fun s => (length (p_data s) =? 2)%nat) s X (map (fun _ => Some 1) X)) as TD. rewrite T in TD. cbn [fst] in TD. apply Nat.eqb_eq in L2. rewrite TD, app_length in L2.
      destruct X as [|x X]; [|cbn in L2; lia]. unfold ask in A. destruct (if p_model s then _ else _) as [[|y Y]|]; discriminate. }
    destruct K as [-> ->]. cbn [map] in T. rewrite T1 in T. injection T as <-. injection SP as <-. exact BD.
  - exists [11 / 10; 0]. split.
    + cbn [run]. unfold ask at 1. cbn [p_model p_start corners p_space map back p_pca]. rewrite T1. unfold ask at 1. cbn [p_model flat_state Nat.ltb Nat.leb length map p_data Nat.eqb].
      destruct (tell square true first_axis _ flat_state _ _) as [s' []]; cbn [fst app]; right; right; left; unfold back; cbn [p_pca flat_state];
        unfold inverse_transform, combination, vadd; cbn; (f_equal; [field|f_equal; field]).
    + intro B. inversion B; subst. cbn in *. lra.
Qed.
Print Assumptions C204_inside_refuted.
(** The initial design is in the box, and a proposal outside of it has a negative penalized value.  (Missing: that there is no
    such proposal; it holds for an exact optimizer, C203.) *)
Theorem C204_inside_partial :
  forall bounds minimize doe_size sk_fit gp_fits inner sample f acq s X x,
    pca_ok (length bounds) sk_fit -> samples_ok bounds sample ->
    reached bounds minimize doe_size 1 sk_fit gp_fits inner sample f s -> ask doe_size 1 inner sample s None = Points X -> In x X ->
    in_box x bounds \/
    exists p z, p_pca s = Some p /\ x = inverse_transform p z /\ penalized p bounds acq z < 0 /\ (inner s = Some z \/ inner s = None /\ In z (sample s 1%nat)).
Proof.
  intros bounds minimize doe_size sk_fit gp_fits inner sample f acq s X x PK SO RE A I.
  assert (SL : forall s n x, In x (sample s n) -> p_space s = None -> length x = length bounds).
  { intros s0 n0 x0 I0 S0. apply SO in I0. rewrite S0 in I0. clear - I0. induction I0; cbn; congruence. }
  pose proof (reached_shaped _ _ _ _ _ _ _ _ _ _ PK SL RE) as SH. unfold ask in A. assert (SH' := SH). destruct SH' as [_ [(M & P & S)|(M & p & P & S & _)]]; rewrite M in A.
  - left. destruct (sample s doe_size) as [|a l] eqn:SA; [discriminate|]. injection A as <-. assert (B : back s = (fun x => x)) by (unfold back; now rewrite P). rewrite B, map_id, <- SA in I.
    apply SO in I. now rewrite S in I.
  - cbn [Nat.ltb Nat.leb] in A. destruct (shaped_pca bounds minimize sk_fit s p PK SH P) as (LM & LC & PC). destruct (C113_outside_never_wins p bounds acq LM LC PC) as (_ & OUT & _).
    assert (G : forall z, x = back s z -> inner s = Some z \/ inner s = None /\ In z (sample s 1%nat) -> in_box x bounds \/
      exists p z, p_pca s = Some p /\ x = inverse_transform p z /\ penalized p bounds acq z < 0 /\ (inner s = Some z \/ inner s = None /\ In z (sample s 1%nat))).
    { intros z E O. unfold back in E. rewrite P in E. destruct (Classical_Prop.classic (in_box x bounds)) as [B|B]; [now left|right]. exists p, z. repeat split; auto. apply OUT. now rewrite <- E. }
    destruct (inner s) as [z|] eqn:IS; cbn in A.
    + injection A as <-. destruct I as [I|[]]. apply (G z); auto.
    + destruct (sample s 1%nat) as [|a l] eqn:SA; [discriminate|]. injection A as <-. change (In x (map (back s) (a :: l))) in I. apply in_map_iff in I as (z & E & I). apply (G z); auto.
Qed.
Print Assumptions C204_inside_partial.

(** C205: whatever was told and whatever failed, the evaluation counter is the number of points told, the iteration counter is
    the number of calls, the data are the points with a finite value in order, and the recommendation is the first best of them. *)
Theorem C205_accounting :
  forall bounds minimize sk_fit gp_fits l, (forall a, In a l -> length (fst a) = length (snd a)) ->
    let s := tells bounds minimize sk_fit gp_fits l in
    p_evals s = length (concat (map fst l)) /\ p_iter s = length l /\ kept (concat (map fst l)) (concat (map snd l)) (p_data s) /\
    (p_data s <> [] -> exists a l1 l2, xopt minimize s = Some a /\ p_data s = l1 ++ a :: l2 /\
       (forall b, In b l1 -> better minimize (snd a) (snd b)) /\ forall b, In b l2 -> ~ better minimize (snd b) (snd a)).
Proof.
  intros bounds minimize sk_fit gp_fits l H s. destruct (tells_counts bounds minimize sk_fit gp_fits l H) as (A & B & _ & L & D). split; [exact B|]. split; [exact A|]. split; [apply kept_finite; auto|].
  intro NE. destruct (xopt_some minimize s NE) as (a & X). destruct (xopt_spec minimize s a X) as (l1 & l2 & E). exists a, l1, l2. split; [exact X|exact E].
Qed.
Print Assumptions C205_accounting.
(** tell does not return before there are two finite values. *)
Theorem C205_two :
  forall bounds minimize sk_fit gp_fits l X y, (forall a, In a (l ++ [(X, y)]) -> length (fst a) = length (snd a)) ->
    snd (tell bounds minimize sk_fit gp_fits (tells bounds minimize sk_fit gp_fits l) X y) = true ->
    exists d, kept (concat (map fst (l ++ [(X, y)]))) (concat (map snd (l ++ [(X, y)]))) d /\ (2 <= length d)%nat.
Proof.
  intros bounds minimize sk_fit gp_fits l X y H R. apply tell_returns in R. destruct (tells_counts bounds minimize sk_fit gp_fits (l ++ [(X, y)]) H) as (_ & _ & _ & L & D).
  rewrite tells_snoc, tell_data in D. exists (p_data (tells bounds minimize sk_fit gp_fits l) ++ finite_rows X y). split; [apply kept_finite; split; [exact L|exact D]|exact R].
Qed.
Print Assumptions C205_two.
Example C205_example : snd (tell square true first_axis (fun _ => true) p_start [[0; 0]; [1; 0]] [Some 1; Some 1]) = true /\
  p_data (tells square true first_axis (fun _ => true) [([[0; 0]; [1; 1]], [Some 1; None])]) = [([0; 0], 1)].
Proof. split; [now rewrite flat_tell|]. unfold tells. cbn [fold_left]. rewrite tell_data. reflexivity. Qed.

(** C206: the history of best values stays empty. *)
Theorem C206_history_refuted :
  (forall bounds minimize sk_fit gp_fits l, (forall a, In a l -> length (fst a) = length (snd a)) -> p_hist (tells bounds minimize sk_fit gp_fits l) = []) /\
  exists bounds minimize sk_fit gp_fits X y s, pca_ok (length bounds) sk_fit /\ tell bounds minimize sk_fit gp_fits p_start X y = (s, true) /\ p_iter s = 1%nat /\ p_hist s = [].
Proof.
  split.
  - intros bounds minimize sk_fit gp_fits l H. now destruct (tells_counts bounds minimize sk_fit gp_fits l H) as (_ & _ & P & _).
  - exists square, true, first_axis, (fun _ => true), [[0; 0]; [1; 0]], [Some 1; Some 1], flat_state. split; [apply first_axis_ok|]. split; [apply flat_tell|]. split; reflexivity.
Qed.
Print Assumptions C206_history_refuted.
