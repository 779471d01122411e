(** Lemmas about the strategy parameters of Model_MiesPar.v. *)
From Coq Require Import Reals Qreals Lra.
From Coq Require Import Bool Arith ZArith QArith Qabs Qround Qminmax String List Lia Lqa Qfield Permutation.
From Verif Require Import Model_Var Model_Grid Model_Pareto Model_Box Model_Ask Model_Sol.
From Verif Require Import Lib_List Spec_Ask Spec_Pareto Spec_Sol Proofs_Var Proofs_Box Proofs_Pareto Proofs_Sol.
From Verif Require Import Model_MIES Spec_MIES Proofs_MIES Model_MiesPar Spec_MiesPar Proofs_MiesPar.
Import ListNotations.
Open Scope nat_scope.
Local Arguments pick : simpl never.
Local Arguments read : simpl never.

Lemma construct_forget c fit s0 e0 p0 X s : construct c fit s0 e0 p0 X = Some s -> init c fit X = Some (forget s) /\ p_stop s = [] /\ p_iters s = 0 /\ p_evals s = List.length X /\
  p_hist s = repeat 0%Q (nbin c).
Proof.
  unfold construct, par_columns. destruct (_ =? _); [|discriminate]. unfold init. rewrite evaluate_forget, map_map. cbn [i_x]. rewrite map_id.
  destruct (first_best c (evaluate fit 0 X)) as [[x f]|]; [|discriminate]. intro H. assert (E : Some s = Some s) by reflexivity. rewrite <- H in E at 1. injection E as E. subst s.
  repeat split. f_equal. unfold forget, evaluated. cbn [p_pop p_xopt p_fopt p_evals p_iters p_trace]. rewrite evaluate_forget, map_map. cbn [i_x]. now rewrite map_id.
Qed.
Lemma forget_final c fit argsort rnd fuel g s : (forall g i j, ~ (n_R (rnd g i) j == 0)%Q) -> p_stop s = [] ->
  exists rnd' st', (forall g' i, exists a, rnd' g' i = moves (rnd g' i) a) /\
    forget (final_par (optimize_par c fit argsort rnd fuel g s)) = final (optimize c fit argsort rnd' st' fuel g (forget s)).
Proof.
  intros NZ P. destruct (optimize_forget c fit argsort rnd NZ fuel g s P) as (rnd' & st' & D & H). exists rnd', st'. split; [exact D|].
  destruct H as [H|(t & E & H)]; [rewrite <- H; destruct (optimize_par _ _ _ _ fuel g s); reflexivity|]. rewrite E, <- H. reflexivity.
Qed.

(** ** The invariant of the parameters *)
Definition par_inv (vs : list var) (a : ind) : Prop :=
  List.length (i_sigma a) = List.length (id_r vs) /\ Forall (fun s => (0 <= s)%Q) (i_sigma a) /\
  List.length (i_eta a) = List.length (id_i vs) /\ Forall (fun s => (0 < s)%Q) (i_eta a) /\
  List.length (i_prob a) = Nat.min (List.length (id_d vs)) 1 /\ Forall (fun p => (0 < p /\ p <= 1)%Q) (i_prob a).

Lemma indexed_map_length {A B} (f : nat * A -> B) l : List.length (map f (indexed l)) = List.length l.
Proof. now rewrite map_length, indexed_length. Qed.
Lemma prob'_ok d p : (0 < n_prob d)%Q -> (0 < p)%Q -> (p <= 1)%Q -> (0 < prob' d p /\ prob' d p <= 1)%Q.
Proof.
  intros H P1 P2. unfold prob'. destruct (Qeq_bool p 0) eqn:E; [apply Qeq_bool_iff in E; Lqa.lra|].
  assert (Z : (0 <= (1 - p) / p * n_prob d)%Q). { apply Qmult_le_0_compat; [|Lqa.lra]. apply Qle_shift_div_l; Lqa.lra. }
  set (t := ((1 - p) / p * n_prob d)%Q) in *. assert (T : (0 < 1 + t)%Q) by Lqa.lra. split; [now apply Qinv_lt_0_compat|].
  setoid_replace (/ (1 + t))%Q with (1 / (1 + t))%Q by (field; Lqa.lra). apply Qle_shift_div_r; Lqa.lra.
Qed.
Lemma prob_interval n : 1 <= n -> (0 < 1 / (3 * inject_Z (Z.of_nat n)) /\ 1 / (3 * inject_Z (Z.of_nat n)) < 1 # 2)%Q.
Proof.
  intro H. assert (A : (1 <= inject_Z (Z.of_nat n))%Q) by (change 1%Q with (inject_Z 1); rewrite <- Zle_Qle; lia). split.
  - apply Qlt_shift_div_l; Lqa.lra.
  - apply Qlt_shift_div_r; Lqa.lra.
Qed.

Lemma means_length l1 l2 : List.length l1 = List.length l2 -> List.length (means l1 l2) = List.length l1.
Proof. intro H. unfold means. rewrite map_length, combine_length. lia. Qed.
Lemma means_ok (P : Q -> Prop) l1 l2 : (forall a b, P a -> P b -> P ((a + b) / 2)%Q) -> Forall P l1 -> Forall P l2 -> Forall P (means l1 l2).
Proof.
  intros H F1 F2. unfold means. apply Forall_map, Forall_forall. intros [a b] I. cbn. rewrite Forall_forall in F1, F2.
  apply H; [apply F1; eapply in_combine_l|apply F2; eapply in_combine_r]; eauto.
Qed.
Lemma recombine_par_inv vs P d a : Forall (par_inv vs) P -> recombine_par P d = Some a -> par_inv vs a.
Proof.
  intros F H. rewrite Forall_forall in F. unfold recombine_par in H. destruct (nth_error P (n_p1 d)) as [p1|] eqn:E1; [|discriminate]. apply nth_error_In in E1.
  destruct (nth_error P (n_p2 d)) as [p2|] eqn:E2; [|destruct (_ =? _); [|discriminate]; replace a with p1 by congruence; auto]. apply nth_error_In in E2.
  destruct (_ =? _); [replace a with p1 by congruence; auto|]. assert (E : Some a = Some a) by reflexivity. rewrite <- H in E at 1. injection E as E. subst a.
  destruct (F p1 E1) as (A1 & A2 & A3 & A4 & A5 & A6). destruct (F p2 E2) as (B1 & B2 & B3 & B4 & B5 & B6). unfold par_inv. cbn [i_sigma i_eta i_prob].
  rewrite !means_length by congruence.
  assert (D2 : forall a b : Q, ((a + b) / 2 == (1 # 2) * a + (1 # 2) * b)%Q) by (intros; field).
  repeat split; auto; apply means_ok; auto; intros u v Hu Hv; rewrite D2; Lqa.lra.
Qed.
Lemma indexed_Forall {A B} (f : nat * A -> B) (P : B -> Prop) l : (forall j a, In a l -> P (f (j, a))) -> Forall P (map f (indexed l)).
Proof. intro H. apply Forall_map, Forall_forall. intros [j a] I. apply indexed_in, nth_error_In in I. auto. Qed.
Lemma eta'_ok d a : (forall j, (0 < n_eta d j)%Q) -> Forall (fun s => (0 < s)%Q) (i_eta a) -> Forall (fun e => (0 < e /\ e <= 1)%Q) (eta' d a).
Proof.
  intros H F. apply indexed_Forall. intros j e I. rewrite Forall_forall in F. specialize (F e I). cbn [fst snd]. split; [|apply Q.le_min_r].
  apply Q.min_glb_lt; [|reflexivity]. apply Qmult_lt_0_compat; auto.
Qed.
Lemma mutate_par_inv vs d a b : noise_ok d -> par_inv vs a -> mutate_par vs d a = Some b ->
  par_inv vs b /\ Forall (fun e => (0 < e /\ e <= 1)%Q) (i_eta b) /\
  Forall (fun p => (1 / (3 * inject_Z (Z.of_nat (List.length (id_d vs)))) <= p /\ p <= 1 # 2)%Q) (i_prob b).
Proof.
  intros (NZ & N1 & N2 & N3) (A1 & A2 & A3 & A4 & A5 & A6) H. unfold mutate_par in H. destruct (mutate_r vs (moves d a) (i_x a)) as [x1|] eqn:E1; [|discriminate]. cbn [obind] in H.
  destruct (corrected_total _ _ d _ _ NZ E1) as (sig & ES & SL & SV). rewrite ES in H. cbn [obind] in H. destruct (mutate_i vs (moves d a) x1) as [x2|]; [|discriminate]. cbn [obind] in H.
  destruct (mutate_d vs (moves d a) x2) as [x3|]; [|discriminate]. cbn [obind] in H. assert (E : Some b = Some b) by reflexivity. rewrite <- H in E at 1. injection E as E. subst b. clear H.
  unfold par_inv. cbn [i_sigma i_eta i_prob]. pose proof (eta'_ok d a N2 A4) as EO.
  assert (PO : Forall (fun p => (1 / (3 * inject_Z (Z.of_nat (List.length (id_d vs)))) <= p /\ p <= 1 # 2)%Q)
     (map (fun p => reflect (prob' d p) (1 / (3 * inject_Z (Z.of_nat (List.length (id_d vs))))) (1 # 2)) (i_prob a))).
  { apply Forall_map, Forall_forall. intros p I. apply reflect_in. apply prob_interval. destruct (i_prob a); [destruct I|]. cbn in A5. lia. }
  split; [|split; [exact EO|exact PO]]. split; [exact SL|]. split.
  - apply Forall_forall. intros s I. apply In_nth_error in I as (j & I). destruct (nth_error (id_r vs) j) as [i|] eqn:Ej; [|apply nth_error_None in Ej; apply nth_error_lt in I; lia].
    destruct (SV j i Ej) as (? & ? & ? & ? & ? & ? & _ & _ & _ & _ & E). replace s with (Qabs ((real_round x0 x4 x5 (reflect (x7 + d_real (moves d a) j) x0 x4) - x7) / n_R d j)) by congruence. apply Qabs_nonneg.
  - split; [unfold eta'; now rewrite indexed_map_length|]. split; [revert EO; apply Forall_impl; intros; tauto|]. split; [now rewrite map_length|].
    revert PO. destruct (i_prob a) as [|p l]; [constructor|]. cbn in A5. destruct (prob_interval (List.length (id_d vs)) ltac:(lia)) as (I1 & I2). apply Forall_impl. intros q (Q1 & Q2). split; Lqa.lra.
Qed.

(** The default parameters. *)
Lemma filter_flat {A B} (p : A -> bool) (f : A -> list B) (g : nat * A -> nat) : (forall a, List.length (f a) = if p a then 1 else 0) ->
  forall l k, List.length (flat_map f l) = List.length (map g (filter (fun iv => p (snd iv)) (combine (seq k (List.length l)) l))).
Proof.
  intros H l. rewrite <- (Nat.add_0_l (List.length (flat_map f l))). induction l as [|a l IH]; intro k; [reflexivity|]. cbn [flat_map List.length seq combine filter]. cbn [snd]. rewrite app_length, (H a).
  destruct (p a); cbn [map List.length]; rewrite <- (IH (S k)); reflexivity.
Qed.
Lemma default_inv vs x : Forall proper vs -> par_inv vs (mkInd x (match id_r vs with [] => [] | _ => default_sigma vs end) (match id_i vs with [] => [] | _ => default_eta vs end)
   (match id_d vs with [] => [] | _ => default_prob vs end)).
Proof.
  intro P.
  assert (L1 : List.length (default_sigma vs) = List.length (id_r vs)) by (unfold default_sigma, id_r, ids, indexed; apply (filter_flat (fun v => is_real (vkind v))); intro v; destruct (vkind v); reflexivity).
  assert (L2 : List.length (default_eta vs) = List.length (id_i vs)) by (unfold default_eta, id_i, ids, indexed; apply (filter_flat (fun v => is_integer (vkind v))); intro v; destruct (vkind v); reflexivity).
  assert (F1 : Forall (fun s => (0 <= s)%Q) (default_sigma vs)).
  { apply Forall_flat_map, Forall_forall. intros v I. rewrite Forall_forall in P. specialize (P v I). unfold proper in P. destruct (vkind v); constructor; [|constructor]. Lqa.lra. }
  assert (F2 : Forall (fun s => (0 < s)%Q) (default_eta vs)).
  { apply Forall_flat_map, Forall_forall. intros v I. rewrite Forall_forall in P. specialize (P v I). unfold proper in P. destruct (vkind v); constructor; [|constructor]. apply Qmult_lt_0_compat; [reflexivity|].
    change 0%Q with (inject_Z 0). rewrite <- Zlt_Qlt. lia. }
  unfold par_inv. cbn [i_sigma i_eta i_prob]. repeat split.
  - destruct (id_r vs); [reflexivity|exact L1].
  - destruct (id_r vs); [constructor|exact F1].
  - destruct (id_i vs); [reflexivity|exact L2].
  - destruct (id_i vs); [constructor|exact F2].
  - unfold default_prob. destruct (id_d vs) as [|i [|i' l]]; reflexivity.
  - unfold default_prob. destruct (id_d vs) as [|i l]; [constructor|]. constructor; [|constructor].
    assert (A : (1 <= inject_Z (Z.of_nat (List.length (i :: l))))%Q) by (change 1%Q with (inject_Z 1); rewrite <- Zle_Qle; cbn [List.length]; lia).
    split; [apply Qlt_shift_div_l|apply Qle_shift_div_r]; Lqa.lra.
Qed.

Lemma pick_In {A} (l : list A) ps a : In a (pick l ps) -> In a l.
Proof.
  unfold pick, read. induction ps as [|p ps IH]; [intros []|]. cbn. destruct (nth_error l p) as [b|] eqn:E; cbn; [|auto]. intros [<-|H]; [eapply nth_error_In; eauto|auto].
Qed.
Section Inv.
  Variable c : mcfg.
  Variable fit : nat -> nat -> point -> Q.
  Variable argsort : list Q -> list nat.
  Variable rnd : nat -> nat -> noise.
  (** A property of individuals that the operators preserve from generation g0 on holds for all of them; T is a weaker one. *)
  Variable g0 : nat.
  Variables P T : ind -> Prop.
  Hypothesis PT : forall a, P a -> T a.
  Hypothesis STEP : forall g i L a b, g0 <= g -> Forall P L -> recombine_par L (rnd g i) = Some a -> mutate_par (m_vs c) (rnd g i) a = Some b -> P b.
  Definition all_P (s : pst) : Prop := Forall (fun a => P (fst a)) (p_pop s) /\ Forall (fun a => T (fst a)) (p_trace s).
  Lemma evaluate_par_P (U : ind -> Prop) n X : Forall U X -> Forall (fun a => U (fst a)) (evaluate_par fit n X).
  Proof. intro F. unfold evaluate_par. apply indexed_Forall. intros j a I. cbn. rewrite Forall_forall in F. auto. Qed.
  Lemma generation_par_any (U : ind -> Prop) g s s' : m_elitism c = false \/ Forall (fun a => U (fst a)) (p_pop s) ->
    (forall i a b, recombine_par (map fst (p_pop s)) (rnd g i) = Some a -> mutate_par (m_vs c) (rnd g i) a = Some b -> U b) ->
    generation_par c fit argsort rnd g s = Some s' ->
    Forall (fun a => U (fst a)) (p_pop s') /\ exists off, p_trace s' = p_trace s ++ off /\ Forall (fun a => U (fst a)) off.
  Proof.
    intros A ST H. unfold generation_par in H. destruct (offspring_par c rnd g s) as [X|] eqn:O; [|discriminate].
    assert (FX : Forall U X).
    { apply Forall_forall. intros b I. apply In_nth_error in I as (j & I). unfold offspring_par in O. destruct (nth_error_sequence_map _ _ _ _ _ O I) as (i & _ & E).
      destruct (recombine_par _ _) as [a|] eqn:R; [|discriminate]. cbn [obind] in E. eauto. }
    pose proof (evaluate_par_P U (p_evals s) X FX) as FO. set (off := evaluate_par fit (p_evals s) X) in *.
    assert (FS : Forall (fun a => U (fst a)) (select_par c argsort s off)).
    { apply Forall_forall. intros a I. unfold select_par in I. apply pick_In in I. rewrite Forall_forall in FO. destruct (m_elitism c); auto. destruct A as [A|A]; [discriminate|]. rewrite Forall_forall in A. apply in_app_or in I as [I|I]; auto. }
    destruct (select_par c argsort s off) as [|[a f] p] eqn:E; [discriminate|]. rewrite <- E in *. assert (E' : Some s' = Some s') by reflexivity. rewrite <- H in E' at 1. injection E' as E'. subst s'.
    split; cbn [p_pop p_trace]; [exact FS|]. exists off. auto.
  Qed.
  Lemma generation_par_P g s s' : g0 <= g -> all_P s -> generation_par c fit argsort rnd g s = Some s' -> all_P s'.
  Proof.
    intros G (A & TT) H. destruct (generation_par_any P g s s' (or_intror A) (fun i a b => STEP g i _ a b G (proj2 (Forall_map _ _ _) A)) H) as (B & off & E & F). split; [exact B|].
    rewrite E. apply Forall_app. split; [exact TT|]. revert F. apply Forall_impl. auto.
  Qed.
  Lemma stop_par_same s s' : stop_par c s = Some s' -> p_trace s' = p_trace s /\ p_pop s' = p_pop s /\ p_iters s' = p_iters s /\ p_evals s' = p_evals s /\ p_off s' = p_off s.
  Proof.
    intros H. unfold stop_par in H. destruct (_ || _); [injection H as <-; auto|]. destruct (p_off s) eqn:EO; [discriminate|]. destruct (nth_error _ _); [|discriminate].
    assert (E : Some s' = Some s') by reflexivity. rewrite <- H in E at 1. injection E as E. subst s'. auto.
  Qed.
  Lemma stop_par_P s s' : all_P s -> stop_par c s = Some s' -> all_P s'.
  Proof. intros (A & B) H. destruct (stop_par_same _ _ H) as (E1 & E2 & _). split; [now rewrite E2|now rewrite E1]. Qed.
  Lemma optimize_par_P fuel : forall g s, g0 <= g -> all_P s -> all_P (final_par (optimize_par c fit argsort rnd fuel g s)).
  Proof.
    induction fuel as [|fuel IH]; intros g s G A; cbn [optimize_par]; destruct (stop_par c s) as [s1|] eqn:E; cbn [final_par]; auto; pose proof (stop_par_P _ _ A E) as A1; destruct (p_stop s1); auto.
    destruct (generation_par c fit argsort rnd g s1) as [s2|] eqn:GE; auto. apply IH; [lia|]. eapply generation_par_P; eauto.
  Qed.
End Inv.
Lemma construct_all c fit (P : ind -> Prop) X s : construct c fit None None None X = Some s ->
  (forall x, In x X -> P (mkInd x (match id_r (m_vs c) with [] => [] | _ => default_sigma (m_vs c) end) (match id_i (m_vs c) with [] => [] | _ => default_eta (m_vs c) end)
     (match id_d (m_vs c) with [] => [] | _ => default_prob (m_vs c) end))) -> all_P P P s.
Proof.
  intros H HP. unfold construct, par_columns in H. destruct (_ =? _); [|discriminate]. set (p := evaluate_par fit 0 _) in H.
  assert (F : Forall (fun a => P (fst a)) p) by (apply (evaluate_par_P fit P), Forall_map, Forall_forall; exact HP).
  destruct (first_best c _) as [[x f]|]; [|discriminate]. injection H as <-. split; exact F.
Qed.

(** ** The geometric distribution *)
Lemma geometric_p_ok N eta : 1 <= N -> (0 < eta)%Q -> probability (geometric_p N eta).
Proof.
  intros HN HE. unfold geometric_p, probability. cbv zeta. set (t := (Q2R eta / INR N)%R).
  assert (T : (0 < t)%R). { unfold t. apply Rdiv_lt_0_compat; [|apply lt_0_INR; lia]. replace 0%R with (Q2R 0) by (unfold Q2R; cbn; Lra.lra). now apply Qlt_Rlt. }
  assert (S1 : (t <= sqrt (1 + t ^ 2))%R). { rewrite <- (sqrt_Rsqr t) at 1 by Lra.lra. apply sqrt_le_1_alt. unfold Rsqr. cbn. Lra.lra. }
  set (r := sqrt (1 + t ^ 2)) in *. assert (D : (0 < t / (1 + r))%R) by (apply Rdiv_lt_0_compat; Lra.lra).
  assert (U : (t / (1 + r) < 1)%R). { apply (Rmult_lt_reg_r (1 + r)); [Lra.lra|]. unfold Rdiv. rewrite Rmult_assoc, Rinv_l by Lra.lra. Lra.lra. }
  split; Lra.lra.
Qed.

(** ** The step sizes of real variables *)
Lemma reflect_nonexpansive x z lb ub : (lb < ub)%Q -> (lb <= x)%Q -> (x <= ub)%Q -> (Qabs (reflect z lb ub - x) <= Qabs (z - x))%Q.
Proof.
  intros H L U. pose proof (reflect_in z lb ub H) as (R1 & R2). pose proof (reflect_eq z lb ub H) as E. cbv zeta in E.
  set (y := ((z - lb) / (ub - lb))%Q) in *. set (k := Qfloor y) in *. assert (EY : (z == lb + y * (ub - lb))%Q) by (unfold y; field; Lqa.lra).
  destruct (floor_frac y) as (F1 & F2). fold k in F1, F2. set (w := (ub - lb)%Q) in *. assert (W : (0 < w)%Q) by (unfold w; Lqa.lra).
  assert (Z1 : (inject_Z k * w <= z - lb)%Q). { rewrite EY. setoid_replace (lb + y * w - lb)%Q with (y * w)%Q by ring. apply Qmult_le_compat_r; Lqa.lra. }
  assert (Z2 : (z - lb < (inject_Z k + 1) * w)%Q). { rewrite EY. setoid_replace (lb + y * w - lb)%Q with (y * w)%Q by ring. apply Qmult_lt_compat_r; Lqa.lra. }
  set (r := reflect z lb ub) in *.
  assert (BR : forall b, (r - x <= b)%Q -> (x - r <= b)%Q -> (b <= Qabs (z - x))%Q -> (Qabs (r - x) <= Qabs (z - x))%Q).
  { intros b B1 B2 B3. eapply Qle_trans; [|exact B3]. apply Qabs_Qle_condition. split; Lqa.lra. }
  destruct (Z_le_gt_dec 2 k) as [K|K].
  { apply (BR w); unfold w in *; try Lqa.lra. rewrite Qabs_pos; [|]; assert (A : (2 <= inject_Z k)%Q) by (change 2%Q with (inject_Z 2); rewrite <- Zle_Qle; lia);
    assert (B : (2 * (ub - lb) <= inject_Z k * (ub - lb))%Q) by (apply Qmult_le_compat_r; Lqa.lra); Lqa.lra. }
  destruct (Z_le_gt_dec k (-2)) as [K'|K'].
  { apply (BR w); unfold w in *; try Lqa.lra. rewrite Qabs_neg; [|]; assert (A : (inject_Z k + 1 <= -1)%Q) by (change (-1)%Q with (inject_Z (-1)); change 1%Q with (inject_Z 1); rewrite <- inject_Z_plus, <- Zle_Qle; lia);
    assert (B : ((inject_Z k + 1) * (ub - lb) <= -1 * (ub - lb))%Q) by (apply Qmult_le_compat_r; Lqa.lra); Lqa.lra. }
  assert (K3 : (k = 0 \/ k = 1 \/ k = -1)%Z) by lia. destruct K3 as [K3|[K3|K3]]; rewrite K3 in *; cbn [Z.even] in E.
  - rewrite E. change (inject_Z 0) with 0%Q. setoid_replace (z - 0 * w - x)%Q with (z - x)%Q by ring. apply Qle_refl.
  - change (inject_Z (1 + 1)) with 2%Q in E. change (inject_Z 1) with 1%Q in *. unfold w in *. apply (BR (z - x)%Q); try Lqa.lra. apply Qle_Qabs.
  - change (inject_Z (-1 + 1)) with 0%Q in E. change (inject_Z (-1)) with (-1)%Q in *. unfold w in *. apply (BR (- (z - x))%Q); try Lqa.lra. rewrite <- Qabs_opp. apply Qle_Qabs.
Qed.

Lemma nth_error_indexed_map {A B} (f : nat * A -> B) l j : nth_error (map f (indexed l)) j = option_map (fun a => f (j, a)) (nth_error l j).
Proof. rewrite nth_error_map. unfold indexed. rewrite nth_error_indexed. destruct (nth_error l j); reflexivity. Qed.
Lemma mutate_par_sigma vs d a b : (forall j, ~ (n_R d j == 0)%Q) -> mutate_par vs d a = Some b ->
  forall j i, nth_error (id_r vs) j = Some i -> exists v lb ub p u q, nth_error vs i = Some v /\ vkind v = KReal lb ub p /\
     nth_error (i_x a) i = Some u /\ as_num u = Some q /\
     (let z := real_round lb ub p (reflect (q + d_real (moves d a) j) lb ub) in
      nth_error (i_sigma b) j = Some (Qabs ((z - q) / n_R d j)) /\
      exists x1 x2, mutate_r vs (moves d a) (i_x a) = Some x1 /\ nth_error x1 i = Some (VR z) /\ mutate_i vs (moves d a) x1 = Some x2 /\ mutate_d vs (moves d a) x2 = Some (i_x b)).
Proof.
  intros NZ H j i Hj. unfold mutate_par in H. destruct (mutate_r vs (moves d a) (i_x a)) as [x1|] eqn:E1; [|discriminate]. cbn [obind] in H.
  destruct (corrected_total _ _ d _ _ NZ E1) as (sig & ES & SL & SV). rewrite ES in H. cbn [obind] in H. destruct (mutate_i vs (moves d a) x1) as [x2|] eqn:E2; [|discriminate]. cbn [obind] in H.
  destruct (mutate_d vs (moves d a) x2) as [x3|] eqn:E3; [|discriminate]. cbn [obind] in H. assert (E : Some b = Some b) by reflexivity. rewrite <- H in E at 1. injection E as E. subst b. clear H.
  destruct (SV j i Hj) as (v & lb & ub & p & u & q & V1 & V2 & V3 & V4 & V5). destruct (mutate_r_inv _ _ _ _ E1) as (_ & W). destruct (W j i Hj) as (v' & lb' & ub' & p' & u' & q' & W1 & W2 & W3 & W4 & W5).
  assert (v' = v /\ u' = u) as (-> & ->) by (split; congruence). assert (q' = q /\ lb' = lb /\ ub' = ub /\ p' = p) as (-> & -> & -> & ->) by (repeat split; congruence).
  exists v, lb, ub, p, u, q. do 4 (split; [assumption|]). cbv zeta. split; [exact V5|]. exists x1, x2. auto.
Qed.
Lemma sigma_step vs d a b i j v lb ub s : noise_ok d -> Forall proper vs -> in_domain vs (i_x a) -> mutate_par vs d a = Some b ->
  nth_error (id_r vs) j = Some i -> nth_error vs i = Some v -> vkind v = KReal lb ub None -> nth_error (i_sigma a) j = Some s -> (0 <= s)%Q ->
  exists u q s', nth_error (i_x a) i = Some u /\ as_num u = Some q /\ nth_error (i_sigma b) j = Some s' /\ (0 <= s')%Q /\ (s' <= s * n_sigma d j)%Q /\
    ((lb <= q + s * n_sigma d j * n_R d j)%Q -> (q + s * n_sigma d j * n_R d j <= ub)%Q -> (s' == s * n_sigma d j)%Q).
Proof.
  intros (NZ & N1 & _) P D H Hj V K S S0. destruct (mutate_par_sigma _ _ _ _ NZ H j i Hj) as (v' & lb' & ub' & p & u & q & V1 & V2 & V3 & V4 & V5 & _).
  replace v' with v in V2 by congruence. assert (lb' = lb /\ ub' = ub /\ p = None) as (-> & -> & ->) by (repeat split; congruence). cbn [real_round] in V5.
  destruct (component_exists _ _ _ _ D V) as (u' & U1 & U2). rewrite K in U2. destruct U2 as (q' & U3 & U2). assert (EU : u' = u) by congruence. subst u'. assert (EQ : q' = q) by congruence. subst q'.
  assert (PV : (lb < ub)%Q). { rewrite Forall_forall in P. specialize (P v (nth_error_In _ _ V)). unfold proper in P. now rewrite K in P. }
  assert (M : d_real (moves d a) j = (s * n_sigma d j * n_R d j)%Q). { cbn [moves d_real]. unfold sigma'. rewrite nth_error_indexed_map, S. reflexivity. }
  rewrite M in V5. set (t := (s * n_sigma d j)%Q) in *. assert (T : (0 <= t)%Q) by (apply Qmult_le_0_compat; [exact S0|specialize (N1 j); Lqa.lra]).
  set (r := n_R d j) in *. assert (R0 : (0 < Qabs r)%Q) by (apply Qabs_gt_0 || (destruct (Qlt_le_dec 0 (Qabs r)) as [A|A]; [exact A|exfalso; apply (NZ j); fold r; apply Qabs_Qle_condition in A; Lqa.lra])).
  exists u, q, (Qabs ((reflect (q + t * r) lb ub - q) / r)). do 3 (split; [assumption|]). split; [apply Qabs_nonneg|].
  assert (AE : forall z, (Qabs (z / r) == Qabs z / Qabs r)%Q) by (intro z; unfold Qdiv; now rewrite Qabs_Qmult, Qabs_Qinv). split.
  - rewrite AE. apply Qle_shift_div_r; [exact R0|]. eapply Qle_trans; [apply reflect_nonexpansive; tauto|]. setoid_replace (q + t * r - q)%Q with (t * r)%Q by ring. rewrite Qabs_Qmult, (Qabs_pos t T). apply Qle_refl.
  - intros B1 B2. rewrite (reflect_id _ _ _ PV B1 B2). setoid_replace ((q + t * r - q) / r)%Q with t; [now apply Qabs_pos|]. field. exact (NZ j).
Qed.

(** A variable with values 0 and 1. *)
Definition coarse : list var := [mkVar "x"%string (KReal 0 1 (Some 0%Z))].
Lemma qle_comp a b a' b' : (a == a')%Q -> (b == b')%Q -> Qle_bool a b = Qle_bool a' b'.
Proof. intros A B. apply eq_true_iff_eq. rewrite !Qle_bool_iff, A, B. reflexivity. Qed.
Lemma qclip_comp a b l u : (a == b)%Q -> (qclip a l u == qclip b l u)%Q.
Proof.
  intro E. unfold qclip. rewrite (qle_comp l a l b) by (auto; reflexivity). destruct (Qle_bool l b).
  - rewrite (qle_comp a u b u) by (auto; reflexivity). destruct (Qle_bool b u); [exact E|reflexivity].
  - reflexivity.
Qed.
Lemma rint_between z (n : Z) : (inject_Z n - (1 # 2) < z)%Q -> (z < inject_Z n + (1 # 2))%Q -> (real_round 0 1 (Some 0%Z) z == qclip (inject_Z n) 0 1)%Q.
Proof.
  intros H1 H2. cbn [real_round]. pose proof (np_round_near z 0) as N. apply Qabs_Qle_condition in N. unfold np_round in *. change (Qpower (10 # 1) 0) with 1%Q in *.
  set (r := rint (z * 1)) in *. assert (E : r = n).
  { assert (E1 : (inject_Z r / 1 == inject_Z r)%Q) by field. rewrite E1 in N. assert (E2 : ((1 # 2) / 1 == 1 # 2)%Q) by field. rewrite E2 in N. destruct N as (Na & Nb). clearbody r. assert (inject_Z r < inject_Z (n + 1))%Q by (rewrite inject_Z_plus; change (inject_Z 1) with 1%Q; Lqa.lra).
    assert (inject_Z (n - 1) < inject_Z r)%Q by (replace (n - 1)%Z with (n + -1)%Z by lia; rewrite inject_Z_plus; change (inject_Z (-1)) with (-1)%Q; Lqa.lra).
    rewrite <- Zlt_Qlt in *. lia. }
  rewrite E. apply qclip_comp. field.
Qed.
Lemma reflect01 z : (-(1 # 2) < z)%Q -> (z < 1 + (1 # 2))%Q -> (reflect z 0 1 == if Qle_bool 0 z then if Qle_bool z 1 then z else 2 - z else - z)%Q.
Proof.
  intros H1 H2. destruct (Qle_bool 0 z) eqn:A; [destruct (Qle_bool z 1) eqn:B|].
  - apply Qle_bool_iff in A, B. now apply reflect_id.
  - apply Qle_bool_iff in A. assert (B' : (1 < z)%Q) by (apply Qnot_le_lt; intro N; apply Qle_bool_iff in N; congruence). rewrite reflect_eq by reflexivity.
    assert (F : Qfloor ((z - 0) / (1 - 0)) = 1%Z).
    { assert (E : ((z - 0) / (1 - 0) == z)%Q) by field. rewrite E. pose proof (Qfloor_le z). pose proof (Qlt_floor z). assert (inject_Z 0 < inject_Z (Qfloor z))%Q by (rewrite inject_Z_plus in *; change (inject_Z 1) with 1%Q in *; change (inject_Z 0) with 0%Q; Lqa.lra).
      assert (inject_Z (Qfloor z) < inject_Z 2)%Q by (change (inject_Z 2) with 2%Q; Lqa.lra). rewrite <- Zlt_Qlt in *. lia. }
    rewrite F. cbn [Z.even]. change (inject_Z (1 + 1)) with 2%Q. ring.
  - assert (A' : (z < 0)%Q) by (apply Qnot_le_lt; intro N; apply Qle_bool_iff in N; congruence). rewrite reflect_eq by reflexivity.
    assert (F : Qfloor ((z - 0) / (1 - 0)) = (-1)%Z).
    { assert (E : ((z - 0) / (1 - 0) == z)%Q) by field. rewrite E. pose proof (Qfloor_le z). pose proof (Qlt_floor z). assert (inject_Z (Qfloor z) < inject_Z 0)%Q by (change (inject_Z 0) with 0%Q; Lqa.lra).
      assert (inject_Z (-2) < inject_Z (Qfloor z))%Q by (rewrite inject_Z_plus in *; change (inject_Z 1) with 1%Q in *; change (inject_Z (-2)) with (-2)%Q; Lqa.lra). rewrite <- Zlt_Qlt in *. lia. }
    rewrite F. cbn [Z.even]. change (inject_Z (-1 + 1)) with 0%Q. ring.
Qed.
(** The value y (0 or 1) does not move by less than one half. *)
Lemma coarse_stays (n : Z) q t : n = 0%Z \/ n = 1%Z -> (q == inject_Z n)%Q -> (Qabs t < 1 # 2)%Q -> (real_round 0 1 (Some 0%Z) (reflect (q + t) 0 1) == q)%Q.
Proof.
  intros Hn E T. apply Qabs_Qlt_condition in T. rewrite (rint_between _ n).
  - rewrite E. destruct Hn as [-> | ->]; reflexivity.
  - destruct Hn as [-> | ->]; [change (inject_Z 0) with 0%Q in *|change (inject_Z 1) with 1%Q in *]; (rewrite reflect01 by Lqa.lra);
    (destruct (Qle_bool 0 (q + t)) eqn:A; [destruct (Qle_bool (q + t) 1) eqn:B|]; try Lqa.lra);
    try (assert (B' : (q + t < 0)%Q) by (apply Qnot_le_lt; intro N; apply Qle_bool_iff in N; congruence); Lqa.lra).
  - destruct Hn as [-> | ->]; [change (inject_Z 0) with 0%Q in *|change (inject_Z 1) with 1%Q in *]; (rewrite reflect01 by Lqa.lra);
    (destruct (Qle_bool 0 (q + t)) eqn:A; [destruct (Qle_bool (q + t) 1) eqn:B|]; try Lqa.lra);
    try (assert (B' : (1 < q + t)%Q) by (apply Qnot_le_lt; intro N; apply Qle_bool_iff in N; congruence); Lqa.lra).
Qed.

Lemma coarse_step d q s e p b n : (forall j, ~ (n_R d j == 0)%Q) -> n = 0%Z \/ n = 1%Z -> (q == inject_Z n)%Q -> (Qabs (s * n_sigma d 0 * n_R d 0) < 1 # 2)%Q ->
  mutate_par coarse d (mkInd [VR q] [s] e p) = Some b -> exists q' s', i_x b = [VR q'] /\ (q' == q)%Q /\ i_sigma b = [s'] /\ (s' == 0)%Q.
Proof.
  intros NZ Hn E T H. assert (Z : Qeq_bool (n_R d 0) 0 = false) by (destruct (Qeq_bool (n_R d 0) 0) eqn:Z; [apply Qeq_bool_iff in Z; destruct (NZ 0 Z)|reflexivity]).
  unfold mutate_par, coarse, mutate_r in H. cbn -[real_round reflect Qabs Qdiv Qminus Qmult Qplus Qeq_bool inject_Z] in H. unfold corrected in H. cbn -[real_round reflect Qabs Qdiv Qminus Qmult Qplus Qeq_bool inject_Z] in H. rewrite Z in H. cbn -[real_round reflect Qabs Qdiv Qminus Qmult Qplus Qeq_bool inject_Z] in H.
  match type of H with Some ?y = Some _ => assert (E' : y = b) by exact (f_equal (fun o => match o with Some z => z | None => b end) H) end. rewrite <- E'. cbn [i_x i_sigma].
  do 2 eexists. split; [reflexivity|]. pose proof (coarse_stays n q _ Hn E T) as C. split; [exact C|]. split; [reflexivity|]. 
  match goal with |- (Qabs ((?z - _) / _) == 0)%Q => assert (E2 : ((z - q) / n_R d 0 == 0)%Q) by (rewrite C; field; apply NZ) end. rewrite E2. reflexivity.
Qed.
Lemma coarse_recombine L d a (V : Q -> Prop) (W : Q -> Prop) : (forall u v, W u -> W v -> W ((u + v) / 2)%Q) ->
  Forall (fun a => exists q s, i_x a = [VR q] /\ V q /\ i_sigma a = [s] /\ W s) L -> recombine_par L d = Some a -> exists q s, i_x a = [VR q] /\ V q /\ i_sigma a = [s] /\ W s.
Proof.
  intros HW F H. rewrite Forall_forall in F. unfold recombine_par in H. destruct (nth_error L (n_p1 d)) as [p1|] eqn:E1; [|discriminate]. apply nth_error_In in E1.
  destruct (nth_error L (n_p2 d)) as [p2|] eqn:E2; [|destruct (_ =? _); [|discriminate]; replace a with p1 by congruence; auto]. apply nth_error_In in E2.
  destruct (_ =? _); [replace a with p1 by congruence; auto|]. injection H as <-. cbn [i_x i_sigma]. destruct (F p1 E1) as (q1 & s1 & A1 & A2 & A3 & A4). destruct (F p2 E2) as (q2 & s2 & B1 & B2 & B3 & B4).
  rewrite A1, A3, B1, B3. cbn. destruct (n_mask d 0); cbn; [exists q2|exists q1]; eexists; do 3 (split; [try reflexivity; assumption|]); auto.
Qed.
Lemma coarse_frozen c fit argsort rnd X s0 fuel : m_vs c = coarse -> m_elitism c = false -> (forall x, In x X -> x = [VR 0] \/ x = [VR 1]) ->
  (forall g i j, ~ (n_R (rnd g i) j == 0)%Q) -> (forall i, (Qabs (n_sigma (rnd 0%nat i) 0%nat * n_R (rnd 0%nat i) 0%nat) < 10)%Q) ->
  construct c fit None None None X = Some s0 ->
  Forall (fun a => exists q y, i_x (fst a) = [VR q] /\ In [VR y] X /\ (q == y)%Q) (p_trace (final_par (optimize_par c fit argsort rnd fuel 0 s0))).
Proof.
  intros EV EE HX NZ B0 H.
  set (V := fun q : Q => exists y, In [VR y] X /\ (q == y)%Q).
  set (U := fun (W : Q -> Prop) a => exists q s, i_x a = [VR q] /\ V q /\ i_sigma a = [s] /\ W s).
  set (T := fun a : ind => exists q y, i_x a = [VR q] /\ In [VR y] X /\ (q == y)%Q).
  assert (UT : forall W a, U W a -> T a) by (intros W a (q & s & A & (y & B & C) & _); exists q, y; auto).
  assert (VZ : forall q, V q -> exists n, (n = 0%Z \/ n = 1%Z) /\ (q == inject_Z n)%Q).
  { intros q (y & B & C). destruct (HX _ B) as [D|D]; [exists 0%Z|exists 1%Z]; (split; [auto|]); rewrite C; injection D as ->; reflexivity. }
  assert (ST : forall (W : Q -> Prop) g i a b, (forall s, W s -> (Qabs (s * n_sigma (rnd g i) 0%nat * n_R (rnd g i) 0%nat) < 1 # 2)%Q) -> U W a -> mutate_par coarse (rnd g i) a = Some b -> U (fun s => (s == 0)%Q) b).
  { intros W g i [x sg e p] b HW (q & s & A & Vq & C & D) M. cbn [i_x i_sigma] in *. subst x sg. destruct (VZ q Vq) as (n & Hn & En).
    destruct (coarse_step _ _ _ _ _ _ n (NZ g i) Hn En (HW s D) M) as (q' & s' & E1 & E2 & E3 & E4). exists q', s'. split; [exact E1|]. split; [|split; [exact E3|exact E4]]. destruct Vq as (y & Y1 & Y2). exists y. split; [exact Y1|]. now rewrite E2. }
  assert (I0 : all_P (U (fun s => (s == 1 # 20)%Q)) (U (fun s => (s == 1 # 20)%Q)) s0).
  { apply (construct_all c fit _ X s0 H). intros x Hx. rewrite EV. destruct (HX x Hx) as [-> | ->]; [exists 0%Q|exists 1%Q]; eexists; (split; [reflexivity|]); (split; [eexists; split; [exact Hx|reflexivity]|]); (split; [reflexivity|reflexivity]). }
  destruct I0 as (I1 & I2).
  assert (I3 : Forall (fun a => T (fst a)) (p_trace s0)) by (revert I2; apply Forall_impl; intros a; apply (UT (fun s => (s == 1 # 20)%Q))).
  destruct fuel as [|fuel]; cbn [optimize_par]; destruct (stop_par c s0) as [s1|] eqn:ES; cbn [final_par]; try exact I3; destruct (stop_par_same _ _ _ ES) as (T1 & T2 & _); [destruct (p_stop s1); cbn [final_par]; rewrite T1; exact I3|].
  destruct (p_stop s1); [|cbn [final_par]; rewrite T1; exact I3]. destruct (generation_par c fit argsort rnd 0 s1) as [s2|] eqn:G; [|cbn [final_par]; rewrite T1; exact I3].
  assert (A2 : all_P (U (fun s => (s == 0)%Q)) T s2).
  { destruct (generation_par_any c fit argsort rnd (U (fun s => (s == 0)%Q)) 0 s1 s2) as (P2 & off & E & F); auto.
    - intros i a b R M. rewrite EV in M. apply (ST (fun s => (s == 1 # 20)%Q) 0 i a b); auto.
      + intros s Hs. rewrite <- Qmult_assoc, Hs, Qabs_Qmult. change (Qabs (1 # 20)) with (1 # 20)%Q. specialize (B0 i). Lqa.lra.
      + apply (coarse_recombine (map fst (p_pop s1)) (rnd 0 i)); auto; [intros u v Hu Hv; rewrite Hu, Hv; reflexivity|]. rewrite T2. now apply Forall_map.
    - split; [exact P2|]. rewrite E, T1. apply Forall_app. split; [exact I3|]. revert F. apply Forall_impl. intros a. apply (UT (fun s => (s == 0)%Q)). }
  assert (R : all_P (U (fun s => (s == 0)%Q)) T (final_par (optimize_par c fit argsort rnd fuel 1 s2))).
  { apply (optimize_par_P c fit argsort rnd 1); auto; [apply (UT (fun s => (s == 0)%Q))|]. intros g i L a b _ F R M. rewrite EV in M. apply (ST (fun s => (s == 0)%Q) g i a b); auto.
    - intros s Hs. rewrite <- Qmult_assoc, Hs, Qmult_0_l. reflexivity.
    - apply (coarse_recombine L (rnd g i)); auto. intros u v Hu Hv. rewrite Hu, Hv. reflexivity. }
  exact (proj2 R).
Qed.
