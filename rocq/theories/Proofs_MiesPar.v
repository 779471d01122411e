(** Lemmas about Model_MiesPar.v. *)
From Coq Require Import Bool Arith ZArith QArith Qabs Qround Qminmax List Lia Lqa Qfield Permutation.
From Verif Require Import Model_Var Model_Grid Model_Pareto Model_Box Model_Ask Model_Sol.
From Verif Require Import Lib_List Spec_Ask Spec_Pareto Spec_Sol Proofs_Var Proofs_Box Proofs_Pareto Proofs_Sol.
From Verif Require Import Model_MIES Spec_MIES Proofs_MIES Model_MiesPar Spec_MiesPar.
Import ListNotations.
Open Scope nat_scope.
Local Arguments pick : simpl never.
Local Arguments read : simpl never.

(** ** One individual *)
Lemma puts_nth {A} (b : list A) ps l j i a : NoDup ps -> Forall (fun p => p < List.length b) ps -> List.length l = List.length ps ->
  nth_error ps j = Some i -> nth_error l j = Some a -> nth_error (puts b ps l) i = Some a.
Proof. intros N F L H1 H2. pose proof (puts_same b ps l N F L) as S. rewrite <- H2. symmetry. eapply selects_nth; eauto. Qed.

Lemma mutate_r_inv vs m x x1 : mutate_r vs m x = Some x1 ->
  (forall i, ~ In i (id_r vs) -> nth_error x1 i = nth_error x i) /\
  (forall j i, nth_error (id_r vs) j = Some i -> exists v lb ub p u q, nth_error vs i = Some v /\ vkind v = KReal lb ub p /\
     nth_error x i = Some u /\ as_num u = Some q /\ nth_error x1 i = Some (VR (real_round lb ub p (reflect (q + d_real m j) lb ub)))).
Proof.
  unfold mutate_r. intros H. destruct (sequence _) as [l|] eqn:S; cbn in H; [|discriminate]. assert (E : puts x (id_r vs) l = x1) by congruence. subst x1. clear H.
  split; [intros i N; now apply puts_other|]. intros j i Hj.
  assert (SL : List.length l = List.length (id_r vs)) by (apply sequence_length in S; now rewrite map_length, indexed_length in S).
  assert (V : forall j i, nth_error (id_r vs) j = Some i -> exists b v lb ub p u q, nth_error l j = Some b /\ nth_error vs i = Some v /\ vkind v = KReal lb ub p /\
     nth_error x i = Some u /\ as_num u = Some q /\ b = VR (real_round lb ub p (reflect (q + d_real m j) lb ub))).
  { clear j i Hj. intros j i Hj. destruct (nth_error l j) as [b|] eqn:Hb; [|apply nth_error_None in Hb; apply nth_error_lt in Hj; lia].
    destruct (nth_error_sequence_map _ _ _ _ _ S Hb) as ([j' i'] & K1 & K2). unfold indexed in K1. rewrite nth_error_indexed, Hj in K1. cbn [option_map] in K1.
    assert (j' = j /\ i' = i) as (-> & ->) by (split; congruence). cbn [fst snd] in K2. unfold new_real in K2.
    destruct (nth_error vs i) as [v|] eqn:E1; [|discriminate]. destruct (nth_error x i) as [u|] eqn:E2; [|discriminate].
    destruct (vkind v) as [lb ub p| | | | |] eqn:E3; try discriminate. destruct (as_num u) as [q|] eqn:E4; [|discriminate].
    exists b, v, lb, ub, p, u, q. repeat split; auto. congruence. }
  destruct (V j i Hj) as (b & v & lb & ub & p & u & q & Hb & E1 & E3 & E2 & E4 & ->). exists v, lb, ub, p, u, q. do 4 (split; [assumption|]).
  apply (puts_nth x (id_r vs) l j); auto; [apply ids_nodup|]. apply Forall_forall. intros i' Hi. apply In_nth_error in Hi as (j' & Hi). destruct (V j' i' Hi) as (? & ? & ? & ? & ? & u' & ? & _ & _ & _ & E & _).
  eapply nth_error_lt; eauto.
Qed.

Lemma corrected_total vs m d x x1 : (forall j, ~ (n_R d j == 0)%Q) -> mutate_r vs m x = Some x1 ->
  exists sig, sequence (map (corrected x x1 d) (indexed (id_r vs))) = Some sig /\ List.length sig = List.length (id_r vs) /\
    forall j i, nth_error (id_r vs) j = Some i -> exists v lb ub p u q, nth_error vs i = Some v /\ vkind v = KReal lb ub p /\
     nth_error x i = Some u /\ as_num u = Some q /\
     nth_error sig j = Some (Qabs ((real_round lb ub p (reflect (q + d_real m j) lb ub) - q) / n_R d j)).
Proof.
  intros NZ H. destruct (mutate_r_inv _ _ _ _ H) as (_ & V).
  assert (C : forall j i, nth_error (id_r vs) j = Some i -> exists v lb ub p u q, nth_error vs i = Some v /\ vkind v = KReal lb ub p /\
     nth_error x i = Some u /\ as_num u = Some q /\ corrected x x1 d (j, i) = Some (Qabs ((real_round lb ub p (reflect (q + d_real m j) lb ub) - q) / n_R d j))).
  { intros j i Hj. destruct (V j i Hj) as (v & lb & ub & p & u & q & E1 & E2 & E3 & E4 & E5). exists v, lb, ub, p, u, q. do 4 (split; [assumption|]).
    unfold corrected. cbn [fst snd]. rewrite E3, E5, E4. cbn [as_num]. destruct (Qeq_bool (n_R d j) 0) eqn:Z; [|reflexivity]. apply Qeq_bool_iff in Z. destruct (NZ j Z). }
  destruct (sequence_total (corrected x x1 d) (indexed (id_r vs))) as (sig & S).
  { intros [j i] Hp. apply indexed_in in Hp. destruct (C j i Hp) as (? & ? & ? & ? & ? & ? & _ & _ & _ & _ & E). eauto. }
  exists sig. split; [exact S|]. assert (SL : List.length sig = List.length (id_r vs)) by (apply sequence_length in S; now rewrite map_length, indexed_length in S). split; [exact SL|].
  intros j i Hj. destruct (C j i Hj) as (v & lb & ub & p & u & q & E1 & E2 & E3 & E4 & E5). exists v, lb, ub, p, u, q. do 4 (split; [assumption|]).
  destruct (nth_error sig j) as [b|] eqn:Hb; [|apply nth_error_None in Hb; apply nth_error_lt in Hj; lia].
  destruct (nth_error_sequence_map _ _ _ _ _ S Hb) as ([j' i'] & K1 & K2). unfold indexed in K1. rewrite nth_error_indexed, Hj in K1. cbn [option_map] in K1.
  assert (j' = j /\ i' = i) as (-> & ->) by (split; congruence). congruence.
Qed.

(** The solution of the offspring is that of Model_MIES with the moves computed from the parameters. *)
Lemma mutate_par_x vs d a : (forall j, ~ (n_R d j == 0)%Q) -> option_map i_x (mutate_par vs d a) = mutate vs (moves d a) (i_x a).
Proof.
  intro NZ. unfold mutate_par, mutate. destruct (mutate_r vs (moves d a) (i_x a)) as [x1|] eqn:E1; [|reflexivity]. cbn [obind].
  destruct (corrected_total _ _ d _ _ NZ E1) as (sig & -> & _). cbn [obind]. destruct (mutate_i vs (moves d a) x1) as [x2|]; [|reflexivity]. cbn [obind].
  destruct (mutate_d vs (moves d a) x2); reflexivity.
Qed.
Lemma recombine_par_x P d a' :
  option_map i_x (recombine_par P d) = recombine (map i_x P) (moves d a').
Proof.
  unfold recombine_par, recombine. cbn [moves d_p1 d_p2 d_mask]. rewrite !nth_error_map. destruct (nth_error P (n_p1 d)) as [p1|]; [|reflexivity]. cbn [option_map].
  destruct (nth_error P (n_p2 d)) as [p2|]; destruct (n_p1 d =? n_p2 d); reflexivity.
Qed.

(** ** The run as a run of Model_MIES *)
Definition forget (s : pst) : mst :=
  mkMst (map (fun a => (i_x (fst a), snd a)) (p_pop s)) (p_xopt s) (p_fopt s) (p_evals s) (p_iters s) (evaluated s).
Definition forget_out (o : outcome_par) : Model_MIES.outcome :=
  match o with Done_par s => Done (forget s) | Raised_par s => Raised (forget s) | OutOfFuel_par s => OutOfFuel (forget s) end.

Lemma pick_map {A B} (f : A -> B) l ps : pick (map f l) ps = map f (pick l ps).
Proof.
  unfold pick, read. induction ps as [|p ps IH]; [reflexivity|]. cbn. rewrite nth_error_map. destruct (nth_error l p); cbn; rewrite IH; reflexivity.
Qed.

Section Run.
  Variable c : mcfg.
  Variable fit : nat -> nat -> point -> Q.
  Variable argsort : list Q -> list nat.
  Variable rnd : nat -> nat -> noise.
  Hypothesis NZ : forall g i j, ~ (n_R (rnd g i) j == 0)%Q.
  Notation generation_par := (generation_par c fit argsort rnd).
  Notation optimize_par := (optimize_par c fit argsort rnd).

  Definition drawn (g i : nat) (s : pst) : draws :=
    match recombine_par (map fst (p_pop s)) (rnd g i) with
    | Some a => moves (rnd g i) a
    | None => moves (rnd g i) (mkInd [] [] [] [])
    end.

  Lemma sequence_ext {A B C} (f : A -> option B) (h : A -> option C) (k : B -> C) l : (forall a, In a l -> option_map k (f a) = h a) ->
    option_map (map k) (sequence (map f l)) = sequence (map h l).
  Proof.
    induction l as [|a l IH]; intro H; [reflexivity|]. cbn. rewrite <- (H a) by (now left). destruct (f a) as [b|]; [|reflexivity]. cbn. rewrite <- IH by (intros; apply H; now right).
    destruct (sequence (map f l)); reflexivity.
  Qed.
  Lemma offspring_forget rnd' g s : (forall i, i < m_lambda c -> rnd' g i = drawn g i s) ->
    option_map (map i_x) (offspring_par c rnd g s) = offspring c rnd' g (forget s).
  Proof.
    intro H. unfold offspring_par, offspring. apply sequence_ext. intros i Hi. apply in_seq in Hi. rewrite (H i) by lia. cbn [forget pop]. rewrite map_map. cbn [fst].
    unfold drawn. destruct (recombine_par (map fst (p_pop s)) (rnd g i)) as [a|] eqn:E.
    - pose proof (recombine_par_x (map fst (p_pop s)) (rnd g i) a) as R. rewrite E, map_map in R. cbn [option_map] in R. rewrite <- R. cbn [obind]. apply mutate_par_x. apply NZ.
    - pose proof (recombine_par_x (map fst (p_pop s)) (rnd g i) (mkInd [] [] [] [])) as R. rewrite E, map_map in R. cbn [option_map] in R. rewrite <- R. reflexivity.
  Qed.
  Lemma evaluate_forget n X : map (fun a => (i_x (fst a), snd a)) (evaluate_par fit n X) = evaluate fit n (map i_x X).
  Proof.
    unfold evaluate_par, evaluate, indexed. rewrite map_map, map_length. cbn [fst snd].
    generalize 0. induction X as [|a X IH]; intro k; [reflexivity|]. cbn. f_equal. apply IH.
  Qed.
  Lemma generation_forget rnd' g s : (forall i, i < m_lambda c -> rnd' g i = drawn g i s) ->
    option_map forget (generation_par g s) = generation c fit argsort rnd' g (forget s).
  Proof.
    intro H. unfold Model_MiesPar.generation_par, generation. rewrite <- (offspring_forget rnd' g s H). destruct (offspring_par c rnd g s) as [X|]; [|reflexivity]. cbn [option_map].
    assert (SE : select c argsort (forget s) (evaluate fit (evals (forget s)) (map i_x X)) = map (fun a => (i_x (fst a), snd a)) (select_par c argsort s (evaluate_par fit (p_evals s) X))).
    { unfold select, select_par. cbn [forget pop evals]. rewrite <- evaluate_forget. set (f := fun a : ind * Q => (i_x (fst a), snd a)).
      replace (if m_elitism c then map f (p_pop s) ++ map f (evaluate_par fit (p_evals s) X) else map f (evaluate_par fit (p_evals s) X))
        with (map f (if m_elitism c then p_pop s ++ evaluate_par fit (p_evals s) X else evaluate_par fit (p_evals s) X)) by (destruct (m_elitism c); [apply map_app|reflexivity]).
      rewrite map_map. cbn [snd f]. apply pick_map. }
    rewrite SE. destruct (select_par c argsort s (evaluate_par fit (p_evals s) X)) as [|[a f] p]; [reflexivity|]. cbn [option_map map fst snd forget fopt xopt evals iters trace].
    f_equal. unfold forget. cbn [p_pop p_xopt p_fopt p_evals p_iters map fst snd]. rewrite map_length. f_equal.
    unfold evaluated. cbn [p_trace]. rewrite map_app, evaluate_forget. reflexivity.
  Qed.
  Lemma stop_forget s s1 : stop_par c s = Some s1 -> forget s1 = forget s /\ (p_stop s = [] -> forall m, m_max c = Some m -> m < p_evals s -> p_stop s1 <> []).
  Proof.
    unfold stop_par. intro H. set (st := p_stop s ++ _) in H.
    assert (ST : p_stop s = [] -> forall m, m_max c = Some m -> m < p_evals s -> st <> []).
    { intros E m M L. unfold st. rewrite E, M. apply Nat.ltb_lt in L. rewrite L. discriminate. }
    assert (AP : forall l x, l <> [] -> l ++ [x] <> @nil reason) by (intros [|? ?] x A; [congruence|discriminate]).
    destruct (_ || _); [injection H as <-; split; [reflexivity|exact ST]|]. destruct (p_off s) as [|f0 off]; [discriminate|].
    destruct (nth_error _ _) as [fk|]; [|discriminate]. assert (E : Some s1 = Some s1) by reflexivity. rewrite <- H in E at 1. injection E as E. subst s1. split; [reflexivity|].
    intros E m M L. cbn [p_stop]. specialize (ST E m M L). destruct (_ && _), (Qeq_bool f0 fk); auto.
  Qed.

  Lemma optimize_from rnd1 rnd2 st1 st2 fuel : forall g s, (forall g' i, g <= g' -> rnd1 g' i = rnd2 g' i) -> (forall g' t, g <= g' -> st1 g' t = st2 g' t) ->
    optimize c fit argsort rnd1 st1 fuel g s = optimize c fit argsort rnd2 st2 fuel g s.
  Proof.
    induction fuel as [|fuel IH]; intros g s H1 H2; cbn [optimize].
    - replace (stop c st1 g s) with (stop c st2 g s) by (unfold stop; now rewrite (H2 g s (le_n g))). reflexivity.
    - replace (stop c st1 g s) with (stop c st2 g s) by (unfold stop; now rewrite (H2 g s (le_n g))). destruct (stop c st2 g s); [reflexivity|].
      assert (G : generation c fit argsort rnd1 g s = generation c fit argsort rnd2 g s).
      { unfold generation, offspring. replace (map _ (seq 0 (m_lambda c))) with (map (fun i => obind (recombine (map fst (pop s)) (rnd2 g i)) (mutate (m_vs c) (rnd2 g i))) (seq 0 (m_lambda c))); [reflexivity|].
        apply map_ext. intro i. now rewrite (H1 g i (le_n g)). }
      rewrite G. destruct (generation c fit argsort rnd2 g s) as [s'|]; [|reflexivity]. apply IH; intros; [apply H1|apply H2]; lia.
  Qed.

  (** Every run is a run of Model_MIES with some draws and some stopping rule, except that the stopping criteria may raise. *)
  Lemma optimize_forget fuel : forall g s, p_stop s = [] ->
    exists rnd' st', (forall g' i, exists a, rnd' g' i = moves (rnd g' i) a) /\
      (forget_out (optimize_par fuel g s) = optimize c fit argsort rnd' st' fuel g (forget s) \/
       exists t, optimize_par fuel g s = Raised_par t /\ Done (forget t) = optimize c fit argsort rnd' st' fuel g (forget s)).
  Proof.
    assert (DR : forall g i s, exists a, drawn g i s = moves (rnd g i) a) by (intros; unfold drawn; destruct (recombine_par _ _); eauto).
    induction fuel as [|fuel IH]; intros g s P0; cbn [Model_MiesPar.optimize_par].
    - destruct (stop_par c s) as [s1|] eqn:ES.
      + destruct (stop_forget _ _ ES) as (F & M). exists (fun g i => moves (rnd g i) (mkInd [] [] [] [])), (fun _ _ => match p_stop s1 with [] => false | _ => true end). split; [eauto|]. left.
        cbn [optimize]. unfold stop. cbn [forget evals]. destruct (p_stop s1) as [|r l] eqn:EP.
        * rewrite orb_false_r. cbn [forget_out]. rewrite F. destruct (m_max c) as [m|] eqn:EM; [|reflexivity]. destruct (Nat.ltb_spec m (p_evals s)) as [L|L]; [|reflexivity].
          exfalso. exact (M P0 m eq_refl L eq_refl).
        * rewrite orb_true_r. cbn [forget_out]. now rewrite F.
      + exists (fun g i => moves (rnd g i) (mkInd [] [] [] [])), (fun _ _ => true). split; [eauto|]. right. exists s. split; [reflexivity|]. cbn [optimize]. unfold stop. now rewrite orb_true_r.
    - destruct (stop_par c s) as [s1|] eqn:ES.
      2:{ exists (fun g i => moves (rnd g i) (mkInd [] [] [] [])), (fun _ _ => true). split; [eauto|]. right. exists s. split; [reflexivity|]. cbn [optimize]. unfold stop. now rewrite orb_true_r. }
      destruct (stop_forget _ _ ES) as (F & M). destruct (p_stop s1) as [|r l] eqn:EP.
      2:{ exists (fun g i => moves (rnd g i) (mkInd [] [] [] [])), (fun _ _ => true). split; [eauto|]. left. cbn [optimize]. unfold stop. rewrite orb_true_r. cbn [forget_out]. now rewrite F. }
      assert (NS : forall st', (forall t, st' g t = false) -> stop c st' g (forget s) = false).
      { intros st' Hs. unfold stop. rewrite Hs, orb_false_r. cbn [forget evals]. destruct (m_max c) as [m|] eqn:EM; [|reflexivity]. destruct (Nat.ltb_spec m (p_evals s)) as [L|L]; [|reflexivity]. exfalso. exact (M P0 m eq_refl L eq_refl). }
      destruct (generation_par g s1) as [s2|] eqn:EG.
      2:{ exists (fun g i => drawn g i s1), (fun _ _ => false). split; [intros; destruct (DR g' i s1); eauto|]. left. cbn [optimize]. rewrite NS by reflexivity.
          pose proof (generation_forget (fun g i => drawn g i s1) g s1 (fun _ _ => eq_refl)) as G. rewrite EG, F in G. cbn [option_map] in G. rewrite <- G. cbn [forget_out]. now rewrite F. }
      assert (P2 : p_stop s2 = []).
      { unfold Model_MiesPar.generation_par in EG. destruct (offspring_par c rnd g s1); [|discriminate]. destruct (select_par _ _ _ _) as [|[? ?] ?]; [discriminate|]. assert (E : Some s2 = Some s2) by reflexivity. rewrite <- EG in E at 1. injection E as E. subst s2. exact EP. }
      destruct (IH (S g) s2 P2) as (rnd' & st' & D & H).
      exists (fun g' i => if g' =? g then drawn g' i s1 else rnd' g' i), (fun g' t => if g' =? g then false else st' g' t). split.
      { intros g' i. destruct (g' =? g); [destruct (DR g' i s1); eauto|]. destruct (D g' i) as (a & E). eauto. }
      assert (OP : forall t, optimize c fit argsort (fun g' i => if g' =? g then drawn g' i s1 else rnd' g' i) (fun g' t => if g' =? g then false else st' g' t) fuel (S g) t =
                        optimize c fit argsort rnd' st' fuel (S g) t).
      { intro t. apply optimize_from; intros g' ? Hg; destruct (Nat.eqb_spec g' g); auto; lia. }
      cbn [optimize]. rewrite NS by (intro; now rewrite Nat.eqb_refl).
      pose proof (generation_forget (fun g' i => if g' =? g then drawn g' i s1 else rnd' g' i) g s1) as G. rewrite EG, F in G. rewrite <- G by (intros; now rewrite Nat.eqb_refl). cbn [option_map]. rewrite OP. exact H.
  Qed.
End Run.
