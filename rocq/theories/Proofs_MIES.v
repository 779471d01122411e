(** Lemmas about Model_MIES.v. *)
From Coq Require Import Bool Arith ZArith QArith Qround List Lia Lqa Permutation.
From Verif Require Import Model_Var Model_Grid Model_Pareto Model_Box Model_Ask Model_Sol.
From Verif Require Import Lib_List Spec_Ask Spec_Pareto Spec_Sol Proofs_Var Proofs_Box Proofs_Pareto Proofs_Sol.
From Verif Require Import Model_MIES Spec_MIES.
Import ListNotations.
Open Scope nat_scope.
Local Arguments pick : simpl never.
Local Arguments read : simpl never.

Lemma to_int_between lb ub q : (inject_Z lb <= q)%Q -> (q <= inject_Z ub)%Q -> (lb <= to_int q <= ub)%Z.
Proof.
  intros H1 H2. unfold to_int.
  destruct (Qle_bool 0 q) eqn:E.
  - split.
    + rewrite <- (Qfloor_Z lb). now apply Qfloor_resp_le.
    + rewrite <- (Qfloor_Z ub). now apply Qfloor_resp_le.
  - split.
    + rewrite <- (Qceiling_Z lb). now apply Qceiling_resp_le.
    + rewrite <- (Qceiling_Z ub). now apply Qceiling_resp_le.
Qed.

Lemma sequence_spec {A} (l : list (option A)) r : sequence l = Some r -> l = map Some r.
Proof.
  revert r. induction l as [|[a|] l IH]; simpl; intros r H; try congruence.
  - now injection H as <-.
  - destruct (sequence l) as [t|]; simpl in H; try congruence. injection H as <-. simpl. now rewrite (IH t).
Qed.

Lemma map_fst_indexed {A} (l : list A) : map fst (indexed l) = seq 0 (length l).
Proof.
  unfold indexed. generalize 0. induction l as [|a l IH]; intro k; simpl; auto. now rewrite IH.
Qed.
Lemma indexed_length {A} (l : list A) : length (indexed l) = length l.
Proof. unfold indexed. rewrite combine_length, seq_length. apply Nat.min_id. Qed.
Lemma indexed_in {A} (l : list A) i x : In (i, x) (indexed l) <-> nth_error l i = Some x.
Proof. apply in_indexed. Qed.
Lemma map_snd_indexed {A} (l : list A) : map snd (indexed l) = l.
Proof.
  unfold indexed. generalize 0. induction l as [|a l IH]; intro k; simpl; auto. now rewrite IH.
Qed.

Lemma ids_in p vs i : In i (ids p vs) <-> exists v, nth_error vs i = Some v /\ p (vkind v) = true.
Proof.
  unfold ids. rewrite in_map_iff. split.
  - intros [[j v] [<- H]]. apply filter_In in H as [H1 H2]. apply in_indexed in H1. eauto.
  - intros [v [H1 H2]]. exists (i, v). split; auto. apply filter_In. split; auto. now apply in_indexed.
Qed.
Lemma ids_nodup p vs : NoDup (ids p vs).
Proof.
  unfold ids. assert (N : NoDup (map fst (indexed vs))).
  { rewrite map_fst_indexed. apply seq_NoDup. }
  induction (indexed vs) as [|[i v] l IH]; simpl; [constructor|].
  inversion N; subst. destruct (p (vkind v)); simpl; auto.
  constructor; auto. intro F. apply H1. apply in_map_iff in F as [x [E F]]. apply filter_In in F as [F _].
  apply in_map_iff. eauto.
Qed.

Lemma dedup_In l v : In v (dedup l) -> In v l.
Proof.
  destruct (dedup_positions l) as [idx [_ [E _]]]. intro H.
  assert (K : In (Some v) (map (nth_error l) idx)) by (rewrite <- E; now apply in_map).
  apply in_map_iff in K as [j [K _]]. eapply nth_error_In; eauto.
Qed.

Lemma level_within k v : (match k with KReal _ _ _ | KInt _ _ _ => False | _ => True end) -> In v (levels k) -> within k v.
Proof.
  destruct k as [lb ub p|lb ub st|l|l|e|]; simpl; intros K H; try tauto.
  - now apply dedup_In.
  - now apply dedup_In.
  - apply dedup_In in H. apply in_map_iff in H as [t [<- H]]. apply in_flat_map in H as [r [H1 H2]].
    apply in_seq in H1. exists r, t. split; [lia|auto].
  - intuition.
Qed.

(** *** Domains component by component *)
Lemma in_domain_nth vs x : in_domain vs x <->
  length x = length vs /\ forall i v a, nth_error vs i = Some v -> nth_error x i = Some a -> within (vkind v) a.
Proof.
  unfold in_domain. split.
  - intro H. split; [clear -H; induction H; simpl; auto|].
    induction H as [|v a vs x H F IH]; intros [|i] w b E1 E2; simpl in *; try discriminate.
    + congruence.
    + eauto.
  - revert x. induction vs as [|v vs IH]; intros [|a x] [L H]; simpl in L; try discriminate; constructor.
    + apply (H 0); auto.
    + apply IH. split; [lia|]. intros i. apply (H (S i)).
Qed.

Lemma put_domain vs x i v a : in_domain vs x -> nth_error vs i = Some v -> within (vkind v) a -> in_domain vs (put x i a).
Proof.
  rewrite !in_domain_nth. intros [L H] E W. split; [now rewrite put_length|].
  intros j w b E1 E2. destruct (Nat.eq_dec i j) as [<-|N].
  - rewrite put_same in E2 by (rewrite L; eapply nth_error_lt; eauto). congruence.
  - rewrite put_other in E2 by auto. eauto.
Qed.

Lemma puts_domain vs : forall ps l x, in_domain vs x ->
  (forall j i a, nth_error ps j = Some i -> nth_error l j = Some a -> exists v, nth_error vs i = Some v /\ within (vkind v) a) ->
  in_domain vs (puts x ps l).
Proof.
  induction ps as [|p ps IH]; intros [|a l] x D H; simpl; auto.
  apply IH.
  - destruct (H 0 p a) as [v [E W]]; auto. eapply put_domain; eauto.
  - intros j. apply (H (S j)).
Qed.

Lemma nth_error_pick {A} (l : list A) ps j : Forall (fun p => p < length l) ps ->
  nth_error (pick l ps) j = match nth_error ps j with Some p => nth_error l p | None => None end.
Proof.
  intro F. pose proof (pick_selects l ps F) as S. destruct (nth_error ps j) as [p|] eqn:E.
  - eapply selects_nth; eauto.
  - apply nth_error_None. apply nth_error_None in E. now rewrite (selects_length _ _ _ S).
Qed.

Lemma recombine_domain vs P d x : Forall (in_domain vs) P -> recombine P d = Some x -> in_domain vs x.
Proof.
  unfold recombine. intros F H. rewrite Forall_forall in F.
  destruct (nth_error P (d_p1 d)) as [p1|] eqn:E1; try discriminate.
  pose proof (F p1 (nth_error_In _ _ E1)) as D1.
  destruct (d_p1 d =? d_p2 d). { congruence. }
  destruct (nth_error P (d_p2 d)) as [p2|] eqn:E2; try discriminate.
  pose proof (F p2 (nth_error_In _ _ E2)) as D2. injection H as <-.
  pose proof (proj1 (in_domain_nth _ _) D1) as [L1 _].
  pose proof (proj1 (in_domain_nth _ _) D2) as [L2 W2].
  apply puts_domain; auto. intros j i a E G.
  assert (B : Forall (fun p => p < length p2) (filter (d_mask d) (seq 0 (length p1)))).
  { apply Forall_forall. intros q Q. apply filter_In in Q as [Q _]. apply in_seq in Q. lia. }
  rewrite nth_error_pick, E in G by auto.
  assert (I : i < length vs). { rewrite <- L2. eapply nth_error_lt; eauto. }
  apply lt_nth_error in I as [v V]. exists v. split; auto. eapply W2; eauto.
Qed.

Lemma nth_error_sequence_map {A B} (f : A -> option B) l r j b :
  sequence (map f l) = Some r -> nth_error r j = Some b -> exists a, nth_error l j = Some a /\ f a = Some b.
Proof.
  intros S E. apply sequence_spec in S.
  assert (K : nth_error (map f l) j = Some (Some b)) by (rewrite S; now apply map_nth_error).
  rewrite nth_error_map in K. destruct (nth_error l j) as [a|]; simpl in K; try discriminate.
  exists a. split; congruence.
Qed.

Lemma mutate_r_domain vs d x y : Forall proper vs -> in_domain vs x -> mutate_r vs d x = Some y -> in_domain vs y.
Proof.
  unfold mutate_r. intros P D H.
  destruct (sequence _) as [l|] eqn:S; simpl in H; try discriminate. injection H as <-.
  apply puts_domain; auto. intros j i a E G.
  destruct (nth_error_sequence_map _ _ _ _ _ S G) as [[j' i'] [K1 K2]].
  unfold indexed in K1. rewrite nth_error_indexed, E in K1. cbn [option_map] in K1. injection K1 as <- <-.
  unfold new_real in K2. cbn [fst snd] in K2.
  destruct (nth_error vs i) as [v|] eqn:V; try discriminate. exists v. split; auto.
  assert (PV : proper v) by (rewrite Forall_forall in P; apply P; eapply nth_error_In; eauto).
  unfold proper in PV.
  destruct (nth_error x i) as [b|]; try discriminate.
  destruct (vkind v) as [lb ub p| | | | |]; try discriminate.
  destruct (as_num b) as [q|]; try discriminate. injection K2 as <-. simpl.
  eexists. split; [reflexivity|]. apply real_round_in. now apply reflect_in.
Qed.

Lemma mutate_i_domain vs d x y : Forall proper vs -> in_domain vs x -> mutate_i vs d x = Some y -> in_domain vs y.
Proof.
  unfold mutate_i. intros P D H.
  destruct (sequence _) as [l|] eqn:S; simpl in H; try discriminate. injection H as <-.
  apply puts_domain; auto. intros j i a E G.
  destruct (nth_error_sequence_map _ _ _ _ _ S G) as [[j' i'] [K1 K2]].
  unfold indexed in K1. rewrite nth_error_indexed, E in K1. cbn [option_map] in K1. injection K1 as <- <-.
  unfold new_int in K2. cbn [fst snd] in K2.
  destruct (nth_error vs i) as [v|] eqn:V; try discriminate. exists v. split; auto.
  assert (PV : proper v) by (rewrite Forall_forall in P; apply P; eapply nth_error_In; eauto).
  unfold proper in PV.
  destruct (nth_error x i) as [b|]; try discriminate.
  destruct (vkind v) as [|lb ub st| | | |]; try discriminate.
  destruct (as_num b) as [q|]; try discriminate. injection K2 as <-. simpl.
  eexists. split; [reflexivity|]. destruct PV as [PV _].
  assert (L : (inject_Z lb < inject_Z ub)%Q) by (now rewrite <- Zlt_Qlt).
  destruct (reflect_in (inject_Z (to_int q + d_int d j)) _ _ L). now apply to_int_between.
Qed.

Definition categorical (k : kind) : bool := is_discrete k || is_ordinal k || is_boolean k || is_subset k.
Lemma id_d_in vs i : In i (id_d vs) <-> exists v, nth_error vs i = Some v /\ categorical (vkind v) = true.
Proof.
  unfold id_d, categorical. rewrite !in_app_iff, !ids_in. split.
  - intros [[v [H1 H2]]|[[v [H1 H2]]|[[v [H1 H2]]|[v [H1 H2]]]]]; exists v; rewrite H2; split; auto with bool;
      rewrite !orb_true_r; reflexivity.
  - intros [v [H1 H2]]. rewrite !orb_true_iff in H2.
    destruct H2 as [[[H2|H2]|H2]|H2]; [left|right;left|right;right;left|right;right;right]; eauto.
Qed.

Lemma mutate_d_domain vs d x y : in_domain vs x -> mutate_d vs d x = Some y -> in_domain vs y.
Proof.
  unfold mutate_d. intros D H.
  assert (I : forall ji, In ji (indexed (id_d vs)) -> In (snd ji) (id_d vs)).
  { intros [j i] K. apply indexed_in in K. eapply nth_error_In; eauto. }
  revert I x D H. induction (indexed (id_d vs)) as [|[j i] l IH]; simpl; intros I x D H.
  - congruence.
  - assert (I' : forall ji, In ji l -> In (snd ji) (id_d vs)) by auto.
    destruct (d_cat d j); [|eapply IH; eauto].
    destruct (nth_error vs i) as [v|] eqn:V.
    + destruct (nth_error (levels (vkind v)) (d_level d j)) as [a|] eqn:A; simpl in H.
      * eapply IH; [auto| |exact H]. eapply put_domain; eauto.
        apply level_within; [|eapply nth_error_In; eauto].
        specialize (I (j, i) (or_introl eq_refl)). apply id_d_in in I as [w [W C]]. simpl in W.
        replace w with v in C by congruence.
        destruct (vkind v); simpl in C; auto; discriminate.
      * exfalso. clear - H. induction l as [|ji l IH]; simpl in H; congruence || auto.
    + exfalso. clear - H. induction l as [|ji l IH]; simpl in H; congruence || auto.
Qed.

Lemma mutate_domain vs d x y : Forall proper vs -> in_domain vs x -> mutate vs d x = Some y -> in_domain vs y.
Proof.
  unfold mutate. intros P D H.
  destruct (mutate_r vs d x) as [x1|] eqn:E1; simpl in H; try discriminate.
  destruct (mutate_i vs d x1) as [x2|] eqn:E2; simpl in H; try discriminate.
  apply (mutate_d_domain vs d x2 y); auto. apply (mutate_i_domain vs d x1 x2); auto. apply (mutate_r_domain vs d x x1); auto.
Qed.

(** *** Mutation does not fail *)
Lemma sequence_total {A B} (f : A -> option B) l : (forall a, In a l -> exists b, f a = Some b) -> exists r, sequence (map f l) = Some r.
Proof.
  induction l as [|a l IH]; simpl; intro H; [eauto|].
  destruct (H a) as [b ->]; auto. destruct IH as [r ->]; [auto|]. simpl. eauto.
Qed.
Lemma sequence_length {A} (l : list (option A)) r : sequence l = Some r -> length r = length l.
Proof. intro H. apply sequence_spec in H. subst. now rewrite map_length. Qed.

Lemma component_exists vs x i v : in_domain vs x -> nth_error vs i = Some v -> exists a, nth_error x i = Some a /\ within (vkind v) a.
Proof.
  rewrite in_domain_nth. intros [L W] V. destruct (lt_nth_error x i) as [a A].
  { rewrite L. eapply nth_error_lt; eauto. }
  eauto.
Qed.

Lemma mutate_total vs mu d x : Forall proper vs -> draws_ok vs mu d -> in_domain vs x -> exists y, mutate vs d x = Some y.
Proof.
  intros P [_ [_ DL]] D. unfold mutate.
  assert (R : exists x1, mutate_r vs d x = Some x1).
  { unfold mutate_r. destruct (sequence_total (fun ji => new_real vs x (d_real d (fst ji)) (snd ji)) (indexed (id_r vs))) as [r ->]; [|simpl; eauto].
    intros [j i] H. apply indexed_in, nth_error_In, ids_in in H as [v [V K]]. cbn [fst snd]. unfold new_real. rewrite V.
    destruct (component_exists _ _ _ _ D V) as [a [A W]]. rewrite A.
    destruct (vkind v); try discriminate. simpl in W. destruct W as [q [-> _]]. eauto. }
  destruct R as [x1 R]. rewrite R. cbn [obind]. pose proof (mutate_r_domain _ _ _ _ P D R) as D1.
  assert (I : exists x2, mutate_i vs d x1 = Some x2).
  { unfold mutate_i. destruct (sequence_total (fun ji => new_int vs x1 (d_int d (fst ji)) (snd ji)) (indexed (id_i vs))) as [r ->]; [|simpl; eauto].
    intros [j i] H. apply indexed_in, nth_error_In, ids_in in H as [v [V K]]. cbn [fst snd]. unfold new_int. rewrite V.
    destruct (component_exists _ _ _ _ D1 V) as [a [A W]]. rewrite A.
    destruct (vkind v); try discriminate. simpl in W. destruct W as [z [-> _]]. simpl. eauto. }
  destruct I as [x2 I]. rewrite I. cbn [obind]. clear R I D D1. unfold mutate_d.
  assert (K : forall j i, In (j, i) (indexed (id_d vs)) -> nth_error (id_d vs) j = Some i).
  { intros j i H. now apply indexed_in. }
  revert K x2. induction (indexed (id_d vs)) as [|[j i] l IH]; simpl; intros K x2; [eauto|].
  destruct (d_cat d j); [|apply IH; auto].
  specialize (K j i (or_introl eq_refl)) as E.
  pose proof (nth_error_In _ _ E) as N. apply id_d_in in N as [v [V _]]. rewrite V.
  destruct (lt_nth_error (levels (vkind v)) (d_level d j)) as [a A]; [eapply DL; eauto|].
  rewrite A. simpl. apply IH. auto.
Qed.

Lemma recombine_total P mu vs d : length P = mu -> draws_ok vs mu d -> exists x, recombine P d = Some x.
Proof.
  intros L [H1 [H2 _]]. unfold recombine. rewrite <- L in *.
  destruct (lt_nth_error P (d_p1 d) H1) as [p1 ->]. destruct (lt_nth_error P (d_p2 d) H2) as [p2 ->].
  destruct (d_p1 d =? d_p2 d); eauto.
Qed.

Section Run.
  Variable c : mcfg.
  Variable fit : nat -> nat -> point -> Q.
  Variable argsort : list Q -> list nat.
  Hypothesis SORT : sorts argsort.
  Variable rnd : nat -> nat -> draws.
  Variable other_stop : nat -> mst -> bool.
  Notation generation := (generation c fit argsort rnd).
  Notation optimize := (optimize c fit argsort rnd other_stop).
  Notation nw := (no_worse (m_min c)).

  Lemma evaluate_fst n X : map fst (evaluate fit n X) = X.
  Proof. unfold evaluate. rewrite map_map. simpl. apply map_snd_indexed. Qed.
  Lemma evaluate_length n X : length (evaluate fit n X) = length X.
  Proof. unfold evaluate. rewrite map_length. apply indexed_length. Qed.

  Lemma nw_refl f : nw f f.
  Proof. unfold no_worse. destruct (m_min c); lra. Qed.
  Lemma nw_trans f g h : nw f g -> nw g h -> nw f h.
  Proof. unfold no_worse. destruct (m_min c); lra. Qed.
  Lemma better_cases f g : if better c f g then nw f g else nw g f.
  Proof.
    unfold better, no_worse. destruct (m_min c).
    - destruct (Qltb f g) eqn:E; [apply Qltb_iff in E|apply Qltb_false in E]; lra.
    - destruct (Qltb g f) eqn:E; [apply Qltb_iff in E|apply Qltb_false in E]; lra.
  Qed.

  Lemma rank_range l : Forall (fun i => i < length l) (argsort l).
  Proof.
    destruct (SORT l) as [P _]. apply Forall_forall. intros i H.
    eapply Permutation_in in H; [|exact P]. apply in_seq in H. lia.
  Qed.
  Lemma rank_length l : length (argsort l) = length l.
  Proof. destruct (SORT l) as [P _]. apply Permutation_length in P. now rewrite seq_length in P. Qed.

  Definition pool (s : mst) off := if m_elitism c then pop s ++ off else off.
  Definition rank (all : list (point * Q)) := let r := argsort (map snd all) in if m_min c then r else rev r.
  Lemma select_eq s off : select c argsort s off = pick (pool s off) (firstn (m_mu c) (rank (pool s off))).
  Proof. reflexivity. Qed.
  Lemma rank_in all : Forall (fun i => i < length all) (rank all).
  Proof.
    unfold rank. pose proof (rank_range (map snd all)) as H. rewrite map_length in H.
    destruct (m_min c); auto. now apply Forall_rev.
  Qed.
  Lemma rank_len all : length (rank all) = length all.
  Proof. unfold rank. destruct (m_min c); rewrite ?rev_length, rank_length, map_length; auto. Qed.
  Lemma Forall_firstn {A} (P : A -> Prop) n l : Forall P l -> Forall P (firstn n l).
  Proof. intro H. revert n. induction H; intros [|n]; simpl; auto. Qed.

  Lemma select_length s off : length (select c argsort s off) = Nat.min (m_mu c) (length (pool s off)).
  Proof.
    rewrite select_eq. rewrite (selects_length (pool s off) (firstn (m_mu c) (rank (pool s off)))).
    - now rewrite firstn_length, rank_len.
    - apply pick_selects. apply Forall_firstn, rank_in.
  Qed.
  Lemma select_incl s off p : In p (select c argsort s off) -> In p (pool s off).
  Proof.
    rewrite select_eq. intro H.
    pose proof (pick_selects (pool s off) _ (Forall_firstn _ (m_mu c) _ (rank_in (pool s off)))) as S.
    apply (Forall_selects (fun p => In p (pool s off))) in S; [|now apply Forall_forall].
    rewrite Forall_forall in S. auto.
  Qed.

  Lemma select_best s off p t : select c argsort s off = p :: t -> forall q, In q (pool s off) -> nw (snd p) (snd q).
  Proof.
    rewrite select_eq. intros H q Q.
    set (all := pool s off) in *.
    apply In_nth_error in Q as [j J].
    assert (K : exists r0 r, rank all = r0 :: r /\ nth_error all r0 = Some p).
    { pose proof (nth_error_pick all (firstn (m_mu c) (rank all)) 0 (Forall_firstn _ _ _ (rank_in all))) as E.
      rewrite H in E. simpl in E. destruct (rank all) as [|r0 r].
      - rewrite firstn_nil in E. discriminate.
      - destruct (m_mu c); simpl in E; [discriminate|]. exists r0, r. auto. }
    destruct K as [r0 [r [K1 K2]]].
    assert (NV : forall i a, nth_error all i = Some a -> nth i (map snd all) 0%Q = snd a).
    { intros i a E. apply nth_error_nth. now apply map_nth_error. }
    destruct (SORT (map snd all)) as [P O]. rewrite map_length in P.
    assert (JR : In j (argsort (map snd all))).
    { eapply Permutation_in; [apply Permutation_sym, P|]. apply in_seq. split; [lia|]. apply nth_error_lt in J. lia. }
    apply In_nth_error in JR as [b B]. rewrite <- (NV _ _ K2), <- (NV _ _ J).
    unfold rank in K1. unfold no_worse. destruct (m_min c).
    - destruct b as [|b].
      + rewrite K1 in B. injection B as <-. lra.
      + apply (O 0 (S b)); [lia| |auto]. now rewrite K1.
    - assert (L : argsort (map snd all) = rev r ++ [r0]).
      { rewrite <- (rev_involutive (argsort _)), K1. reflexivity. }
      assert (B' : b < length (argsort (map snd all))) by (eapply nth_error_lt; eauto).
      rewrite L, app_length in B'. simpl in B'.
      destruct (Nat.eq_dec b (length (rev r))) as [->|N].
      + rewrite L, nth_error_app2, Nat.sub_diag in B by lia. injection B as <-. lra.
      + apply (O b (length (rev r))); [lia|auto|]. rewrite L, nth_error_app2, Nat.sub_diag by lia. reflexivity.
  Qed.

  (** *** The invariant *)
  Record inv (s : mst) : Prop := {
    i_dom : Forall (fun p => in_domain (m_vs c) (fst p)) (trace s);
    i_pop : forall p, In p (pop s) -> In p (trace s);
    i_opt : In (xopt s, fopt s) (trace s);
    i_best : forall p, In p (trace s) -> nw (fopt s) (snd p);
    i_evals : evals s = length (trace s) }.

  Lemma fold_best : forall t a, let b := fold_left (fun b p => if better c (snd p) (snd b) then p else b) t a in
    In b (a :: t) /\ forall p : point * Q, In p (a :: t) -> nw (snd b) (snd p).
  Proof.
    induction t as [|p t IH]; intros a; cbn [fold_left].
    - split; [now left|]. intros p [<-|[]]. apply nw_refl.
    - set (a' := if better c (snd p) (snd a) then p else a).
      destruct (IH a') as [I1 I2]. split.
      + destruct I1 as [I1|I1]; [|right; now right]. unfold a' in *.
        destruct (better c (snd p) (snd a)); simpl in *; auto.
      + assert (A : nw (snd a') (snd p) /\ nw (snd a') (snd a)).
        { unfold a'. pose proof (better_cases (snd p) (snd a)). destruct (better c (snd p) (snd a)); split; auto using nw_refl. }
        pose proof (I2 a' (or_introl eq_refl)) as B.
        intros q [<-|[<-|Q]].
        * eapply nw_trans; [exact B|tauto].
        * eapply nw_trans; [exact B|tauto].
        * apply I2. now right.
  Qed.

  Lemma Forall_map_fst (l : list (point * Q)) : Forall (in_domain (m_vs c)) (map fst l) -> Forall (fun p => in_domain (m_vs c) (fst p)) l.
  Proof. now rewrite Forall_map. Qed.

  Lemma init_inv X s : Forall (in_domain (m_vs c)) X -> init c fit X = Some s -> inv s /\ pop s = trace s /\ evals s = length X.
  Proof.
    unfold init. intros D H.
    destruct (evaluate fit 0 X) as [|a t] eqn:E; simpl in H; try discriminate.
    destruct (fold_left _ t a) as [x f] eqn:F. injection H as <-.
    pose proof (fold_best t a) as B. simpl in B. rewrite F in B. destruct B as [B1 B2].
    split; [|auto]. split; cbn [trace pop xopt fopt evals]; auto.
    - apply Forall_map_fst. rewrite <- E, evaluate_fst. exact D.
    - rewrite <- E. now rewrite evaluate_length.
  Qed.

  Hypothesis PROPER : Forall proper (m_vs c).

  Lemma pop_domain s : inv s -> Forall (in_domain (m_vs c)) (map fst (pop s)).
  Proof.
    intros I. apply Forall_map. apply Forall_forall. intros p H. apply (i_pop s I) in H.
    pose proof (i_dom s I) as D. rewrite Forall_forall in D. auto.
  Qed.

  Lemma offspring_domain g s X : inv s -> offspring c rnd g s = Some X -> Forall (in_domain (m_vs c)) X /\ length X = m_lambda c.
  Proof.
    unfold offspring. intros I H. split.
    - apply Forall_forall. intros y Y. apply In_nth_error in Y as [j J].
      destruct (nth_error_sequence_map _ _ _ _ _ H J) as [i [_ E]].
      destruct (recombine _ _) as [x|] eqn:R; simpl in E; try discriminate.
      apply (mutate_domain (m_vs c) (rnd g i) x y PROPER); auto. exact (recombine_domain _ _ _ _ (pop_domain s I) R).
    - apply sequence_length in H. now rewrite map_length, seq_length in H.
  Qed.

  Lemma generation_inv g s s' : inv s -> generation g s = Some s' ->
    inv s' /\ nw (fopt s') (fopt s) /\ evals s' = evals s + m_lambda c /\ pop s' <> [] /\
    (exists new, trace s' = trace s ++ new) /\ iters s' = S (iters s) /\
    length (pop s') = Nat.min (m_mu c) (if m_elitism c then length (pop s) + m_lambda c else m_lambda c).
  Proof.
    unfold Model_MIES.generation. intros I H.
    destruct (offspring c rnd g s) as [X|] eqn:O; try discriminate.
    destruct (offspring_domain _ _ _ I O) as [D L].
    destruct (select c argsort s _) as [|[x f] p] eqn:S; try discriminate.
    injection H as <-. cbn [trace pop xopt fopt evals iters].
    set (off := evaluate fit (evals s) X) in *.
    assert (PI : forall q, In q (pool s off) -> In q (trace s ++ off)).
    { unfold pool. intros q Q. apply in_or_app. destruct (m_elitism c); auto. apply in_app_or in Q as [Q|Q]; auto.
      left. now apply (i_pop s I). }
    assert (SI : In (x, f) (pool s off)) by (apply select_incl; rewrite S; now left).
    pose proof (better_cases f (fopt s)) as BC.
    assert (N : nw (if better c f (fopt s) then f else fopt s) (fopt s)).
    { destruct (better c f (fopt s)); auto using nw_refl. }
    assert (Nf : nw (if better c f (fopt s) then f else fopt s) f).
    { destruct (better c f (fopt s)); auto using nw_refl. }
    repeat match goal with |- _ /\ _ => split end; auto.
    - split; cbn [trace pop xopt fopt evals].
      + apply Forall_app. split; [apply (i_dom s I)|]. apply Forall_map_fst. unfold off. rewrite evaluate_fst. exact D.
      + intros q Q. apply PI. apply select_incl. rewrite S. exact Q.
      + destruct (better c f (fopt s)); [now apply PI|]. apply in_or_app. left. apply (i_opt s I).
      + intros q Q. apply in_app_or in Q as [Q|Q].
        * eapply nw_trans; [exact N|]. now apply (i_best s I).
        * eapply nw_trans; [exact Nf|]. apply (select_best _ _ _ _ S). unfold pool.
          destruct (m_elitism c); auto. apply in_or_app; auto.
      + rewrite app_length. unfold off. rewrite evaluate_length, (i_evals s I). lia.
    - discriminate.
    - eauto.
    - rewrite <- S, select_length. unfold pool, off. destruct (m_elitism c); rewrite ?app_length, evaluate_length, L; auto.
  Qed.


  Lemma optimize_inv : forall fuel g s, inv s -> inv (final (optimize fuel g s)) /\
    nw (fopt (final (optimize fuel g s))) (fopt s).
  Proof.
    induction fuel as [|fuel IH]; intros g s I; simpl; destruct (stop c other_stop g s); simpl; auto using nw_refl.
    destruct (generation g s) as [s'|] eqn:G; simpl; auto using nw_refl.
    destruct (generation_inv _ _ _ I G) as [I' [N _]]. destruct (IH (S g) s' I'). split; auto.
    eapply nw_trans; eauto.
  Qed.

  Lemma optimize_mono : forall fuel g s, inv s ->
    nw (fopt (final (optimize (S fuel) g s))) (fopt (final (optimize fuel g s))).
  Proof.
    induction fuel as [|fuel IH]; intros g s I.
    - replace (final (optimize 0 g s)) with s by (simpl; destruct (stop c other_stop g s); reflexivity).
      apply optimize_inv. exact I.
    - change (nw (fopt (final (if stop c other_stop g s then Done s else match generation g s with
          | None => Raised s | Some s' => optimize (S fuel) (S g) s' end)))
        (fopt (final (if stop c other_stop g s then Done s else match generation g s with
          | None => Raised s | Some s' => optimize fuel (S g) s' end)))).
      destruct (stop c other_stop g s); [apply nw_refl|].
      destruct (generation g s) as [s'|] eqn:G; [|apply nw_refl].
      apply IH. eapply generation_inv; eauto.
  Qed.

  Lemma optimize_budget m : m_max c = Some m -> forall fuel g s, inv s ->
    evals (final (optimize fuel g s)) <= Nat.max (evals s) (m + m_lambda c).
  Proof.
    intros M. induction fuel as [|fuel IH]; intros g s I; simpl; destruct (stop c other_stop g s) eqn:ST; simpl; try lia.
    destruct (generation g s) as [s'|] eqn:G; simpl; try lia.
    destruct (generation_inv _ _ _ I G) as [I' [_ [E _]]]. specialize (IH (S g) s' I').
    unfold stop in ST. rewrite M in ST. apply orb_false_iff in ST as [ST _]. apply Nat.ltb_ge in ST. lia.
  Qed.

  Lemma generation_total g s : inv s -> length (pop s) = m_mu c -> 1 <= m_mu c ->
    (m_elitism c = true \/ m_mu c <= m_lambda c) ->
    (forall i, i < m_lambda c -> draws_ok (m_vs c) (m_mu c) (rnd g i)) ->
    exists s', generation g s = Some s' /\ length (pop s') = m_mu c.
  Proof.
    intros I L M E R.
    assert (O : exists X, offspring c rnd g s = Some X).
    { unfold offspring. apply sequence_total. intros i H. apply in_seq in H.
      destruct (recombine_total (map fst (pop s)) (m_mu c) (m_vs c) (rnd g i)) as [x X].
      - now rewrite map_length.
      - apply R. lia.
      - rewrite X. simpl. apply (mutate_total _ (m_mu c) (rnd g i) x PROPER); [apply R; lia|].
        exact (recombine_domain _ _ _ _ (pop_domain s I) X). }
    destruct O as [X O]. pose proof (proj2 (offspring_domain _ _ _ I O)) as LX.
    destruct (generation g s) as [s'|] eqn:G.
    - exists s'. split; auto. destruct (generation_inv _ _ _ I G) as (_ & _ & _ & _ & _ & _ & K). rewrite K, L.
      destruct (m_elitism c); destruct E; try discriminate; lia.
    - exfalso. unfold Model_MIES.generation in G. rewrite O in G.
      destruct (select c argsort s (evaluate fit (evals s) X)) as [|[x f] p] eqn:S; try discriminate.
      pose proof (select_length s (evaluate fit (evals s) X)) as K. rewrite S in K. unfold pool in K.
      destruct (m_elitism c); rewrite ?app_length, evaluate_length, LX in K; simpl in K; destruct E; try discriminate; lia.
  Qed.

  Lemma optimize_total m : m_max c = Some m -> 1 <= m_mu c -> 1 <= m_lambda c ->
    (m_elitism c = true \/ m_mu c <= m_lambda c) ->
    (forall g i, i < m_lambda c -> draws_ok (m_vs c) (m_mu c) (rnd g i)) ->
    forall fuel g s, inv s -> length (pop s) = m_mu c -> m < evals s + fuel -> exists s', optimize fuel g s = Done s'.
  Proof.
    intros MM M LL E R. induction fuel as [|fuel IH]; intros g s I L F; simpl.
    - unfold stop. rewrite MM. replace (m <? evals s) with true by (symmetry; apply Nat.ltb_lt; lia). simpl. eauto.
    - destruct (stop c other_stop g s) eqn:ST; eauto.
      destruct (generation_total g s I L M E (R g)) as [s' [G L']]. rewrite G.
      destruct (generation_inv _ _ _ I G) as [I' [_ [EV _]]]. apply IH; auto. lia.
  Qed.
End Run.
