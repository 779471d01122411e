(** Proofs about Model_Run, part 1: the samples of a run. *)
From Coq Require Import List Bool Arith ZArith QArith Qabs String Lia.
From Verif Require Import Model_Opt Model_Var Model_Ask Spec_Ask Proofs_Ask Model_Sampler Spec_Sampler Proofs_Sampler Spec_Pareto Spec_MIES Model_MiesPar Spec_MiesPar.
From Verif Require Import Properties_Box Model_Propose Spec_Propose Model_Run Spec_Run.
Import ListNotations.
Open Scope nat_scope.

(** Values as they are sampled. *)
Definition fine (k : kind) (v : val) : Prop := admissible k v /\ match k with KReal _ _ _ => exists q, v = VR q | _ => True end.
Definition kind_ok (k : kind) : Prop :=
  one_type k /\ match k with KReal lb ub _ => (lb <= ub)%Q | KInt lb ub st => (lb <= ub)%Z /\ st = 1%Z | _ => True end.

Lemma array_same str l : (forall v, In v l -> exists s, v = VS s) \/ (forall v, In v l -> exists z, v = VI z) \/ (forall v, In v l -> exists q, v = VR q) -> np_array str l = Some l.
Proof.
  intro H. unfold np_array.
  assert (T : existsb is_tuple l = false).
  { apply not_true_iff_false. rewrite existsb_exists. intros (v & I & E). destruct H as [H|[H|H]]; destruct (H v I) as (s & ->); discriminate. }
  rewrite T. destruct H as [H|[H|H]].
  - destruct (existsb is_str l) eqn:E.
    + f_equal. rewrite <- (map_id l) at 2. apply map_ext_in. intros v I. destruct (H v I) as (s & ->). reflexivity.
    + destruct l as [|v l]; [reflexivity|]. destruct (H v (or_introl eq_refl)) as (s & ->). discriminate.
  - replace (existsb is_str l) with false by (symmetry; apply not_true_iff_false; rewrite existsb_exists; intros (v & I & E); destruct (H v I) as (s & ->); discriminate).
    replace (existsb is_float l) with false by (symmetry; apply not_true_iff_false; rewrite existsb_exists; intros (v & I & E); destruct (H v I) as (s & ->); discriminate).
    destruct (existsb is_int l); [|reflexivity]. f_equal. rewrite <- (map_id l) at 2. apply map_ext_in. intros v I. destruct (H v I) as (s & ->). reflexivity.
  - replace (existsb is_str l) with false by (symmetry; apply not_true_iff_false; rewrite existsb_exists; intros (v & I & E); destruct (H v I) as (s & ->); discriminate).
    destruct (existsb is_float l) eqn:E.
    + f_equal. rewrite <- (map_id l) at 2. apply map_ext_in. intros v I. destruct (H v I) as (s & ->). reflexivity.
    + destruct l as [|v l]; [reflexivity|]. destruct (H v (or_introl eq_refl)) as (s & ->). discriminate.
Qed.

Lemma propose_val_fine str k d v : kind_ok k -> (forall lv, Model_Sampler.d_level d = Some lv -> lv < List.length (levels k)) -> fine k v ->
  exists v', propose_val str k d v = Some v' /\ fine k v'.
Proof.
  intros (OT & O) D (A & F). destruct k as [lb ub pr|lb ub st|l|l|e|]; cbn [propose_val].
  - destruct F as (q & ->). cbn [as_num]. eexists. split; [reflexivity|]. split; [|eauto]. cbn. eexists. split; [reflexivity|]. apply qclip_bounds, O.
  - destruct A as (i & Hi & -> & _). cbn [as_num]. eexists. split; [reflexivity|]. split; [|exact I]. destruct O as (O & ->). cbn.
    match goal with |- context [Z.max ?y lb] => set (z := y) end. exists (Z.min (Z.max z lb) ub - lb)%Z. split; [lia|]. split; [f_equal; lia|lia].
  - cbn [levels] in *. rewrite (array_same str (dedup l)) by (cbn in OT; destruct OT as [H|[H|H]]; [left|right; left|right; right]; intros w Iw; apply H, dedup_in, Iw).
    destruct (Model_Sampler.d_level d) as [i|]; [|exists v; split; [reflexivity|split; [exact A|exact I]]]. destruct (nth_error (dedup l) i) as [w|] eqn:E.
    + exists w. split; [reflexivity|]. split; [|exact I]. cbn. apply dedup_in, (nth_error_In _ _ E).
    + apply nth_error_None in E. specialize (D i eq_refl). lia.
  - cbn [levels] in *. rewrite (array_same str (dedup l)) by (cbn in OT; destruct OT as [H|[H|H]]; [left|right; left|right; right]; intros w Iw; apply H, dedup_in, Iw).
    destruct (Model_Sampler.d_level d) as [i|]; [|exists v; split; [reflexivity|split; [exact A|exact I]]]. destruct (nth_error (dedup l) i) as [w|] eqn:E.
    + exists w. split; [reflexivity|]. split; [|exact I]. cbn. apply dedup_in, (nth_error_In _ _ E).
    + apply nth_error_None in E. specialize (D i eq_refl). lia.
  - destruct OT.
  - cbn [levels] in *. cbn [np_array existsb is_tuple is_str is_float is_int orb].
    destruct (Model_Sampler.d_level d) as [i|]; [|exists v; split; [reflexivity|split; [exact A|exact I]]]. specialize (D i eq_refl).
    destruct i as [|[|i]]; [exists (VB false)|exists (VB true)|cbn in D; lia]; (split; [reflexivity|split; [cbn; auto|exact I]]).
Qed.

Section S.
  Variable str : val -> string.
  Variable draw : nat -> nat -> nat -> nat -> Model_Sampler.noise.
  Variable accepted : nat -> nat -> nat -> nat -> bool.
  Variable ks : list kind.
  Hypothesis K : Forall kind_ok ks.
  Hypothesis D : forall t s r i k lv, nth_error ks i = Some k -> Model_Sampler.d_level (draw t s r i) = Some lv -> lv < List.length (levels k).
  Notation ok := (Forall2 fine ks).
  Notation good := (Forall ok).

  Lemma row_fine t s r : forall l i x, (forall j, nth_error l j = nth_error ks (i + j)) -> Forall kind_ok l -> Forall2 fine l x ->
    exists x', propose_row str draw t s r i l x = Some x' /\ Forall2 fine l x'.
  Proof.
    induction l as [|k l IH]; intros i x E KO F; inversion F; subst; cbn [propose_row]; [exists []; split; [reflexivity|constructor]|].
    inversion KO; subst. destruct (propose_val_fine str k (draw t s r i) y ltac:(auto)) as (v & -> & Fv); [|auto|].
    { intros lv L. apply (D t s r i k lv); auto. rewrite <- (E 0) || idtac. specialize (E 0). cbn in E. rewrite Nat.add_0_r in E. now rewrite <- E. }
    destruct (IH (S i) l') as (x' & -> & Fx); auto. { intro j. specialize (E (S j)). cbn in E. rewrite E. f_equal. lia. }
    eexists. split; [reflexivity|]. constructor; auto.
  Qed.
  Lemma sequence_map {A B} (f : A -> option B) (Q : B -> Prop) l : (forall a, In a l -> exists b, f a = Some b /\ Q b) ->
    exists m, Model_Ask.sequence (map f l) = Some m /\ Forall Q m /\ List.length m = List.length l.
  Proof.
    induction l as [|a l IH]; intro H; cbn; [exists []; repeat split; constructor|]. destruct (H a (or_introl eq_refl)) as (b & -> & Qb).
    destruct IH as (m & -> & Fm & L); [intros a' I; apply H; right; exact I|]. exists (b :: m). split; [reflexivity|]. split; [constructor; auto|]. cbn. now rewrite L.
  Qed.
  Lemma propose_fine t s X : good X -> exists X', propose str ks draw t s X = Some X' /\ good X' /\ List.length X' = List.length X.
  Proof.
    intro G. unfold propose. destruct (sequence_map (fun p => propose_row str draw t s (fst p) 0 ks (snd p)) ok (rows X)) as (m & E & F & L).
    - intros p I. apply row_fine; [reflexivity|exact K|]. rewrite Forall_forall in G. apply G, rows_in, I.
    - exists m. rewrite E, L, rows_length. auto.
  Qed.
  Lemma set_nth_fine : forall l i a x, Forall2 fine l x -> (forall k, nth_error l i = Some k -> fine k a) -> Forall2 fine l (Model_Ask.set_nth i a x).
  Proof.
    induction l as [|k l IH]; intros i a x I H; inversion I; subst; [destruct i; constructor|].
    destruct i as [|i]; simpl; constructor; auto. 
  Qed.
  Lemma nth_fine : forall l i x a k, Forall2 fine l x -> nth_error x i = Some a -> nth_error l i = Some k -> fine k a.
  Proof.
    induction l as [|k l IH]; intros i x a k' I A B; inversion I; subst; [destruct i; discriminate|].
    destruct i as [|i]; simpl in *; [injection A as <-; injection B as <-; auto|]. eapply IH; eauto.
  Qed.
  Lemma column_fine t s X_ X i : good X_ -> good X -> List.length X_ = List.length X ->
    good (mh_column accepted t s X_ X i) /\ List.length (mh_column accepted t s X_ X i) = List.length X.
  Proof.
    intros G_ G L. unfold mh_column. rewrite map_length, rows_length, combine_length. split; [|lia].
    rewrite Forall_forall in *. intros x I. apply in_map_iff in I. destruct I as ([r [y y_]] & <- & I). cbn [fst snd].
    apply rows_in in I. cbn [snd] in I. pose proof (in_combine_l _ _ _ _ I). pose proof (in_combine_r _ _ _ _ I).
    destruct (accepted _ _ _ _); auto. unfold take. destruct (nth_error y_ i) as [a|] eqn:A; auto. apply set_nth_fine; auto.
    intros k Ek. apply (nth_fine ks i y_); auto.
  Qed.
  Lemma step_fine t s X : good X -> exists X', mh_step str ks draw accepted t s X = Some X' /\ good X'.
  Proof.
    intro G. unfold mh_step. destruct (propose_fine t s X G) as (X_ & -> & G_ & L_). eexists. split; [reflexivity|].
    enough (Q : forall l Y, good Y -> List.length X_ = List.length Y -> good (fold_left (mh_column accepted t s X_) l Y)) by (apply Q; auto).
    induction l as [|i l IH]; intros Y GY LY; simpl; auto.
    destruct (column_fine t s X_ Y i G_ GY LY) as [C1 C2]. apply IH; [exact C1|congruence].
  Qed.
  Lemma steps_fine t : forall n s X, good X -> exists X', mh_steps str ks draw accepted t n s X = Some X' /\ good X'.
  Proof.
    induction n as [|n IH]; intros s X G; simpl; [eauto|]. destruct (step_fine t s X G) as (Y & -> & GY). apply IH, GY.
  Qed.
  Lemma schedule_fine n : forall m t X, good X -> exists X', schedule str ks draw accepted m t n X = Some X' /\ good X'.
  Proof.
    induction m as [|m IH]; intros t X G; cbn [schedule]; [eauto|]. destruct (steps_fine t n 0 X G) as (Y & -> & GY). apply IH, GY.
  Qed.
End S.

Lemma sampled_fine vs x : sampled vs x <-> Forall2 fine (map vkind vs) x.
Proof.
  unfold sampled, in_space. split.
  - intros (A & B). induction A as [|v a vs x A F IH]; cbn [map]; constructor.
    + split; [exact A|]. destruct (vkind v) eqn:E; auto. destruct (B 0 v lb ub prec eq_refl E) as (q & Eq). injection Eq as ->. eauto.
    + apply IH. intros i w lb ub p N E. exact (B (S i) w lb ub p N E).
  - revert x. induction vs as [|v vs IH]; intros x F; inversion F as [|? a ? x' (A & B) F']; subst.
    + split; [constructor|]. intros [|i]; discriminate.
    + destruct (IH _ F') as (C & E). split; [constructor; auto|]. intros [|i] w lb ub p N Ek; cbn in *; [|eapply E; eauto].
      injection N as <-. rewrite Ek in B. destruct B as (q & ->). eauto.
Qed.

Section R.
  Variable P : problem.
  Variable W : world.
  Hypothesis GS : good_space P.
  Hypothesis GW : good_world P W.

  Lemma run_sample_spec k pass n : exists X, run_sample P W k pass n = Some X /\ List.length X <= n /\
    forall x, In x X -> sampled (p_space P) x /\ satisfies (p_h P) (p_g P) x.
  Proof.
    destruct GS as (NE & (PS & ST) & OT). destruct GW as (_ & INI & DR & CH & _).
    set (h := option_map total (p_h P)). set (g := option_map total (p_g P)).
    assert (TO : forall x, exists b, ok h g (1 # 100) x = Some b) by (intro x; unfold ok, ok_h, ok_g, h, g, total; destruct (p_h P), (p_g P); cbn; eauto).
    assert (S1 : exists S1, (if given h || given g then scmc (w_str W) (map vkind (p_space P)) (w_draw W k pass) (w_accepted W k pass) (w_init W k pass (Nat.max n 10)) else Some (w_init W k pass n)) = Some S1 /\
                   Forall (sampled (p_space P)) S1).
    { destruct (given h || given g) eqn:E; [|exists (w_init W k pass n); split; [reflexivity|]; apply Forall_forall; intros x I; eapply INI, I].
      assert (C : p_h P <> None \/ p_g P <> None) by (unfold h, g in E; destruct (p_h P), (p_g P); cbn in E; (left; discriminate) || (right; discriminate) || discriminate).
      destruct (schedule_fine (w_str W) (w_draw W k pass) (w_accepted W k pass) (map vkind (p_space P))) with (n := 17) (m := 20) (t := 0) (X := w_init W k pass (Nat.max n 10)) as (X & EX & GX).
      - apply Forall_forall. intros q I. apply in_map_iff in I. destruct I as (v & <- & I). split; [apply OT; auto|]. rewrite Forall_forall in PS. specialize (PS v I). unfold Spec_MIES.proper in PS. revert PS.
        specialize (ST v). destruct (vkind v) eqn:Ek; auto; intro PS; [now apply Qlt_le_weak|]. destruct PS. split; [lia|]. eapply ST; eauto.
      - intros t s r i q lv N L. rewrite nth_error_map in N. destruct (nth_error (p_space P) i) as [v|] eqn:Ev; [|discriminate]. injection N as <-. eapply DR; eauto.
      - apply Forall_forall. intros x I. apply sampled_fine. eapply INI, I.
      - exists X. split; [exact EX|]. eapply Forall_impl; [|exact GX]. intros x. apply sampled_fine. }
    destruct S1 as (S1 & E1 & F1).
    assert (EX : exists X, run_sample P W k pass n = Some X).
    { unfold run_sample, sample. destruct (map vkind (p_space P)) eqn:EM; [destruct (p_space P); [contradiction|discriminate]|]. fold h g. rewrite E1.
      destruct (sequence_map (ok h g (1 # 100)) (fun _ => True) S1) as (m & -> & _); eauto. intros a _. destruct (TO a) as (b & ->). eauto. }
    destruct EX as (X & EX). exists X. split; [exact EX|]. unfold run_sample in EX. apply sample_rows in EX. fold h g in EX. rewrite E1 in EX. destruct EX as (S2 & E2 & IN & LE). injection E2 as <-.
    split; [destruct LE as [|(m & L)]; [auto|]; now rewrite CH in L|]. intros x I. destruct (IN x I) as (I1 & (SH & SG)). rewrite Forall_forall in F1. split; [auto|]. split.
    - intros f v Ef Iv. destruct (SH (total f)) as (vs & Evs & B); [unfold h; now rewrite Ef|]. unfold total in Evs. injection Evs as <-. eapply Qle_trans; [apply B, Iv|]. discriminate.
    - intros f v Ef Iv. destruct (SG (total f)) as (vs & Evs & B); [unfold g; now rewrite Ef|]. unfold total in Evs. injection Evs as <-. auto.
  Qed.
  Lemma run_samp_spec k pass n : List.length (run_samp P W k pass n) <= n /\
    forall x, In x (run_samp P W k pass n) -> sampled (p_space P) x /\ satisfies (p_h P) (p_g P) x.
  Proof. destruct (run_sample_spec k pass n) as (X & E & R). unfold run_samp. now rewrite E. Qed.

  Lemma unrounded_id x : unrounded (p_space P) -> sampled (p_space P) x -> round_point (p_space P) x = x.
  Proof.
    intros U S. apply sampled_fine in S. unfold unrounded in U. revert U S. generalize (p_space P). clear. intro vs. revert x. induction vs as [|v vs IH]; intros x U S; inversion S as [|? a ? x' (A & B) F]; subst; [reflexivity|].
    unfold round_point in *. cbn. f_equal; [|apply IH; auto; intros w lb ub p I; apply (U w lb ub p); right; exact I].
    destruct (vkind v) as [lb ub p|lb ub st|l|l|e|] eqn:E; cbn; auto. destruct B as (q & ->). cbn. rewrite (U v lb ub p (or_introl eq_refl) E). reflexivity.
  Qed.
End R.
