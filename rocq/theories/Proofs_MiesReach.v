(** Lemmas about the points that one mutation of the evolution strategy can produce. *)
From Coq Require Import Bool Arith ZArith QArith Qround List Lia Lqa.
From Verif Require Import Model_Var Model_Grid Model_Pareto Model_Box Model_Ask Model_Sol.
From Verif Require Import Lib_List Spec_Ask Spec_Pareto Spec_Sol Proofs_Var Proofs_Box Proofs_Pareto Proofs_Sol.
From Verif Require Import Model_MIES Spec_MIES Proofs_MIES Model_MiesPar Proofs_MiesPar.
Import ListNotations.
Open Scope nat_scope.
Local Arguments pick : simpl never.
Local Arguments read : simpl never.

Lemma to_int_exact q z : (q == inject_Z z)%Q -> to_int q = z.
Proof.
  intros E. unfold to_int. destruct (Qle_bool 0 q); [rewrite (Qfloor_comp _ _ E); apply Qfloor_Z|rewrite (Qceiling_comp _ _ E); apply Qceiling_Z].
Qed.

Lemma mutate_i_inv vs m x x1 : mutate_i vs m x = Some x1 ->
  (forall i, ~ In i (id_i vs) -> nth_error x1 i = nth_error x i) /\
  (forall j i, nth_error (id_i vs) j = Some i -> exists v lb ub p u q, nth_error vs i = Some v /\ vkind v = KInt lb ub p /\
     nth_error x i = Some u /\ as_num u = Some q /\
     nth_error x1 i = Some (VI (to_int (reflect (inject_Z (to_int q + d_int m j)) (inject_Z lb) (inject_Z ub))))).
Proof.
  unfold mutate_i. intros H. destruct (sequence _) as [l|] eqn:S; cbn in H; [|discriminate]. assert (E : puts x (id_i vs) l = x1) by congruence. subst x1. clear H.
  split; [intros i N; now apply puts_other|]. intros j i Hj.
  assert (SL : List.length l = List.length (id_i vs)) by (apply sequence_length in S; now rewrite map_length, indexed_length in S).
  assert (V : forall j i, nth_error (id_i vs) j = Some i -> exists b v lb ub p u q, nth_error l j = Some b /\ nth_error vs i = Some v /\ vkind v = KInt lb ub p /\
     nth_error x i = Some u /\ as_num u = Some q /\ b = VI (to_int (reflect (inject_Z (to_int q + d_int m j)) (inject_Z lb) (inject_Z ub)))).
  { clear j i Hj. intros j i Hj. destruct (nth_error l j) as [b|] eqn:Hb; [|apply nth_error_None in Hb; apply nth_error_lt in Hj; lia].
    destruct (nth_error_sequence_map _ _ _ _ _ S Hb) as ([j' i'] & K1 & K2). unfold indexed in K1. rewrite nth_error_indexed, Hj in K1. cbn [option_map] in K1.
    assert (j' = j /\ i' = i) as (-> & ->) by (split; congruence). cbn [fst snd] in K2. unfold new_int in K2.
    destruct (nth_error vs i) as [v|] eqn:E1; [|discriminate]. destruct (nth_error x i) as [u|] eqn:E2; [|discriminate].
    destruct (vkind v) as [|lb ub p| | | |] eqn:E3; try discriminate. destruct (as_num u) as [q|] eqn:E4; [|discriminate].
    exists b, v, lb, ub, p, u, q. repeat split; auto. congruence. }
  destruct (V j i Hj) as (b & v & lb & ub & p & u & q & Hb & E1 & E3 & E2 & E4 & ->). exists v, lb, ub, p, u, q. do 4 (split; [assumption|]).
  apply (puts_nth x (id_i vs) l j); auto; [apply ids_nodup|]. apply Forall_forall. intros i' Hi. apply In_nth_error in Hi as (j' & Hi). destruct (V j' i' Hi) as (? & ? & ? & ? & ? & u' & ? & _ & _ & _ & E & _).
  eapply nth_error_lt; eauto.
Qed.

Lemma id_d_nodup vs : NoDup (id_d vs).
Proof.
  assert (D : forall p q, (forall k, p k = true -> q k = true -> False) -> forall i, In i (ids p vs) -> In i (ids q vs) -> False).
  { intros p q H i H1 H2. apply ids_in in H1 as (v & V & P). apply ids_in in H2 as (w & W & Q'). assert (v = w) by congruence. subst w. eauto. }
  unfold id_d. repeat apply NoDup_app_intro; try apply ids_nodup;
    intros i H1 H2; repeat (apply in_app_or in H2 as [H2|H2]); (eapply D; [|exact H1|exact H2]); intros [] ? ?; cbn in *; discriminate.
Qed.

Lemma mutate_d_inv vs m x z : (forall j, d_cat m j = true) -> mutate_d vs m x = Some z ->
  length z = length x /\ (forall i, ~ In i (id_d vs) -> nth_error z i = nth_error x i) /\
  (forall j i, nth_error (id_d vs) j = Some i -> i < length x -> exists v b, nth_error vs i = Some v /\
     nth_error (levels (vkind v)) (d_level m j) = Some b /\ nth_error z i = Some b).
Proof.
  intros C. unfold mutate_d. pose proof (id_d_nodup vs) as N. rewrite <- (map_snd_indexed (id_d vs)) in N at 1.
  assert (G : forall L x, NoDup (map snd L) ->
    fold_left (fun ox ji => match ox with None => None | Some x => if d_cat m (fst ji) then match nth_error vs (snd ji) with None => None
        | Some v => option_map (put x (snd ji)) (nth_error (levels (vkind v)) (d_level m (fst ji))) end else Some x end) L (Some x) = Some z ->
    length z = length x /\ (forall i, ~ In i (map snd L) -> nth_error z i = nth_error x i) /\
    forall j i, In (j, i) L -> i < length x -> exists v b, nth_error vs i = Some v /\ nth_error (levels (vkind v)) (d_level m j) = Some b /\ nth_error z i = Some b).
  { clear x N. induction L as [|[j i] L IH]; intros x N H; cbn [fold_left map fst snd] in *.
    - assert (x = z) by congruence. subst. split; [auto|]. split; [auto|intros ? ? []].
    - rewrite C in H. inversion N as [|? ? N1 N2]; subst.
      assert (NoneF : forall L', fold_left (fun ox ji => match ox with None => None | Some x => if d_cat m (fst ji) then match nth_error vs (snd ji) with None => None
        | Some v => option_map (put x (snd ji)) (nth_error (levels (vkind v)) (d_level m (fst ji))) end else Some x end) L' (None : option point) = None) by (intros L'; induction L'; auto).
      destruct (nth_error vs i) as [v|] eqn:V; [|rewrite NoneF in H; discriminate].
      destruct (nth_error (levels (vkind v)) (d_level m j)) as [b|] eqn:B; cbn [option_map] in H; [|rewrite NoneF in H; discriminate].
      destruct (IH _ N2 H) as (L1 & L2 & L3). rewrite put_length in L1. split; [exact L1|]. split.
      + intros k K. rewrite L2 by (intros K'; apply K; now right). apply put_other. intros ->. apply K. now left.
      + intros j' i' [E|Hin] Hi.
        * assert (j' = j /\ i' = i) as (-> & ->) by (split; congruence). exists v, b. split; [exact V|]. split; [exact B|].
          rewrite L2 by exact N1. now apply put_same.
        * apply L3; [exact Hin|]. now rewrite put_length. }
  intros H. destruct (G _ _ N H) as (L1 & L2 & L3). rewrite map_snd_indexed in L2. split; [exact L1|]. split; [exact L2|].
  intros j i Hj. apply L3. now apply indexed_in.
Qed.

(** The position of the level that equals a value. *)
Fixpoint pos (a : val) (l : list val) : nat := match l with [] => 0 | b :: t => if val_eqb a b then 0 else S (pos a t) end.
Lemma pos_spec a l : (exists b, In b l /\ val_eqb a b = true) -> exists b, nth_error l (pos a l) = Some b /\ val_eqb a b = true.
Proof.
  induction l as [|c l IH]; intros (b & Hb & E); [destruct Hb|]. cbn. destruct (val_eqb a c) eqn:K; [exists c; split; [reflexivity|exact K]|]. cbn. apply IH.
  destruct Hb as [->|Hb]; [congruence|eauto].
Qed.
Lemma dedup_covers l v : In v l -> exists w, In w (dedup l) /\ val_eqb v w = true.
Proof. intros H. destruct (dedup_aux_distinct l []) as (_ & _ & D). destruct (D v H) as [(s & [] & _)|]; auto. Qed.
Lemma level_covers k a : categorical k = true -> within k a -> exists b, In b (levels k) /\ val_eqb a b = true.
Proof.
  destruct k; cbn; intros K W; try discriminate.
  - now apply dedup_covers.
  - now apply dedup_covers.
  - destruct W as (r & t & R & -> & T). apply dedup_covers, in_map, in_flat_map. exists r. split; [apply in_seq; lia|exact T].
  - destruct W as [-> | ->]; [exists (VB false)|exists (VB true)]; split; auto.
Qed.

Definition num (x : point) (i : nat) : Q := match nth_error x i with Some a => match as_num a with Some q => q | None => 0%Q end | None => 0%Q end.
(** The random numbers that lead from x to y. *)
Definition towards (vs : list var) (x y : point) : draws :=
  mkDraws 0 0 (fun _ => false)
    (fun j => match nth_error (id_r vs) j with Some i => (num y i - num x i)%Q | None => 0%Q end)
    (fun j => match nth_error (id_i vs) j with Some i => (to_int (num y i) - to_int (num x i))%Z | None => 0%Z end)
    (fun _ => true)
    (fun j => match nth_error (id_d vs) j with
              | Some i => match nth_error vs i, nth_error y i with Some v, Some a => pos a (levels (vkind v)) | _, _ => 0 end
              | None => 0 end).

Lemma towards_ok vs mu x y : 0 < mu -> in_domain vs y -> draws_ok vs mu (towards vs x y).
Proof.
  intros M D. split; [exact M|]. split; [exact M|]. intros j i v J V. cbn [towards d_level]. rewrite J, V.
  destruct (component_exists _ _ _ _ D V) as (a & A & W). rewrite A.
  assert (K : categorical (vkind v) = true) by (apply nth_error_In in J; apply id_d_in in J as (v' & V' & K); congruence).
  destruct (pos_spec a (levels (vkind v)) (level_covers _ _ K W)) as (b & B & _). eapply nth_error_lt; eauto.
Qed.

Lemma nth_round_point : forall vs y i v a, nth_error vs i = Some v -> nth_error y i = Some a -> nth_error (round_point vs y) i = Some (round_val (vkind v) a).
Proof. induction vs as [|w vs IH]; intros [|c y] [|i] v a; cbn; intros H1 H2; try discriminate; [congruence|eauto]. Qed.
Lemma round_point_length : forall vs y, length (round_point vs y) = length y.
Proof. induction vs as [|w vs IH]; intros [|c y]; cbn; auto. Qed.

Lemma Forall2_nth_intro {A B} (R : A -> B -> Prop) : forall l m, length l = length m ->
  (forall i a b, nth_error l i = Some a -> nth_error m i = Some b -> R a b) -> Forall2 R l m.
Proof.
  induction l as [|a l IH]; intros [|b m] L H; try discriminate; constructor.
  - apply (H 0); reflexivity.
  - apply IH; [now injection L|]. intros i c d. apply (H (S i)).
Qed.

Lemma reach vs x y : Forall proper vs -> in_domain vs x -> in_domain vs y ->
  exists z, mutate vs (towards vs x y) x = Some z /\ Forall2 (fun a b => val_eqb a b = true) (round_point vs y) z.
Proof.
  intros P DX DY. destruct (mutate_total vs 1 (towards vs x y) x P (towards_ok vs 1 x y (Nat.lt_0_succ 0) DY) DX) as (z & M).
  exists z. split; [exact M|]. pose proof (mutate_domain _ _ _ _ P DX M) as DZ. unfold mutate in M.
  destruct (mutate_r _ _ x) as [x1|] eqn:E1; cbn in M; [|discriminate]. destruct (mutate_i _ _ x1) as [x2|] eqn:E2; cbn in M; [|discriminate].
  pose proof (mutate_r_domain _ _ _ _ P DX E1) as D1. pose proof (mutate_i_domain _ _ _ _ P D1 E2) as D2.
  destruct (mutate_r_inv _ _ _ _ E1) as (R1 & R2). destruct (mutate_i_inv _ _ _ _ E2) as (I1 & I2).
  destruct (mutate_d_inv vs (towards vs x y) x2 z (fun _ => eq_refl) M) as (L & C1 & C2).
  apply in_domain_nth in DX as DX'. destruct DX' as (LX & _). apply in_domain_nth in DY as DY'. destruct DY' as (LY & _).
  apply in_domain_nth in DZ as DZ'. destruct DZ' as (LZ & _). apply in_domain_nth in D2 as D2'. destruct D2' as (L2 & _).
  apply Forall2_nth_intro; [rewrite round_point_length; congruence|]. intros i a b Ha Hb.
  destruct (lt_nth_error vs i) as (v & V). { rewrite <- LZ. eapply nth_error_lt; eauto. }
  destruct (component_exists _ _ _ _ DY V) as (c & C & W). rewrite (nth_round_point _ _ _ _ _ V C) in Ha. assert (a = round_val (vkind v) c) by congruence. subst a. clear Ha.
  assert (NI : forall p, p (vkind v) = false -> ~ In i (ids p vs)) by (intros p K H; apply ids_in in H as (v' & V' & K'); congruence).
  assert (ND : categorical (vkind v) = false -> ~ In i (id_d vs)) by (intros K H; apply id_d_in in H as (v' & V' & K'); congruence).
  assert (PV : proper v) by (rewrite Forall_forall in P; apply P; eapply nth_error_In; eauto).
  destruct (categorical (vkind v)) eqn:K.
  - assert (IN : In i (id_d vs)) by (apply id_d_in; eauto). apply In_nth_error in IN as (j & J).
    destruct (C2 j i J) as (v' & b' & V' & B' & Z). { rewrite L2. eapply nth_error_lt; eauto. }
    assert (v' = v) by congruence. subst v'. assert (b' = b) by congruence. subst b'. cbn [towards d_level] in B'. rewrite J, V, C in B'.
    destruct (pos_spec c (levels (vkind v)) (level_covers _ _ K W)) as (b'' & B'' & E). assert (b'' = b) by congruence. subst b''.
    destruct (vkind v); cbn in K; try discriminate; exact E.
  - rewrite (C1 i (ND eq_refl)) in Hb. destruct (vkind v) as [lb ub p|lb ub st| | | |] eqn:KV; cbn in K; try discriminate.
    + rewrite (I1 i) in Hb by (apply NI; reflexivity).
      assert (IN : In i (id_r vs)) by (apply ids_in; exists v; rewrite KV; auto). apply In_nth_error in IN as (j & J).
      destruct (R2 j i J) as (v' & lb' & ub' & p' & u & q & V' & KV' & U & Q1 & Z). assert (v' = v) by congruence. subst v'. rewrite KV in KV'.
      assert (lb' = lb /\ ub' = ub /\ p' = p) as (-> & -> & ->) by (repeat split; congruence). clear KV'.
      destruct W as (qc & QC & B1 & B2). cbn [round_val]. rewrite QC. assert (b = VR (real_round lb ub p (reflect (q + d_real (towards vs x y) j) lb ub))) by congruence. subst b.
      cbn [towards d_real]. rewrite J. unfold num. rewrite C, QC, U, Q1. unfold proper in PV. rewrite KV in PV.
      erewrite val_eqb_num by reflexivity. apply Qeq_bool_iff.
      assert (E : (reflect (q + (qc - q)) lb ub == qc)%Q) by (rewrite (reflect_id (q + (qc - q))) by lra; lra).
      apply Qle_antisym; apply real_round_mono; lra.
    + assert (IN : In i (id_i vs)) by (apply ids_in; exists v; rewrite KV; auto). apply In_nth_error in IN as (j & J).
      destruct (I2 j i J) as (v' & lb' & ub' & p' & u & q & V' & KV' & U & Q1 & Z). assert (v' = v) by congruence. subst v'. rewrite KV in KV'.
      assert (lb' = lb /\ ub' = ub /\ p' = st) as (-> & -> & ->) by (repeat split; congruence). clear KV'.
      destruct W as (zc & -> & B). cbn [round_val]. rewrite Hb in Z. injection Z as Z. subst b. cbn [towards d_int] in *. rewrite J in *.
      rewrite (R1 i) in U by (apply NI; reflexivity).
      unfold num. rewrite C, U, Q1. cbn [as_num]. rewrite (to_int_exact (inject_Z zc) zc) by reflexivity.
      replace (to_int q + (zc - to_int q))%Z with zc by lia. unfold proper in PV. rewrite KV in PV.
      erewrite val_eqb_num by reflexivity. apply Qeq_bool_iff. rewrite (to_int_exact _ zc); [reflexivity|].
      apply reflect_id; [rewrite <- Zlt_Qlt; lia|rewrite <- Zle_Qle; lia|rewrite <- Zle_Qle; lia].
Qed.

(** One generation in which every offspring is the target. *)
Lemma reach_run c fit argsort other_stop X s y : sorts argsort -> Forall proper (m_vs c) -> Forall (in_domain (m_vs c)) X ->
  init c fit X = Some s -> 1 <= m_mu c -> 1 <= m_lambda c -> stop c other_stop 0 s = false -> in_domain (m_vs c) y ->
  exists d z, draws_ok (m_vs c) (m_mu c) d /\ Forall2 (fun a b => val_eqb a b = true) (round_point (m_vs c) y) z /\
    In (z, fit (length X) 0 z) (trace (final (optimize c fit argsort (fun _ _ => d) other_stop 1 0 s))).
Proof.
  intros SORT P D I MU LA ST DY. unfold init in I. destruct X as [|x0 X]; [discriminate|].
  destruct (first_best c (evaluate fit 0 (x0 :: X))) as [[xb fb]|] eqn:FB; [|discriminate]. inversion D as [|? ? DX _]; subst.
  destruct (reach (m_vs c) x0 y P DX DY) as (z & M & F). set (d := towards (m_vs c) x0 y) in *.
  exists d, z. split; [apply towards_ok; auto|]. split; [exact F|].
  assert (S0 : s = mkMst (evaluate fit 0 (x0 :: X)) xb fb (length (x0 :: X)) 0 (evaluate fit 0 (x0 :: X))) by congruence. clear I.
  cbn [optimize]. rewrite ST.
  assert (OFF : offspring c (fun _ _ => d) 0 s = Some (repeat z (m_lambda c))).
  { unfold offspring. assert (PS : map fst (pop s) = x0 :: X) by (rewrite S0; cbn [pop]; apply evaluate_fst). rewrite PS.
    assert (R : recombine (x0 :: X) d = Some x0) by reflexivity. rewrite R. cbn [obind]. rewrite M. clear. generalize 0. induction (m_lambda c); intros k; cbn; [reflexivity|]. now rewrite IHn. }
  assert (TR : trace s = evaluate fit 0 (x0 :: X)) by (rewrite S0; reflexivity). assert (EV : evals s = length (x0 :: X)) by (rewrite S0; reflexivity). clear S0.
  unfold generation. rewrite OFF.
  destruct (select c argsort s (evaluate fit (evals s) (repeat z (m_lambda c)))) as [|[x f] t] eqn:SE.
  - exfalso. pose proof (select_length c argsort SORT s (evaluate fit (evals s) (repeat z (m_lambda c)))) as L. rewrite SE in L. cbn [length] in L. unfold pool in L.
    destruct (m_elitism c); rewrite ?app_length, evaluate_length, repeat_length in L; lia.
  - match goal with |- In _ (trace (final (if stop _ _ _ ?s' then _ else _))) => set (s1 := s') end.
    assert (FT : trace (final (if stop c other_stop 1 s1 then Done s1 else OutOfFuel s1)) = trace s1) by (destruct (stop c other_stop 1 s1); reflexivity).
    rewrite FT. unfold s1. cbn [trace]. apply in_or_app. right. rewrite EV. destruct (m_lambda c) as [|n]; [lia|]. left. reflexivity.
Qed.
