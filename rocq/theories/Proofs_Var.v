(** Lemmas about Model_Var.v and Model_Grid.v. *)
From Coq Require Import List Bool Arith ZArith QArith Qabs Qround Qpower String Lia Lqa Sorted.
From Verif Require Import Lib_List Model_Var Model_Grid Proofs_Ask.
Import ListNotations.
Open Scope nat_scope.

(** * Rounding *)
Lemma floor_bounds q : (inject_Z (Qfloor q) <= q)%Q /\ (q < inject_Z (Qfloor q) + 1)%Q.
Proof.
  pose proof (Qfloor_le q). pose proof (Qlt_floor q) as H0. rewrite inject_Z_plus in H0.
  change (inject_Z 1) with 1%Q in H0. split; assumption.
Qed.
Lemma Qle_bool_false a b : Qle_bool a b = false <-> (b < a)%Q.
Proof. rewrite <- Bool.not_true_iff_false, Qle_bool_iff. split; [apply Qnot_le_lt|apply Qlt_not_le]. Qed.

Lemma rint_near q : (q - (1#2) <= inject_Z (rint q))%Q /\ (inject_Z (rint q) <= q + (1#2))%Q.
Proof.
  unfold rint. cbv zeta. destruct (floor_bounds q) as [F1 F2].
  destruct (Qle_bool (1#2) (q - inject_Z (Qfloor q))) eqn:E1; cbn [negb].
  - apply Qle_bool_iff in E1. destruct (Qle_bool (q - inject_Z (Qfloor q)) (1#2)) eqn:E2; cbn [negb].
    + apply Qle_bool_iff in E2. destruct (Z.even (Qfloor q)); rewrite ?inject_Z_plus; change (inject_Z 1) with 1%Q; split; lra.
    + apply Qle_bool_false in E2. rewrite inject_Z_plus. change (inject_Z 1) with 1%Q. split; lra.
  - apply Qle_bool_false in E1. split; lra.
Qed.

Lemma rint_comp p q : (p == q)%Q -> rint p = rint q.
Proof. intro H. unfold rint. rewrite (Qfloor_comp _ _ H). cbv zeta. rewrite !H. reflexivity. Qed.

Lemma rint_mono p q : (p <= q)%Q -> (rint p <= rint q)%Z.
Proof.
  intro H. destruct (Z_le_gt_dec (rint p) (rint q)) as [?|G]; [assumption|]. exfalso.
  destruct (rint_near p) as [_ P2]. destruct (rint_near q) as [Q1 _].
  assert (I : (inject_Z (rint q) + 1 <= inject_Z (rint p))%Q).
  { change 1%Q with (inject_Z 1). rewrite <- inject_Z_plus. rewrite <- Zle_Qle. lia. }
  assert (E : (p == q)%Q) by lra. apply rint_comp in E. lia.
Qed.
Lemma rint_int z : rint (inject_Z z) = z.
Proof.
  unfold rint. rewrite Qfloor_Z. cbv zeta.
  destruct (Qle_bool (1#2) (inject_Z z - inject_Z z)) eqn:E; [|reflexivity].
  apply Qle_bool_iff in E. exfalso. lra.
Qed.

Lemma pow10_pos p : (0 < Qpower (10#1) p)%Q.
Proof. apply Qpower_0_lt. reflexivity. Qed.

Lemma np_round_near x p : (Qabs (np_round x p - x) <= (1#2) / Qpower (10#1) p)%Q.
Proof.
  unfold np_round. pose proof (pow10_pos p) as S. set (s := Qpower (10#1) p) in *.
  destruct (rint_near (x * s)) as [H1 H2]. set (z := inject_Z (rint (x * s))) in *.
  assert (E : (z / s - x == (z - x * s) / s)%Q) by (field; lra). rewrite E. clear E.
  apply Qabs_Qle_condition. split.
  - setoid_replace (- ((1#2) / s))%Q with ((- (1#2)) / s)%Q by (field; lra).
    apply Qmult_le_compat_r; [lra|]. apply Qlt_le_weak, Qinv_lt_0_compat, S.
  - apply Qmult_le_compat_r; [lra|]. apply Qlt_le_weak, Qinv_lt_0_compat, S.
Qed.
Lemma np_round_mono x y p : (x <= y)%Q -> (np_round x p <= np_round y p)%Q.
Proof.
  intro H. unfold np_round. pose proof (pow10_pos p) as S. set (s := Qpower (10#1) p) in *.
  apply Qmult_le_compat_r; [|apply Qlt_le_weak, Qinv_lt_0_compat, S].
  rewrite <- Zle_Qle. apply rint_mono. apply Qmult_le_compat_r; [exact H|]. apply Qlt_le_weak, S.
Qed.
Lemma np_round_comp x y p : (x == y)%Q -> (np_round x p == np_round y p)%Q.
Proof. intro H. unfold np_round. rewrite (rint_comp (x * Qpower (10#1) p) (y * Qpower (10#1) p)); [reflexivity|]. rewrite H. reflexivity. Qed.
Lemma np_round_idem x p : (np_round (np_round x p) p == np_round x p)%Q.
Proof.
  unfold np_round at 1 3. pose proof (pow10_pos p) as S. set (s := Qpower (10#1) p) in *.
  assert (E : (np_round x p * s == inject_Z (rint (x * s)))%Q) by (unfold np_round; fold s; field; lra).
  rewrite (rint_comp _ _ E), rint_int. reflexivity.
Qed.

Lemma qclip_cases x lb ub : (lb <= ub)%Q ->
  ((x < lb)%Q /\ qclip x lb ub = lb) \/ ((lb <= x <= ub)%Q /\ qclip x lb ub = x) \/ ((ub < x)%Q /\ qclip x lb ub = ub).
Proof.
  intro H. unfold qclip. destruct (Qle_bool lb x) eqn:E1.
  - apply Qle_bool_iff in E1. destruct (Qle_bool x ub) eqn:E2.
    + apply Qle_bool_iff in E2. right. left. auto.
    + apply Qle_bool_false in E2. auto.
  - apply Qle_bool_false in E1. destruct (Qle_bool lb ub) eqn:E2; auto.
    apply Qle_bool_false in E2. lra.
Qed.
Lemma qclip_mono x y lb ub : (lb <= ub)%Q -> (x <= y)%Q -> (qclip x lb ub <= qclip y lb ub)%Q.
Proof.
  intros H L. destruct (qclip_cases x lb ub H) as [[A ->]|[[A ->]|[A ->]]], (qclip_cases y lb ub H) as [[B ->]|[[B ->]|[B ->]]]; lra.
Qed.
Lemma qclip_nearer x y lb ub : (lb <= y <= ub)%Q -> (Qabs (qclip x lb ub - y) <= Qabs (x - y))%Q.
Proof.
  intros [H1 H2]. assert (H : (lb <= ub)%Q) by lra.
  destruct (qclip_cases x lb ub H) as [[A ->]|[[A ->]|[A ->]]].
  - rewrite (Qabs_neg (x - y)) by lra. rewrite (Qabs_neg (lb - y)) by lra. lra.
  - lra.
  - rewrite (Qabs_pos (x - y)) by lra. rewrite (Qabs_pos (ub - y)) by lra. lra.
Qed.

Lemma real_round_mono lb ub prec x y : (lb <= ub)%Q -> (x <= y)%Q -> (real_round lb ub prec x <= real_round lb ub prec y)%Q.
Proof. intros H L. unfold real_round. destruct prec; [|exact L]. apply qclip_mono; [exact H|]. apply np_round_mono, L. Qed.

Lemma real_round_idem_at lb ub p x : (lb <= ub)%Q ->
  (lb <= x <= ub)%Q \/ ((np_round lb p == lb)%Q /\ (np_round ub p == ub)%Q) ->
  (real_round lb ub (Some p) (real_round lb ub (Some p) x) == real_round lb ub (Some p) x)%Q.
Proof.
  intros H HX. cbn [real_round].
  destruct (qclip_cases (np_round x p) lb ub H) as [[A E]|[[A E]|[A E]]]; rewrite E.
  - assert (N : (np_round lb p <= lb)%Q).
    { destruct HX as [[X1 X2]|[X1 X2]]; [|rewrite X1; apply Qle_refl].
      pose proof (np_round_mono lb x p X1). lra. }
    destruct (qclip_cases (np_round lb p) lb ub H) as [[B E']|[[B E']|[B E']]]; rewrite E'; lra.
  - pose proof (np_round_idem x p) as I.
    destruct (qclip_cases (np_round (np_round x p) p) lb ub H) as [[B E']|[[B E']|[B E']]]; rewrite E'; lra.
  - assert (N : (ub <= np_round ub p)%Q).
    { destruct HX as [[X1 X2]|[X1 X2]]; [|rewrite X2; apply Qle_refl].
      pose proof (np_round_mono x ub p X2). lra. }
    destruct (qclip_cases (np_round ub p) lb ub H) as [[B E']|[[B E']|[B E']]]; rewrite E'; lra.
Qed.

(** * The grid of an Integer variable *)
Lemma grid_value_in lb ub step i : (0 < step)%Q -> (0 <= i < grid_size lb ub step)%Z ->
  (lb <= grid_value lb step i)%Q /\ (grid_value lb step i <= ub)%Q.
Proof.
  intros HS [H1 H2]. unfold grid_value, grid_size in *.
  assert (I0 : (0 <= inject_Z i)%Q) by (change 0%Q with (inject_Z 0); rewrite <- Zle_Qle; exact H1).
  assert (I1 : (inject_Z i <= (ub - lb) / step)%Q).
  { apply Qle_trans with (inject_Z (Qfloor ((ub - lb) / step))); [rewrite <- Zle_Qle; lia|apply Qfloor_le]. }
  assert (P0 : (0 <= inject_Z i * step)%Q) by (apply Qmult_le_0_compat; lra).
  assert (P1 : (inject_Z i * step <= ub - lb)%Q).
  { apply Qle_trans with ((ub - lb) / step * step)%Q; [apply Qmult_le_compat_r; lra|].
    assert (E : ((ub - lb) / step * step == ub - lb)%Q) by (field; lra). rewrite E. apply Qle_refl. }
  split; lra.
Qed.

Lemma grid_value_onto lb ub step k : (0 < step)%Q -> (0 <= k)%Z -> (grid_value lb step k <= ub)%Q ->
  (0 <= k < grid_size lb ub step)%Z.
Proof.
  intros HS HK H. split; [exact HK|]. unfold grid_size, grid_value in *.
  assert (I : (inject_Z k <= (ub - lb) / step)%Q) by (apply Qle_shift_div_l; lra).
  apply Qfloor_resp_le in I. rewrite Qfloor_Z in I. lia.
Qed.

Lemma int_grid lb ub step : (0 < step)%Z ->
  int_size lb ub step = grid_size (inject_Z lb) (inject_Z ub) (inject_Z step).
Proof.
  intro H. unfold int_size, grid_size. f_equal.
  assert (E : ((inject_Z ub - inject_Z lb) / inject_Z step == (ub - lb) # (Z.to_pos step))%Q).
  { unfold Qeq, Qdiv, Qminus, Qopp, Qplus, Qmult, Qinv, inject_Z. destruct step; try lia. simpl. lia. }
  rewrite (Qfloor_comp _ _ E). unfold Qfloor. rewrite Z2Pos.id by lia. reflexivity.
Qed.
Lemma int_levels lb ub step z : (0 < step)%Z ->
  In (VI z) (levels (KInt lb ub step)) <->
  exists k, (0 <= k)%Z /\ z = (lb + k * step)%Z /\ (z <= ub)%Z.
Proof.
  intro H. cbn [levels]. rewrite in_map_iff. split.
  - intros (i&E&Hi). injection E as <-. apply in_seq in Hi. exists (Z.of_nat i). unfold int_value, int_size in *.
    split; [lia|]. split; [reflexivity|].
    assert (Z.of_nat i <= (ub - lb) / step)%Z by lia.
    assert (step * Z.of_nat i <= ub - lb)%Z; [|lia].
    apply Z.le_trans with (step * ((ub - lb) / step))%Z; [nia|apply Z.mul_div_le; lia].
  - intros (k&H1&->&H2). exists (Z.to_nat k). unfold int_value, int_size. rewrite Z2Nat.id by lia. split; [reflexivity|].
    apply in_seq. assert (k <= (ub - lb) / step)%Z by (apply Z.div_le_lower_bound; lia). lia.
Qed.

(** * Python equality of values is an equivalence *)
Fixpoint list_eqb {A} (f : A -> A -> bool) (l m : list A) : bool :=
  match l, m with
  | [], [] => true
  | x :: l', y :: m' => f x y && list_eqb f l' m'
  | _, _ => false
  end.
Lemma val_eqb_VT l m : val_eqb (VT l) (VT m) = list_eqb val_eqb l m.
Proof. simpl. revert m. induction l as [|a l IH]; intros [|b m]; simpl; try reflexivity. rewrite IH. reflexivity. Qed.
Lemma val_eqb_num a b p q : as_num a = Some p -> as_num b = Some q -> val_eqb a b = Qeq_bool p q.
Proof. intros H1 H2. destruct a, b; simpl in *; try discriminate; injection H1 as <-; injection H2 as <-; reflexivity. Qed.
Lemma val_eqb_num_l a b : val_eqb a b = true -> (as_num a = None <-> as_num b = None).
Proof. destruct a, b; simpl; intro; try discriminate; split; intro; try discriminate; reflexivity. Qed.

Lemma Qeq_bool_sym' p q : Qeq_bool p q = Qeq_bool q p.
Proof. apply eq_true_iff_eq. rewrite !Qeq_bool_iff. split; intro; symmetry; assumption. Qed.

Lemma val_eqb_sym : forall a b, val_eqb a b = val_eqb b a.
Proof.
  fix IH 1. intros a b. destruct a as [q|z|s|t|l], b as [q'|z'|s'|t'|l']; try reflexivity; try (apply Qeq_bool_sym').
  - simpl. apply String.eqb_sym.
  - rewrite !val_eqb_VT. revert l'. induction l as [|x l IHl]; intros [|y l']; simpl; try reflexivity.
    rewrite (IH x y), IHl. reflexivity.
Qed.
Lemma val_eqb_trans : forall a b c, val_eqb a b = true -> val_eqb b c = true -> val_eqb a c = true.
Proof.
  fix IH 1. intros a b c H1 H2.
  destruct (as_num a) as [p|] eqn:Ea.
  - destruct (as_num b) as [q|] eqn:Eb; [|apply val_eqb_num_l in H1; destruct H1 as [_ H1]; rewrite H1 in Ea; congruence].
    destruct (as_num c) as [r|] eqn:Ec; [|apply val_eqb_num_l in H2; destruct H2 as [_ H2]; rewrite H2 in Eb; congruence].
    rewrite (val_eqb_num a b p q Ea Eb) in H1. rewrite (val_eqb_num b c q r Eb Ec) in H2.
    rewrite (val_eqb_num a c p r Ea Ec). apply Qeq_bool_iff in H1. apply Qeq_bool_iff in H2. apply Qeq_bool_iff. rewrite H1. exact H2.
  - destruct a as [?|?|s|?|l]; try discriminate Ea.
    + destruct b as [?|?|s'|?|l']; try discriminate H1. destruct c as [?|?|s''|?|l'']; try discriminate H2.
      simpl in *. apply String.eqb_eq in H1. apply String.eqb_eq in H2. subst. apply String.eqb_refl.
    + destruct b as [?|?|s'|?|l']; try discriminate H1. destruct c as [?|?|s''|?|l'']; try discriminate H2.
      rewrite val_eqb_VT in *. clear Ea. revert l' l'' H1 H2.
      induction l as [|x l IHl]; intros [|y l'] [|z l''] H1 H2; simpl in *; try discriminate; auto.
      apply andb_true_iff in H1. apply andb_true_iff in H2. destruct H1 as [H1 H1'], H2 as [H2 H2'].
      apply andb_true_iff. split; [exact (IH x y z H1 H2)|exact (IHl l' l'' H1' H2')].
Qed.
Lemma val_eqb_congr a b c : val_eqb a b = true -> val_eqb a c = val_eqb b c.
Proof.
  intro H. apply eq_true_iff_eq. split; intro E.
  - eapply val_eqb_trans; [|exact E]. rewrite val_eqb_sym. exact H.
  - eapply val_eqb_trans; eassumption.
Qed.

(** * dedup *)
(** The positions kept: those without an equal value before them. *)
Definition first_at (l : list val) (i : nat) : Prop :=
  exists v, nth_error l i = Some v /\ forall j w, j < i -> nth_error l j = Some w -> val_eqb w v = false.

Lemma dedup_aux_positions : forall l seen,
  exists idx, StronglySorted lt idx /\ map Some (dedup_aux seen l) = map (nth_error l) idx /\
    forall i, In i idx <-> (first_at l i /\ forall v s, nth_error l i = Some v -> In s seen -> val_eqb v s = false).
Proof.
  induction l as [|v l IH]; intro seen; simpl.
  - exists []. split; [constructor|]. split; [reflexivity|]. intro i. split; [intros []|].
    intros [(w&H&_) _]. destruct i; discriminate.
  - destruct (existsb (val_eqb v) seen) eqn:E.
    + destruct (IH seen) as (idx&SS&M&P). exists (map S idx).
      split; [|split].
      * clear -SS. induction SS as [|a l SS IHS F]; simpl; constructor; auto. rewrite Forall_map. eapply Forall_impl; [|exact F]. simpl. intros. lia.
      * rewrite M, map_map. reflexivity.
      * apply existsb_exists in E. destruct E as (s&Hs&Es).
        intro i. rewrite in_map_iff. split.
        { intros (j&<-&Hj). apply P in Hj. destruct Hj as [(w&Hw&F) G]. split.
          - exists w. split; [exact Hw|]. intros [|k] u Hk Hu; [|simpl in Hu; apply (F k); [lia|exact Hu]].
            simpl in Hu. injection Hu as <-. destruct (val_eqb v w) eqn:EW; [|reflexivity]. exfalso.
            assert (val_eqb w s = true) by (rewrite <- (val_eqb_congr v w s EW); exact Es).
            rewrite (G w s Hw Hs) in H. discriminate.
          - intros u t Hu. simpl in Hu. apply G. exact Hu. }
        { intros [(w&Hw&F) G]. destruct i as [|i].
          - simpl in Hw. injection Hw as ->. exfalso. rewrite (G w s eq_refl Hs) in Es. discriminate.
          - exists i. split; [reflexivity|]. apply P. split.
            + exists w. split; [exact Hw|]. intros j u Hj Hu. apply (F (S j)); [lia|exact Hu].
            + intros u t Hu Ht. apply G; assumption. }
    + destruct (IH (v :: seen)) as (idx&SS&M&P). exists (0 :: map S idx).
      assert (NE : forall s, In s seen -> val_eqb v s = false).
      { intros s Hs. destruct (val_eqb v s) eqn:F; [|reflexivity]. exfalso.
        assert (existsb (val_eqb v) seen = true) by (apply existsb_exists; eauto). congruence. }
      split; [|split].
      * constructor.
        { clear -SS. induction SS as [|a l SS IHS F]; simpl; constructor; auto. rewrite Forall_map. eapply Forall_impl; [|exact F]. simpl. intros. lia. }
        { rewrite Forall_map. apply Forall_forall. intros. lia. }
      * simpl. rewrite M, map_map. reflexivity.
      * intro i. simpl. rewrite in_map_iff. split.
        { intros [<-|(j&<-&Hj)].
          - split; [exists v; split; [reflexivity|intros; lia]|]. intros u s Hu. simpl in Hu. injection Hu as <-. apply NE.
          - apply P in Hj. destruct Hj as [(w&Hw&F) G]. split.
            + exists w. split; [exact Hw|]. intros [|k] u Hk Hu; [|simpl in Hu; apply (F k); [lia|exact Hu]].
              simpl in Hu. injection Hu as <-. rewrite val_eqb_sym. apply (G w v Hw). left. reflexivity.
            + intros u t Hu Ht. simpl in Hu. apply G; [exact Hu|right; exact Ht]. }
        { intros [(w&Hw&F) G]. destruct i as [|i]; [left; reflexivity|right]. exists i. split; [reflexivity|].
          apply P. split.
          - exists w. split; [exact Hw|]. intros j u Hj Hu. apply (F (S j)); [lia|exact Hu].
          - intros u t Hu [<-|Ht].
            + rewrite val_eqb_sym. simpl in Hw. replace u with w by congruence. apply (F 0); [lia|reflexivity].
            + apply G; [exact Hu|exact Ht]. }
Qed.
Lemma dedup_positions l : exists idx, StronglySorted lt idx /\ map Some (dedup l) = map (nth_error l) idx /\
  forall i, In i idx <-> first_at l i.
Proof.
  destruct (dedup_aux_positions l []) as (idx&S&M&P). exists idx. split; [exact S|]. split; [exact M|].
  intro i. rewrite P. split; [intros [H _]; exact H|]. intro H. split; [exact H|]. intros v s _ [].
Qed.

Lemma dedup_aux_distinct : forall l seen,
  (forall s v, In s seen -> In v (dedup_aux seen l) -> val_eqb v s = false) /\
  ForallOrdPairs (fun a b => val_eqb a b = false) (dedup_aux seen l) /\
  (forall v, In v l -> (exists s, In s seen /\ val_eqb v s = true) \/ exists w, In w (dedup_aux seen l) /\ val_eqb v w = true).
Proof.
  induction l as [|v l IH]; intro seen; simpl.
  - split; [intros s v _ []|]. split; [constructor|]. intros v [].
  - destruct (existsb (val_eqb v) seen) eqn:E.
    + destruct (IH seen) as (A&B&C). split; [exact A|]. split; [exact B|]. intros w [<-|Hw]; [|apply C; exact Hw].
      left. apply existsb_exists in E. exact E.
    + destruct (IH (v :: seen)) as (A&B&C). split; [|split].
      * intros s w Hs [<-|Hw].
        { destruct (val_eqb v s) eqn:F; [|reflexivity]. exfalso.
          assert (existsb (val_eqb v) seen = true) by (apply existsb_exists; eauto). congruence. }
        { apply A; [right; exact Hs|exact Hw]. }
      * constructor; [|exact B]. apply Forall_forall. intros w Hw. rewrite val_eqb_sym. apply A; [left; reflexivity|exact Hw].
      * intros w [<-|Hw]; [right; exists v; split; [left; reflexivity|apply val_eqb_refl]|].
        destruct (C w Hw) as [(s&[<-|Hs]&F)|(u&Hu&F)].
        { right. exists v. split; [left; reflexivity|exact F]. }
        { left. eauto. }
        { right. exists u. split; [right; exact Hu|exact F]. }
Qed.

Lemma dedup_aux_id : forall l seen,
  ForallOrdPairs (fun a b => val_eqb a b = false) l ->
  (forall s v, In s seen -> In v l -> val_eqb v s = false) -> dedup_aux seen l = l.
Proof.
  induction l as [|v l IH]; intros seen H HS; simpl; [reflexivity|]. inversion H as [|? ? F P]; subst.
  destruct (existsb (val_eqb v) seen) eqn:E.
  - apply existsb_exists in E. destruct E as (s&Hs&Es). rewrite (HS s v Hs) in Es by (left; reflexivity). discriminate.
  - f_equal. apply IH; [exact P|]. intros s w [<-|Hs] Hw; [|apply HS; [exact Hs|right; exact Hw]].
    rewrite val_eqb_sym. rewrite Forall_forall in F. apply F. exact Hw.
Qed.
Lemma dedup_id l : ForallOrdPairs (fun a b => val_eqb a b = false) l -> dedup l = l.
Proof. intro H. apply dedup_aux_id; [exact H|]. intros s v []. Qed.

(** * combinations *)
Inductive subseq {A} : list A -> list A -> Prop :=
| sub_nil l : subseq [] l
| sub_take x s l : subseq s l -> subseq (x :: s) (x :: l)
| sub_skip x s l : subseq s l -> subseq s (x :: l).

Lemma combinations_subseq {A} : forall (l : list A) r c,
  In c (combinations l r) <-> subseq c l /\ List.length c = r.
Proof.
  induction l as [|x l IH]; intros r c.
  - destruct r; simpl.
    + split; [intros [<-|[]]; split; [constructor|reflexivity]|]. intros [_ H]. destruct c; [left; reflexivity|discriminate].
    + split; [intros []|]. intros [H L]. inversion H; subst. discriminate.
  - destruct r as [|r]; simpl.
    + split; [intros [<-|[]]; split; [constructor|reflexivity]|]. intros [_ H]. destruct c; [left; reflexivity|discriminate].
    + rewrite in_app_iff, in_map_iff. split.
      * intros [(d&<-&Hd)|H].
        { apply IH in Hd. destruct Hd as [H1 H2]. split; [constructor; exact H1|simpl; congruence]. }
        { apply IH in H. destruct H as [H1 H2]. split; [constructor; exact H1|exact H2]. }
      * intros [H L]. inversion H; subst; [discriminate| |].
        { left. exists s. split; [reflexivity|]. apply IH. split; [assumption|simpl in L; congruence]. }
        { right. apply IH. split; assumption. }
Qed.
Lemma subseq_In {A} (c l : list A) : subseq c l -> forall x, In x c -> In x l.
Proof. induction 1; intros y Hy; simpl in *; [contradiction|destruct Hy as [<-|Hy]; auto|auto]. Qed.
Lemma subseq_length {A} (c l : list A) : subseq c l -> List.length c <= List.length l.
Proof. induction 1; simpl; lia. Qed.
Lemma filter_subseq {A} (P : A -> bool) l : subseq (filter P l) l.
Proof. induction l as [|x l IH]; simpl; [constructor|]. destruct (P x); constructor; exact IH. Qed.

Lemma list_eqb_length {A} (f : A -> A -> bool) l m : list_eqb f l m = true -> List.length l = List.length m.
Proof. revert m. induction l as [|a l IH]; intros [|b m] H; simpl in *; try discriminate; auto. apply andb_true_iff in H. f_equal. apply IH, H. Qed.

Lemma FOP_app {A} (R : A -> A -> Prop) l m :
  ForallOrdPairs R l -> ForallOrdPairs R m -> (forall a b, In a l -> In b m -> R a b) -> ForallOrdPairs R (l ++ m).
Proof.
  induction 1 as [|x l F P IH]; intros H2 H3; simpl; [exact H2|]. constructor.
  - apply Forall_app. split; [exact F|]. apply Forall_forall. intros b Hb. apply H3; [left; reflexivity|exact Hb].
  - apply IH; [exact H2|]. intros a b Ha Hb. apply H3; [right; exact Ha|exact Hb].
Qed.
Lemma FOP_map {A B} (R : B -> B -> Prop) (f : A -> B) l : ForallOrdPairs (fun a b => R (f a) (f b)) l -> ForallOrdPairs R (map f l).
Proof. induction 1 as [|x l F P IH]; simpl; constructor; auto. rewrite Forall_map. exact F. Qed.
Lemma FOP_impl {A} (R S : A -> A -> Prop) l : (forall a b, R a b -> S a b) -> ForallOrdPairs R l -> ForallOrdPairs S l.
Proof. intros H. induction 1 as [|x l F P IH]; constructor; auto. eapply Forall_impl; [|exact F]. intros. apply H. assumption. Qed.

Lemma combinations_distinct : forall (l : list val) r,
  ForallOrdPairs (fun a b => val_eqb a b = false) l ->
  ForallOrdPairs (fun a b => list_eqb val_eqb a b = false) (combinations l r).
Proof.
  induction l as [|x l IH]; intros r H.
  - destruct r; simpl; repeat constructor.
  - inversion H as [|? ? F P]; subst. destruct r as [|r]; simpl; [repeat constructor|].
    apply FOP_app.
    + apply FOP_map. eapply FOP_impl; [|apply IH; exact P]. intros a b E. simpl. rewrite E. apply andb_false_r.
    + apply IH. exact P.
    + intros a b Ha Hb. apply in_map_iff in Ha. destruct Ha as (d&<-&Hd). apply combinations_subseq in Hb.
      destruct Hb as [Hb L]. destruct b as [|y b]; [discriminate|]. simpl.
      assert (In y l) by (eapply subseq_In; [exact Hb|left; reflexivity]). rewrite Forall_forall in F.
      rewrite (F y H0). reflexivity.
Qed.

Lemma flat_combinations_distinct (l : list val) : forall n k,
  ForallOrdPairs (fun a b => val_eqb a b = false) l ->
  ForallOrdPairs (fun a b => list_eqb val_eqb a b = false) (flat_map (combinations l) (seq k n)).
Proof.
  induction n as [|n IH]; intros k H; simpl; [constructor|]. apply FOP_app.
  - apply combinations_distinct. exact H.
  - apply IH. exact H.
  - intros a b Ha Hb. apply combinations_subseq in Ha. apply in_flat_map in Hb. destruct Hb as (r&Hr&Hb).
    apply combinations_subseq in Hb. apply in_seq in Hr. destruct (list_eqb val_eqb a b) eqn:E; [|reflexivity].
    apply list_eqb_length in E. lia.
Qed.

Lemma subset_levels_eq l : ForallOrdPairs (fun a b => val_eqb a b = false) l ->
  subset_levels l = map VT (flat_map (combinations l) (seq 1 (List.length l))).
Proof.
  intro H. unfold subset_levels. apply dedup_id. apply FOP_map.
  eapply FOP_impl; [|apply flat_combinations_distinct; exact H]. intros a b E. rewrite val_eqb_VT. exact E.
Qed.
Lemma subset_levels_in l c : ForallOrdPairs (fun a b => val_eqb a b = false) l ->
  In (VT c) (subset_levels l) <-> subseq c l /\ c <> [].
Proof.
  intro H. rewrite subset_levels_eq by exact H. rewrite in_map_iff. split.
  - intros (d&E&Hd). injection E as ->. apply in_flat_map in Hd. destruct Hd as (r&Hr&Hd). apply in_seq in Hr.
    apply combinations_subseq in Hd. destruct Hd as [H1 H2]. split; [exact H1|]. intros ->. simpl in H2. lia.
  - intros [H1 H2]. exists c. split; [reflexivity|]. apply in_flat_map. exists (List.length c).
    split; [|apply combinations_subseq; auto]. apply in_seq. apply subseq_length in H1. destruct c; [congruence|simpl in *; lia].
Qed.
(** A subsequence of a duplicate-free list is the filter of its own membership. *)
Lemma subseq_filter (l c : list val) : ForallOrdPairs (fun a b => val_eqb a b = false) l -> subseq c l ->
  c = filter (fun v => existsb (val_eqb v) c) l.
Proof.
  intros H S. induction S as [l|x s l S IH|x s l S IH].
  - simpl. induction l; simpl; [reflexivity|]. inversion H; subst. auto.
  - inversion H as [|? ? F P]; subst. simpl. rewrite val_eqb_refl. simpl. f_equal.
    rewrite (IH P) at 1. apply filter_ext_in. intros y Hy. rewrite Forall_forall in F.
    rewrite (val_eqb_sym y x), (F y Hy). reflexivity.
  - inversion H as [|? ? F P]; subst. simpl. destruct (existsb (val_eqb x) s) eqn:E; [|apply IH; exact P].
    apply existsb_exists in E. destruct E as (y&Hy&Ey). rewrite Forall_forall in F. rewrite (F y) in Ey; [discriminate|].
    eapply subseq_In; eassumption.
Qed.

Lemma real_round_in lb ub prec x : (lb <= x <= ub)%Q -> (lb <= real_round lb ub prec x <= ub)%Q.
Proof.
  intros H. destruct prec as [p|]; simpl; auto.
  assert (L : (lb <= ub)%Q) by lra.
  destruct (qclip_cases (np_round x p) lb ub L) as [[C ->]|[[C ->]|[C ->]]]; lra.
Qed.
