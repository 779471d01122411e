(** Lemmas about the stopping criteria of MIES. *)
From Coq Require Import Bool Arith ZArith QArith Qabs Qround Qminmax String List Lia Lqa Qfield Permutation.
From Verif Require Import Model_Var Model_Grid Model_Pareto Model_Box Model_Ask Model_Sol.
From Verif Require Import Lib_List Spec_Ask Spec_Pareto Spec_Sol Proofs_Var Proofs_Box Proofs_Pareto Proofs_Sol.
From Verif Require Import Model_MIES Spec_MIES Proofs_MIES Model_MiesPar Spec_MiesPar Proofs_MiesPar Proofs_MiesPar2.
Import ListNotations.
Open Scope nat_scope.
Set Bullet Behavior "Strict Subproofs".

(** ** Numbers *)
Lemma of_nat_pos n : 1 <= n -> (0 < inject_Z (Z.of_nat n))%Q.
Proof. intro H. unfold Qlt. cbn. lia. Qed.
Lemma ratio_mult a k n : 1 <= n -> (ratio (a + k * n) n == ratio a n + inject_Z (Z.of_nat k))%Q.
Proof. intro H. pose proof (of_nat_pos n H) as P. unfold ratio. rewrite Nat2Z.inj_add, Nat2Z.inj_mul, inject_Z_plus, inject_Z_mult. field. Lqa.lra. Qed.
Lemma ratio_exact a n : 1 <= n -> (ratio (a * n) n == inject_Z (Z.of_nat a))%Q.
Proof. intro H. pose proof (of_nat_pos n H) as P. unfold ratio. rewrite Nat2Z.inj_mul, inject_Z_mult. field. Lqa.lra. Qed.

(** An integral quotient means divisibility. *)
Lemma ratio_integral a n z : 1 <= n -> (ratio a n == inject_Z z)%Q -> exists k, a = k * n.
Proof.
  intros H E. pose proof (of_nat_pos n H) as P. assert (E' : (inject_Z (Z.of_nat a) == inject_Z (z * Z.of_nat n))%Q).
  { rewrite inject_Z_mult, <- E. unfold ratio. field. Lqa.lra. }
  apply (proj1 (inject_Z_injective _ _)) in E'. exists (Z.to_nat z). nia.
Qed.
Lemma qmod_zero q n : 1 <= n -> (qmod q n == 0)%Q -> exists z, (q == inject_Z z)%Q.
Proof. intros H E. unfold qmod in E. exists (Z.of_nat n * Qfloor (q / inject_Z (Z.of_nat n)))%Z. rewrite inject_Z_mult. Lqa.lra. Qed.
Lemma qmod_nat q a n : 1 <= n -> (q == inject_Z (Z.of_nat a))%Q -> (qmod q n == inject_Z (Z.of_nat (a mod n)))%Q.
Proof.
  intros H E. unfold qmod.
  assert (F : Qfloor (q / inject_Z (Z.of_nat n)) = (Z.of_nat a / Z.of_nat n)%Z).
  { rewrite (Qfloor_comp _ (Z.of_nat a # Pos.of_nat n)).
    - cbn. f_equal. rewrite <- Znat.positive_nat_Z. rewrite Nat2Pos.id by lia. reflexivity.
    - rewrite E. destruct n as [|n]; [lia|]. rewrite Qmake_Qdiv. replace (Z.pos (Pos.of_nat (S n))) with (Z.of_nat (S n)); [reflexivity|]. rewrite <- Znat.positive_nat_Z. now rewrite Nat2Pos.id by lia. }
  rewrite F, E, <- inject_Z_mult. rewrite Nat2Z.inj_mod. rewrite Z.mod_eq by lia. unfold Z.sub. rewrite inject_Z_plus, inject_Z_opp. reflexivity.
Qed.
Lemma to_int_nat q a : (q == inject_Z (Z.of_nat a))%Q -> to_int q = Z.of_nat a.
Proof.
  intro E. unfold to_int. rewrite (qle_comp 0 q 0 (inject_Z (Z.of_nat a))) by (assumption || reflexivity).
  destruct (Qle_bool 0 (inject_Z (Z.of_nat a))); [rewrite (Qfloor_comp _ _ E); apply Qfloor_Z|rewrite (Qceiling_comp _ _ E); apply Qceiling_Z].
Qed.

(** The position flat fitness compares with. *)
Definition flat_index (mu lambda : nat) : nat :=
  Z.to_nat (to_int (Qmin (inject_Z (Qceiling ((1 # 10) + ratio lambda 4))) (inject_Z (Z.of_nat mu - 1)))).
Lemma ceiling_bounds lambda : 1 <= lambda -> (1 <= Qceiling ((1 # 10) + ratio lambda 4))%Z /\ (2 <= lambda -> (Qceiling ((1 # 10) + ratio lambda 4) <= Z.of_nat lambda - 1)%Z).
Proof.
  intro H. unfold ratio. set (l := inject_Z (Z.of_nat lambda)). assert (1 <= l)%Q by (unfold l; change 1%Q with (inject_Z 1); rewrite <- Zle_Qle; lia).
  change (inject_Z (Z.of_nat 4)) with 4%Q. split.
  - enough (0 < Qceiling ((1 # 10) + l / 4))%Z by lia. rewrite Zlt_Qlt. eapply Qlt_le_trans; [|apply Qle_ceiling]. change (inject_Z 0) with 0%Q. unfold Qdiv. change (/ 4)%Q with (1 # 4)%Q. Lqa.lra.
  - intro H2. assert (2 <= l)%Q by (unfold l; change 2%Q with (inject_Z 2); rewrite <- Zle_Qle; lia). enough (Qceiling ((1 # 10) + l / 4) < Z.of_nat lambda)%Z by lia. rewrite Zlt_Qlt. fold l.
    eapply Qlt_le_trans; [|instantiate (1 := ((1 # 10) + l / 4 + 1)%Q)].
    + pose proof (Qceiling_lt ((1 # 10) + l / 4)) as C. unfold Z.sub in C. rewrite inject_Z_plus in C. change (inject_Z (- (1))) with (- (1))%Q in C. Lqa.lra.
    + unfold Qdiv. change (/ 4)%Q with (1 # 4)%Q. Lqa.lra.
Qed.
Lemma flat_index_z mu lambda : 1 <= mu -> 1 <= lambda -> Z.of_nat (flat_index mu lambda) = Z.min (Qceiling ((1 # 10) + ratio lambda 4)) (Z.of_nat mu - 1).
Proof.
  intros M L. destruct (ceiling_bounds lambda L) as (A & _). unfold flat_index. set (k := Qceiling _) in *.
  assert (E : (Qmin (inject_Z k) (inject_Z (Z.of_nat mu - 1)) == inject_Z (Z.min k (Z.of_nat mu - 1)))%Q).
  { destruct (Z.min_spec k (Z.of_nat mu - 1)) as [(U & ->)|(U & ->)]; [apply Q.min_l|apply Q.min_r]; rewrite <- Zle_Qle; lia. }
  rewrite (to_int_nat _ (Z.to_nat (Z.min k (Z.of_nat mu - 1)))); [lia|]. rewrite E. rewrite Z2Nat.id by lia. reflexivity.
Qed.
Lemma flat_index_one lambda : 1 <= lambda -> flat_index 1 lambda = 0.
Proof. intro L. pose proof (flat_index_z 1 lambda (le_n _) L) as E. destruct (ceiling_bounds lambda L) as (A & _). lia. Qed.
Lemma flat_index_ok mu lambda : 2 <= mu -> 2 <= lambda -> 1 <= flat_index mu lambda < lambda.
Proof. intros M L. pose proof (flat_index_z mu lambda ltac:(lia) ltac:(lia)) as E. destruct (ceiling_bounds lambda ltac:(lia)) as (A & B). specialize (B L). lia. Qed.
Lemma flat_index_lambda1 mu : 2 <= mu -> flat_index mu 1 = 1.
Proof. intro M. pose proof (flat_index_z mu 1 ltac:(lia) ltac:(lia)) as E. change (Qceiling ((1 # 10) + ratio 1 4)) with 1%Z in E. lia. Qed.
Lemma flat_index_default : flat_index 4 10 = 3.
Proof. reflexivity. Qed.
Lemma nbin_pos c : 1 <= m_lambda c -> 3 <= nbin c.
Proof.
  intro L. unfold nbin. pose proof (of_nat_pos _ L) as P. enough (-1 < Qceiling (ratio (30 * List.length (m_vs c)) (m_lambda c)))%Z by lia. rewrite Zlt_Qlt. eapply Qlt_le_trans; [|apply Qle_ceiling].
  unfold ratio. apply Qlt_le_trans with 0%Q; [reflexivity|]. apply Qle_shift_div_l; [exact P|]. rewrite Qmult_0_l. change 0%Q with (inject_Z 0). rewrite <- Zle_Qle. lia.
Qed.

(** ** What one call of stop does *)
Section Stop.
  Variable c : mcfg.
  Variable fit : nat -> nat -> point -> Q.
  Variable argsort : list Q -> list nat.
  Variable rnd : nat -> nat -> noise.
  Notation optimize_par := (optimize_par c fit argsort rnd).
  Notation generation_par := (generation_par c fit argsort rnd).
  Notation stop_par := (stop_par c).

  Definition over (s : pst) : list reason := match m_max c with Some m => if m <? p_evals s then [MaxEval] else [] | None => [] end.
  Lemma over_max s r : In r (over s) -> r = MaxEval.
  Proof. unfold over. destruct (m_max c) as [m|]; [destruct (m <? p_evals s)|]; cbn; [intros [<-|[]]; reflexivity|intros []|intros []]. Qed.
  Lemma stop_first s : p_iters s = 0 -> exists s1, stop_par s = Some s1 /\ p_stop s1 = p_stop s ++ over s /\ p_hist s1 = p_hist s.
  Proof. intro H. unfold Model_MiesPar.stop_par. rewrite H. cbn [Nat.eqb]. rewrite orb_true_r. eexists. split; [reflexivity|]. split; reflexivity. Qed.
  Definition tol_now (s : pst) (hist : list Q) : list reason :=
    if Qeq_bool (qmod (ratio (p_evals s) (m_lambda c)) (nbin c)) 0 && negb (Qle_bool tolfun (qmax hist - qmin hist)) then [TolFun] else [].
  Definition new_hist (s : pst) (f0 : Q) : list Q :=
    set_nth (p_hist s) (Z.to_nat (to_int (qmod (ratio (p_evals s) (m_lambda c) - 1) (nbin c)))) f0.
  Lemma stop_later s : p_iters s <> 0 -> p_evals s <> 0 ->
    stop_par s = match p_off s with
                 | [] => None
                 | f0 :: _ => match nth_error (p_off s) (flat_index (m_mu c) (m_lambda c)) with
                              | None => None
                              | Some fk => Some (mkP (p_pop s) (p_off s) (p_xopt s) (p_fopt s) (p_evals s) (p_iters s) (new_hist s f0)
                                                     (p_stop s ++ over s ++ tol_now s (new_hist s f0) ++ (if Qeq_bool f0 fk then [FlatFitness] else [])) (p_trace s))
                              end
                 end.
  Proof.
    intros A B. unfold Model_MiesPar.stop_par. apply Nat.eqb_neq in A, B. rewrite A, B. cbn [orb]. destruct (p_off s) as [|f0 off] eqn:E; [reflexivity|]. fold (flat_index (m_mu c) (m_lambda c)). fold (new_hist s f0). fold (over s).
    destruct (nth_error (f0 :: off) (flat_index (m_mu c) (m_lambda c))) as [fk|]; [|reflexivity]. f_equal. f_equal. unfold tol_now. destruct (_ && _), (Qeq_bool f0 fk); rewrite ?app_nil_r, <- ?app_assoc; reflexivity.
  Qed.

  (** ** What a generation does to the counters and the records *)
  Lemma generation_counts g s s' : generation_par g s = Some s' ->
    exists off, p_trace s' = p_trace s ++ off /\ p_off s' = map snd off /\ List.length off = m_lambda c /\ p_evals s' = p_evals s + m_lambda c /\ p_iters s' = S (p_iters s) /\
      p_hist s' = p_hist s /\ p_stop s' = p_stop s /\ (exists X, off = evaluate_par fit (p_evals s) X).
  Proof.
    intro H. unfold Model_MiesPar.generation_par in H. destruct (offspring_par c rnd g s) as [X|] eqn:O; [|discriminate].
    assert (LX : List.length X = m_lambda c) by (unfold offspring_par in O; apply sequence_length in O; rewrite O, map_length, seq_length; reflexivity).
    destruct (select_par c argsort s (evaluate_par fit (p_evals s) X)) as [|[a f] p]; [discriminate|]. assert (E : Some s' = Some s') by reflexivity. rewrite <- H in E at 1. injection E as E. subst s'. cbn [p_trace p_off p_evals p_iters p_hist p_stop].
    exists (evaluate_par fit (p_evals s) X). rewrite LX. do 2 (split; [reflexivity|]). split; [unfold evaluate_par; rewrite indexed_map_length; exact LX|]. do 4 (split; [reflexivity|]). eauto.
  Qed.

  (** ** Invariants of the loop *)
  Lemma optimize_inv_par (I J : pst -> Prop) : (forall s s', I s -> p_stop s = [] -> stop_par s = Some s' -> J s') ->
    (forall g s s', J s -> p_stop s = [] -> generation_par g s = Some s' -> I s') ->
    forall fuel g s, I s -> p_stop s = [] ->
      match optimize_par fuel g s with
      | Done_par r => J r /\ (exists s', I s' /\ p_stop s' = [] /\ stop_par s' = Some r)
      | OutOfFuel_par r => J r
      | Raised_par r => I r \/ J r
      end.
  Proof.
    intros HS HG. induction fuel as [|fuel IH]; intros g s Hs P; cbn [Model_MiesPar.optimize_par]; destruct (stop_par s) as [s1|] eqn:E; auto; pose proof (HS _ _ Hs P E) as H1; (destruct (p_stop s1) eqn:P1; [|split; [exact H1|]; exists s; auto]); auto.
    destruct (generation_par g s1) as [s2|] eqn:G; auto. apply IH; [eapply HG; eauto|]. destruct (generation_counts _ _ _ G) as (off & _ & _ & _ & _ & _ & _ & K & _). congruence.
  Qed.

  (** Counters and records agree. *)
  Definition counted (m : nat) (s : pst) : Prop :=
    p_evals s = m + p_iters s * m_lambda c /\ List.length (p_off s) = m_lambda c /\ List.length (p_trace s) = p_evals s /\
    (1 <= p_iters s -> exists old, List.length old = m + (p_iters s - 1) * m_lambda c /\ map snd (p_trace s) = old ++ p_off s) /\ List.length (p_hist s) = nbin c.
  Lemma counted_construct s0 e0 p0 X s : construct c fit s0 e0 p0 X = Some s -> counted (List.length X) s.
  Proof.
    intro H. destruct (construct_forget _ _ _ _ _ _ _ H) as (_ & _ & A & B & C). unfold counted. rewrite A, B, C, repeat_length. unfold construct, par_columns in H. destruct (_ =? _); [|discriminate].
    destruct (first_best _ _) as [[x f]|]; [|discriminate]. assert (E : Some s = Some s) by reflexivity. rewrite <- H in E at 1. injection E as E. subst s. cbn [p_off p_trace]. rewrite repeat_length. unfold evaluate_par. rewrite indexed_map_length, map_length. repeat split; lia.
  Qed.
  Lemma set_nth_length l : forall i a, List.length (set_nth l i a) = List.length l.
  Proof. induction l as [|b l IH]; intros [|i] a; cbn; auto. Qed.
  Lemma stop_counted m s s' : counted m s -> stop_par s = Some s' -> counted m s'.
  Proof.
    intros (A & B & C & D & E) H. destruct (stop_par_same _ _ _ H) as (T & _ & I & V & O). unfold counted. rewrite T, I, V, O. do 4 (split; [assumption|]).
    unfold Model_MiesPar.stop_par in H. destruct (_ || _); [injection H as <-; exact E|]. destruct (p_off s); [discriminate|]. destruct (nth_error _ _); [|discriminate].
    assert (E' : Some s' = Some s') by reflexivity. rewrite <- H in E' at 1. injection E' as E'. subst s'. cbn [p_hist]. now rewrite set_nth_length.
  Qed.
  Lemma generation_counted m g s s' : counted m s -> generation_par g s = Some s' -> counted m s'.
  Proof.
    intros (A & B & C & D & E) H. destruct (generation_counts _ _ _ H) as (off & T & O & L & V & I & Hh & _). unfold counted. rewrite T, O, V, I, Hh, app_length, map_length, L. cbn [Nat.mul].
    split; [lia|]. split; [reflexivity|]. split; [lia|]. split; [|exact E]. intros _. exists (map snd (p_trace s)). rewrite map_length, map_app. split; [|reflexivity]. rewrite C, A. f_equal. f_equal. lia.
  Qed.

  (** ** Tolerance on the fitness *)
  Lemma tolfun_divides m fuel s : counted m s -> p_stop s = [] -> In TolFun (p_stop (final_par (optimize_par fuel 0 s))) -> exists k, m = k * m_lambda c.
  Proof.
    intros H P.
    assert (HS : forall s s', counted m s /\ p_stop s = [] -> p_stop s = [] -> stop_par s = Some s' -> counted m s' /\ (In TolFun (p_stop s') -> exists k, m = k * m_lambda c)).
    { clear s H P. intros s s' (H & P) _ ES. split; [eapply stop_counted; eauto|]. intro T. destruct (Nat.eq_dec (p_iters s) 0) as [I0|I0].
      - destruct (stop_first s I0) as (s1 & E1 & E2 & _). replace s' with s1 in T by congruence. rewrite E2, P in T. apply over_max in T. discriminate.
      - destruct H as (A & B & C & D & E). destruct (m_lambda c) as [|l'] eqn:EL.
        { destruct (Nat.eq_dec (p_evals s) 0) as [V0|V0]; [exists 0; lia|]. rewrite (stop_later s I0 V0) in ES. destruct (p_off s); [discriminate|cbn in B; lia]. }
        rewrite <- EL in *. assert (L1 : 1 <= m_lambda c) by lia. clear EL l'. assert (V0 : p_evals s <> 0) by nia. rewrite (stop_later s I0 V0) in ES. destruct (p_off s) as [|f0 off]; [discriminate|]. destruct (nth_error _ _) as [fk|]; [|discriminate].
        injection ES as <-. cbn [p_stop] in T. rewrite P in T. cbn [app] in T. apply in_app_or in T as [T|T]; [apply over_max in T; discriminate|].
        apply in_app_or in T as [T|T]; [|destruct (Qeq_bool f0 fk); cbn in T; [destruct T as [T|T]; [discriminate|destruct T]|destruct T]].
        unfold tol_now in T. destruct (Qeq_bool _ 0) eqn:Z; [|destruct T]. apply Qeq_bool_iff in Z. apply qmod_zero in Z as (z & Z); [|pose proof (nbin_pos c L1); lia].
        destruct (ratio_integral _ _ _ L1 Z) as (k & K). exists (k - p_iters s). nia. }
    pose proof (optimize_inv_par (fun s => counted m s /\ p_stop s = []) (fun s' => counted m s' /\ (In TolFun (p_stop s') -> exists k, m = k * m_lambda c)) HS) as L.
    specialize (L ltac:(intros g t t' (A & _) Pt G; split; [eapply generation_counted; eauto|]; destruct (generation_counts _ _ _ G) as (? & _ & _ & _ & _ & _ & _ & K & _); congruence) fuel 0 s (conj H P) P).
    destruct (optimize_par fuel 0 s) as [r|r|r]; cbn [final_par]; [exact (proj2 (proj1 L))| |exact (proj2 L)]. destruct L as [(_ & L)|L]; [rewrite L; intros []|exact (proj2 L)].
  Qed.

  Lemma nth_set_nth l : forall i a j, i < List.length l -> nth_error (set_nth l i a) j = if i =? j then Some a else nth_error l j.
  Proof. induction l as [|b l IH]; intros [|i] a [|j] H; cbn in *; try lia; auto. apply IH. lia. Qed.
  Lemma qmax_ge l a : In a l -> (a <= qmax l)%Q.
  Proof.
    assert (F : forall t b, (b <= fold_left Qmax t b)%Q /\ forall a, In a t -> (a <= fold_left Qmax t b)%Q).
    { induction t as [|d t IH]; intro b; cbn; [split; [Lqa.lra|intros ? []]|]. destruct (IH (Qmax b d)) as (I1 & I2). pose proof (Q.le_max_l b d). pose proof (Q.le_max_r b d). split; [Lqa.lra|]. intros x [<-|I]; [Lqa.lra|auto]. }
    destruct l as [|b t]; intros H; [destruct H|]. cbn. destruct (F t b) as (F1 & F2). destruct H as [<-|H]; auto.
  Qed.
  Lemma qmin_le l a : In a l -> (qmin l <= a)%Q.
  Proof.
    assert (F : forall t b, (fold_left Qmin t b <= b)%Q /\ forall a, In a t -> (fold_left Qmin t b <= a)%Q).
    { induction t as [|d t IH]; intro b; cbn; [split; [Lqa.lra|intros ? []]|]. destruct (IH (Qmin b d)) as (I1 & I2). pose proof (Q.le_min_l b d). pose proof (Q.le_min_r b d). split; [Lqa.lra|]. intros x [<-|I]; [Lqa.lra|auto]. }
    destruct l as [|b t]; intros H; [destruct H|]. cbn. destruct (F t b) as (F1 & F2). destruct H as [<-|H]; auto.
  Qed.
  Lemma qmax_in l : l <> [] -> exists a, In a l /\ (a == qmax l)%Q.
  Proof.
    assert (F : forall t b, exists a, In a (b :: t) /\ (a == fold_left Qmax t b)%Q).
    { induction t as [|d t IH]; intro b; [exists b; cbn; split; [auto|reflexivity]|]. cbn [fold_left]. destruct (IH (Qmax b d)) as (a & I & E). destruct I as [<-|I]; [|exists a; cbn; auto].
      destruct (Q.max_spec b d) as [(_ & M)|(_ & M)]; [exists d|exists b]; (split; [cbn; auto|]); rewrite <- E, M; reflexivity. }
    destruct l as [|b t]; [tauto|]. intros _. apply F.
  Qed.
  Lemma qmin_in l : l <> [] -> exists a, In a l /\ (a == qmin l)%Q.
  Proof.
    assert (F : forall t b, exists a, In a (b :: t) /\ (a == fold_left Qmin t b)%Q).
    { induction t as [|d t IH]; intro b; [exists b; cbn; split; [auto|reflexivity]|]. cbn [fold_left]. destruct (IH (Qmin b d)) as (a & I & E). destruct I as [<-|I]; [|exists a; cbn; auto].
      destruct (Q.min_spec b d) as [(_ & M)|(_ & M)]; [exists b|exists d]; (split; [cbn; auto|]); rewrite <- E, M; reflexivity. }
    destruct l as [|b t]; [tauto|]. intros _. apply F.
  Qed.

  (** The bins hold the first values of the last generations. *)
  Definition hist_ok (m' k : nat) (s : pst) : Prop :=
    forall g, 1 <= g <= k -> k < g + nbin c -> nth_error (p_hist s) ((m' + g - 1) mod nbin c) = first_value (m' * m_lambda c) (m_lambda c) s g.
  Definition dividing (m' : nat) (s : pst) : Prop := (m' + p_iters s) mod nbin c = 0.
  Definition tol_spec (m' : nat) (s : pst) : Prop :=
    (In TolFun (p_stop s) -> dividing m' s /\ stagnant (m' * m_lambda c) (m_lambda c) (nbin c) tolfun s) /\
    (nbin c <= p_iters s -> dividing m' s -> stagnant (m' * m_lambda c) (m_lambda c) (nbin c) tolfun s -> In TolFun (p_stop s)).

  Lemma first_value_same m l s s' g : p_trace s' = p_trace s -> first_value m l s' g = first_value m l s g.
  Proof. unfold first_value. now intros ->. Qed.
  Lemma tol_stop m' s s' : 1 <= m_lambda c -> 1 <= m' -> counted (m' * m_lambda c) s -> hist_ok m' (p_iters s - 1) s -> p_stop s = [] -> stop_par s = Some s' -> hist_ok m' (p_iters s') s' /\ tol_spec m' s'.
  Proof.
    intros L1 M1 (A & B & C & D & E) HO P H. pose proof (nbin_pos c L1) as NB. destruct (stop_par_same _ _ _ H) as (T & _ & I & V & O).
    destruct (Nat.eq_dec (p_iters s) 0) as [I0|I0].
    { destruct (stop_first s I0) as (s1 & E1 & E2 & _). assert (s1 = s') by congruence. subst s1. split; [intros g; lia|]. unfold tol_spec. rewrite E2, P, I, I0. split; [|lia]. intro X. apply over_max in X. discriminate. }
    assert (V0 : p_evals s <> 0) by nia. rewrite (stop_later s I0 V0) in H. destruct (p_off s) as [|f0 off] eqn:EO; [discriminate|]. destruct (nth_error _ _) as [fk|] eqn:EK; [|discriminate]. assert (E' : Some s' = Some s') by reflexivity. rewrite <- H in E' at 1. injection E' as E'.
    assert (Q1 : (ratio (p_evals s) (m_lambda c) == inject_Z (Z.of_nat (m' + p_iters s)))%Q) by (rewrite A, <- Nat.mul_add_distr_r; apply ratio_exact; exact L1).
    set (j := (m' + p_iters s - 1) mod nbin c). assert (Hj : j < List.length (p_hist s)) by (rewrite E; apply Nat.mod_upper_bound; lia).
    assert (NH : new_hist s f0 = set_nth (p_hist s) j f0).
    { unfold new_hist. f_equal. rewrite (to_int_nat _ j); [apply Nat2Z.id|]. apply qmod_nat; [lia|]. rewrite Q1. replace (m' + p_iters s) with (S (m' + p_iters s - 1)) at 1 by lia. rewrite Nat2Z.inj_succ. unfold Z.succ. rewrite inject_Z_plus. change (inject_Z 1) with 1%Q. Lqa.lra. }
    assert (HO' : hist_ok m' (p_iters s') s').
    { intros g G1 G2. rewrite I in *. subst s'. rewrite (first_value_same _ _ s) by reflexivity. cbn [p_hist]. rewrite NH, nth_set_nth by exact Hj.
      destruct (Nat.eq_dec g (p_iters s)) as [->|N].
      - fold j. rewrite Nat.eqb_refl. destruct (D ltac:(lia)) as (old & LO & TO). unfold first_value. rewrite <- nth_error_map. rewrite TO, nth_error_app2 by lia. rewrite LO, Nat.sub_diag. reflexivity.
      - replace (j =? (m' + g - 1) mod nbin c) with false; [apply HO; lia|]. symmetry. apply Nat.eqb_neq. intro K. unfold j in K.
        pose proof (Nat.div_mod_eq (m' + p_iters s - 1) (nbin c)) as D1. pose proof (Nat.div_mod_eq (m' + g - 1) (nbin c)) as D2. rewrite K in D1. set (qa := (m' + p_iters s - 1) / nbin c) in *. set (qb := (m' + g - 1) / nbin c) in *. set (r := (m' + g - 1) mod nbin c) in *. clearbody qa qb r. destruct (Nat.lt_trichotomy qa qb) as [U|[U|U]]; nia. }
    split; [exact HO'|]. assert (FA : forall a, In a (p_hist s') -> nbin c <= p_iters s -> dividing m' s' -> exists g, 1 <= g <= p_iters s /\ p_iters s < g + nbin c /\ first_value (m' * m_lambda c) (m_lambda c) s' g = Some a).
    { intros a Ha N DV. apply In_nth_error in Ha as (i & Hi). assert (Li : i < nbin c) by (rewrite <- E, <- (set_nth_length (p_hist s) j f0), <- NH; replace (new_hist s f0) with (p_hist s') by (subst s'; reflexivity); apply nth_error_Some; congruence).
      exists (p_iters s - nbin c + 1 + i). split; [lia|]. split; [lia|]. rewrite <- HO' by lia. rewrite <- Hi. f_equal. unfold dividing in DV. rewrite I in DV. apply Nat.mod_divides in DV as (k & DV); [|lia].
      replace (m' + (p_iters s - nbin c + 1 + i) - 1) with (i + (k - 1) * nbin c) by nia. rewrite Nat.mod_add by lia. apply Nat.mod_small. exact Li. }
    assert (FB : forall g a, 1 <= g <= p_iters s -> p_iters s < g + nbin c -> first_value (m' * m_lambda c) (m_lambda c) s' g = Some a -> In a (p_hist s')).
    { intros g a G1 G2 G3. rewrite <- HO' in G3 by lia. eapply nth_error_In; eauto. }
    assert (DIV : Qeq_bool (qmod (ratio (p_evals s) (m_lambda c)) (nbin c)) 0 = true <-> dividing m' s').
    { rewrite Qeq_bool_iff. rewrite (qmod_nat _ (m' + p_iters s) (nbin c)) by (lia || exact Q1). unfold dividing. rewrite I. split; [intro Z|intros ->; reflexivity]. change 0%Q with (inject_Z (Z.of_nat 0)) in Z. apply (proj1 (inject_Z_injective _ _)) in Z. lia. }
    assert (TN : In TolFun (p_stop s') <-> dividing m' s' /\ (qmax (p_hist s') - qmin (p_hist s') < tolfun)%Q).
    { transitivity (In TolFun (tol_now s (p_hist s'))).
      - subst s'. cbn [p_stop p_hist]. rewrite P. cbn [app]. rewrite !in_app_iff. split; [|tauto]. intros [X|[X|X]]; [apply over_max in X; discriminate|exact X|]. destruct (Qeq_bool f0 fk); cbn in X; [destruct X as [X|[]]; discriminate|destruct X].
      - unfold tol_now. destruct (Qeq_bool _ 0) eqn:Z; [|split; [intros []|]; intros (X & _); apply DIV in X; congruence].
        destruct (Qle_bool tolfun _) eqn:LE; cbn; [split; [intros []|]; intros (_ & X); apply Qle_bool_iff in LE; Lqa.lra|].
        split; [|auto]. intros _. split; [apply DIV; reflexivity|]. apply Qnot_le_lt. intro X. apply Qle_bool_iff in X. congruence. }
    split.
    - intro X. apply TN in X as (X1 & X2). split; [exact X1|]. intros g1 g2 v1 v2 G1 G2 W1 W2 F1 F2. rewrite I in *. apply FB in F1; [|lia|lia]. apply FB in F2; [|lia|lia].
      pose proof (qmax_ge _ _ F1). pose proof (qmax_ge _ _ F2). pose proof (qmin_le _ _ F1). pose proof (qmin_le _ _ F2). apply Qabs_Qlt_condition. split; Lqa.lra.
    - intros N DV ST. rewrite I in N. apply TN. split; [exact DV|]. assert (NE : p_hist s' <> []) by (subst s'; cbn [p_hist]; intro X; rewrite NH in X; apply (f_equal (@List.length Q)) in X; rewrite set_nth_length, E in X; cbn in X; lia).
      destruct (qmax_in _ NE) as (a & Ia & Ea). destruct (qmin_in _ NE) as (b & Ib & Eb). destruct (FA a Ia N DV) as (g1 & G1 & W1 & F1). destruct (FA b Ib N DV) as (g2 & G2 & W2 & F2).
      assert (R : (Qabs (a - b) < tolfun)%Q) by (apply (ST g1 g2); rewrite ?I; auto). apply Qabs_Qlt_condition in R. Lqa.lra.
  Qed.
  Lemma tol_run m' fuel s : 1 <= m_lambda c -> 1 <= m' -> counted (m' * m_lambda c) s -> p_iters s = 0 -> p_stop s = [] ->
    match optimize_par fuel 0 s with Done_par r | OutOfFuel_par r => tol_spec m' r | Raised_par _ => True end.
  Proof.
    intros L1 M1 H I0 P.
    pose proof (optimize_inv_par (fun s => counted (m' * m_lambda c) s /\ hist_ok m' (p_iters s - 1) s) (fun s => counted (m' * m_lambda c) s /\ hist_ok m' (p_iters s) s /\ tol_spec m' s)) as L.
    specialize (L ltac:(intros t t' (A & B) Pt E; split; [eapply stop_counted; eauto|]; eapply tol_stop; eauto)).
    assert (G : forall g t t', counted (m' * m_lambda c) t /\ hist_ok m' (p_iters t) t /\ tol_spec m' t -> p_stop t = [] -> generation_par g t = Some t' -> counted (m' * m_lambda c) t' /\ hist_ok m' (p_iters t' - 1) t').
    { intros g t t' (A & B & _) Pt E. split; [eapply generation_counted; eauto|]. destruct (generation_counts _ _ _ E) as (off & T & O & LO & V & I & Hh & _). rewrite I. intros k K1 K2. rewrite Hh, B by lia.
      unfold first_value. rewrite T. destruct A as (A1 & A2 & A3 & _). rewrite nth_error_app1; [reflexivity|]. rewrite A3, A1. nia. }
    specialize (L G fuel 0 s). cbv beta in L. specialize (L ltac:(split; [exact H|]; intros k K; lia) P). destruct (optimize_par fuel 0 s); tauto.
  Qed.

  (** ** Flat fitness *)
  Lemma flat_one fuel g s : m_mu c = 1 -> 1 <= m_lambda c -> forall m, counted m s -> p_stop s = [] -> p_iters s = 0 -> p_iters (final_par (optimize_par fuel g s)) <= 1.
  Proof.
    intros M L m CN P I0. destruct fuel as [|fuel]; cbn [Model_MiesPar.optimize_par]; destruct (stop_first s I0) as (s1 & E1 & E2 & _); rewrite E1; destruct (stop_par_same _ _ _ E1) as (_ & _ & I1 & _).
    - destruct (p_stop s1); cbn; lia.
    - destruct (p_stop s1) eqn:P1; cbn; [|lia]. destruct (generation_par g s1) as [s2|] eqn:G; [|cbn; lia]. destruct (generation_counts _ _ _ G) as (off & T & O & LO & V & I2 & _).
      assert (NI : p_iters s2 <> 0) by lia. assert (NV : p_evals s2 <> 0) by lia.
      assert (ST : exists r x, stop_par s2 = Some r /\ p_stop r = x ++ [FlatFitness] /\ p_iters r = p_iters s2).
      { rewrite (stop_later s2 NI NV), M, flat_index_one by exact L. destruct (p_off s2) as [|f0 l] eqn:EO; [destruct off; cbn in *; [lia|discriminate]|]. cbn [nth_error]. rewrite Qeq_bool_refl. eexists. eexists. split; [reflexivity|]. cbn [p_stop]. split; [rewrite !app_assoc; reflexivity|reflexivity]. }
      destruct ST as (r & x & ES & EP & EI). destruct fuel; cbn [Model_MiesPar.optimize_par]; rewrite ES; (destruct (p_stop r) eqn:Z; [destruct x; discriminate|]); cbn; lia.
  Qed.
  Lemma flat_sound s s' : 2 <= m_mu c -> 2 <= m_lambda c -> p_stop s = [] -> stop_par s = Some s' -> In FlatFitness (p_stop s') ->
    exists i j f, i <> j /\ nth_error (p_off s') i = Some f /\ exists f', nth_error (p_off s') j = Some f' /\ (f == f')%Q.
  Proof.
    intros M L P H F. destruct (stop_par_same _ _ _ H) as (_ & _ & I & V & O).
    assert (K : (p_evals s = 0 \/ p_iters s = 0) \/ (p_iters s <> 0 /\ p_evals s <> 0)) by lia. destruct K as [K|(K1 & K2)].
    - unfold Model_MiesPar.stop_par in H. replace ((p_evals s =? 0) || (p_iters s =? 0)) with true in H by (destruct K as [-> | ->]; [reflexivity|now rewrite orb_true_r]). fold (over s) in H. injection H as <-. cbn [p_stop] in F. rewrite P in F. apply over_max in F. discriminate.
    - rewrite (stop_later s K1 K2) in H. destruct (p_off s) as [|f0 l] eqn:EO; [discriminate|]. destruct (nth_error (f0 :: l) _) as [fk|] eqn:EK; [|discriminate]. injection H as <-. cbn [p_stop p_off] in *. rewrite P in F. cbn [app] in F.
      rewrite !in_app_iff in F. destruct F as [F|[F|F]]; [apply over_max in F; discriminate|unfold tol_now in F; destruct (_ && _); cbn in F; [destruct F as [F|[]]; discriminate|destruct F]|].
      destruct (Qeq_bool f0 fk) eqn:Z; [|destruct F]. apply Qeq_bool_iff in Z. pose proof (flat_index_ok (m_mu c) (m_lambda c) M L) as FI. exists 0, (flat_index (m_mu c) (m_lambda c)), f0. split; [lia|]. split; [reflexivity|]. exists fk. split; [congruence|exact Z].
  Qed.
End Stop.

(** ** The loop does not fail for other reasons *)
Section Total.
  Variable c : mcfg.
  Variable fit : nat -> nat -> point -> Q.
  Variable argsort : list Q -> list nat.
  Hypothesis SO : sorts argsort.
  Variable rnd : nat -> nat -> noise.
  Hypothesis NO : forall g i, noise_ok (rnd g i).
  Hypothesis PO : forall g i, i < m_lambda c -> positions_ok (m_vs c) (m_mu c) (rnd g i).
  Hypothesis PR : Forall proper (m_vs c).
  Hypothesis M1 : 1 <= m_mu c.
  Hypothesis EL : m_elitism c = true \/ m_mu c <= m_lambda c.
  Definition healthy (s : pst) : Prop := inv c (forget s) /\ List.length (p_pop s) = m_mu c.
  Lemma generation_par_total g s : healthy s -> exists s', generation_par c fit argsort rnd g s = Some s' /\ healthy s'.
  Proof.
    intros (I & L). set (rnd' := fun g i => drawn rnd g i s).
    assert (NZ : forall g i j, ~ (n_R (rnd g i) j == 0)%Q) by (intros; apply NO).
    pose proof (generation_forget c fit argsort rnd NZ rnd' g s (fun i _ => eq_refl)) as GF.
    destruct (generation_total c fit argsort SO rnd' PR g (forget s) I) as (t & G & LT); auto.
    - cbn. rewrite map_length. exact L.
    - intros i Hi. unfold rnd', drawn. specialize (PO g i Hi). destruct (recombine_par _ _); exact PO.
    - rewrite G in GF. destruct (generation_par c fit argsort rnd g s) as [s'|]; [|discriminate]. exists s'. split; [reflexivity|]. cbn [option_map] in GF. assert (E : forget s' = t) by congruence. split.
      + rewrite E. eapply generation_inv in G; eauto. apply G.
      + rewrite <- E in LT. cbn in LT. now rewrite map_length in LT.
  Qed.
  Lemma healthy_stop s s' : healthy s -> stop_par c s = Some s' -> healthy s'.
  Proof. intros (A & B) H. destruct (stop_forget _ _ _ H) as (F & _). destruct (stop_par_same _ _ _ H) as (_ & E & _). unfold healthy. rewrite F, E. auto. Qed.
  Lemma stop_total m s : (m_mu c = 1 \/ 2 <= m_lambda c) -> 1 <= m_lambda c -> counted c m s -> exists s', stop_par c s = Some s'.
  Proof.
    intros K L (A & B & _). destruct (Nat.eq_dec (p_iters s) 0) as [I0|I0]; [destruct (stop_first c s I0) as (s1 & E & _); eauto|].
    assert (V0 : p_evals s <> 0) by nia. rewrite (stop_later c s I0 V0). destruct (p_off s) as [|f0 l] eqn:EO; [cbn in B; lia|].
    destruct (nth_error (f0 :: l) (flat_index (m_mu c) (m_lambda c))) as [fk|] eqn:N; [eauto|]. apply nth_error_None in N. rewrite B in N.
    destruct (Nat.eq_dec (m_mu c) 1) as [E|E]; [rewrite E, flat_index_one in N by exact L; lia|]. pose proof (flat_index_ok (m_mu c) (m_lambda c) ltac:(lia) ltac:(lia)). lia.
  Qed.
  Lemma optimize_par_total m b : m_max c = Some b -> (m_mu c = 1 \/ 2 <= m_lambda c) -> 1 <= m_lambda c ->
    forall fuel g s, healthy s -> counted c m s -> p_stop s = [] -> b < p_evals s + fuel -> exists r, optimize_par c fit argsort rnd fuel g s = Done_par r.
  Proof.
    intros MB K L. induction fuel as [|fuel IH]; intros g s H C P B; cbn [optimize_par]; destruct (stop_total m s K L C) as (s1 & E); rewrite E; destruct (stop_forget _ _ _ E) as (_ & ST).
    - destruct (p_stop s1) eqn:P1; [|eauto]. exfalso. apply (ST P b MB ltac:(lia)). reflexivity.
    - destruct (p_stop s1) eqn:P1; [|eauto]. destruct (generation_par_total g s1 (healthy_stop _ _ H E)) as (s2 & G & H2). rewrite G. destruct (generation_counts _ _ _ _ _ _ _ G) as (off & _ & _ & _ & V & _ & _ & PS & _).
      destruct (stop_par_same _ _ _ E) as (_ & _ & _ & EV & _). apply IH; [exact H2| |congruence|lia]. eapply generation_counted; [|exact G]. eapply stop_counted; eauto.
  Qed.
  (** One offspring and several parents: the first generation is followed by IndexError. *)
  Lemma one_offspring m fuel g s : 2 <= m_mu c -> m_lambda c = 1 -> healthy s -> counted c m s -> p_stop s = [] -> p_iters s = 0 -> over c s = [] ->
    exists r, optimize_par c fit argsort rnd (S fuel) g s = Raised_par r /\ p_iters r = 1.
  Proof.
    intros M L H C P I0 OV. cbn [optimize_par]. destruct (stop_first c s I0) as (s1 & E & PS & _). rewrite E, PS, P, OV. cbn [app]. destruct (generation_par_total g s1 (healthy_stop _ _ H E)) as (s2 & G & H2). rewrite G.
    destruct (stop_par_same _ _ _ E) as (_ & _ & I1 & _). destruct (generation_counts _ _ _ _ _ _ _ G) as (off & T & O & LO & V & I2 & _).
    assert (ES : stop_par c s2 = None).
    { rewrite stop_later by lia. destruct (p_off s2) as [|f0 l] eqn:EO; [reflexivity|]. rewrite L, flat_index_lambda1 by exact M. apply (f_equal (@List.length Q)) in O. rewrite map_length, LO, L in O. destruct l; [reflexivity|cbn in O; lia]. }
    destruct fuel; cbn [optimize_par]; rewrite ES; exists s2; split; auto; lia.
  Qed.
End Total.

(** ** A run on values that differ by 10^-8 at most which does not end *)
Definition slight : nat -> nat -> point -> Q := fun _ i _ => (inject_Z (Z.of_nat i) * (1 # 1000000000))%Q.
Definition default_run : mcfg := mkM [mkVar "x"%string (KReal 0 1 None)] 4 10 true false None.
Lemma indexed_seq {A} (l : list A) : indexed l = combine (seq 0 (List.length l)) l.
Proof. reflexivity. Qed.
Lemma slight_nth n X j : j < List.length X -> nth_error (map snd (evaluate_par slight n X)) j = Some (inject_Z (Z.of_nat j) * (1 # 1000000000))%Q.
Proof.
  intro H. unfold evaluate_par. rewrite map_map. cbn [snd fst]. rewrite nth_error_indexed_map. destruct (nth_error X j) eqn:E; [reflexivity|]. apply nth_error_None in E. lia.
Qed.
Lemma slight_small n X : List.length X <= 10 -> Forall (fun a => (0 <= snd a /\ snd a <= 1 # 100000000)%Q) (evaluate_par slight n X).
Proof.
  intro L. apply Forall_forall. intros a I. apply In_nth_error in I as (j & I). assert (J : nth_error (map snd (evaluate_par slight n X)) j = Some (snd a)) by (rewrite nth_error_map, I; reflexivity).
  assert (Hj : j < List.length X) by (rewrite <- (indexed_map_length (fun ia => (snd ia, slight n (fst ia) (i_x (snd ia)))) X); apply nth_error_Some; change (map _ (indexed X)) with (evaluate_par slight n X); congruence).
  rewrite slight_nth in J by exact Hj. injection J as <-.
  assert (0 <= inject_Z (Z.of_nat j))%Q by (change 0%Q with (inject_Z 0); rewrite <- Zle_Qle; lia). assert (inject_Z (Z.of_nat j) <= 10)%Q by (change 10%Q with (inject_Z 10); rewrite <- Zle_Qle; lia). split; Lqa.lra.
Qed.
Lemma endless argsort rnd : sorts argsort -> (forall g i, noise_ok (rnd g i)) -> (forall g i, i < 10 -> positions_ok (m_vs default_run) 4 (rnd g i)) ->
  forall fuel g s, healthy default_run s -> counted default_run 4 s -> p_stop s = [] -> Forall (fun a => (0 <= snd a /\ snd a <= 1 # 100000000)%Q) (p_trace s) ->
    (p_iters s = 0 \/ exists n X, List.length X = 10 /\ p_off s = map snd (evaluate_par slight n X)) ->
    exists r, optimize_par default_run slight argsort rnd fuel g s = OutOfFuel_par r /\ p_iters r = p_iters s + fuel /\ Forall (fun a => (0 <= snd a /\ snd a <= 1 # 100000000)%Q) (p_trace r).
Proof.
  intros SO NO PO. induction fuel as [|fuel IH]; intros g s H C P F O;
  (assert (ST : exists s1, stop_par default_run s = Some s1 /\ p_stop s1 = []);
   [destruct (Nat.eq_dec (p_iters s) 0) as [I0|I0]; [destruct (stop_first default_run s I0) as (s1 & E1 & E2 & _); exists s1; split; [exact E1|rewrite E2, P; reflexivity]|];
    destruct O as [O|(n & X & LX & O)]; [contradiction|]; destruct C as (A & B & _);
    assert (T0 : forall h, tol_now default_run s h = []) by
      (intro h; unfold tol_now; destruct (Qeq_bool _ 0) eqn:Z; [|reflexivity]; apply Qeq_bool_iff in Z; apply qmod_zero in Z as (z & Z); [|pose proof (nbin_pos default_run ltac:(cbn; lia)); lia]; destruct (ratio_integral (p_evals s) (m_lambda default_run) z ltac:(cbn; lia) Z) as (k & K); change (m_lambda default_run) with 10 in K, A; clear - K A; lia);
    rewrite stop_later by (change (m_lambda default_run) with 10 in A; lia); rewrite O; change (flat_index (m_mu default_run) (m_lambda default_run)) with 3; rewrite (slight_nth n X 3) by lia;
    pose proof (slight_nth n X 0 ltac:(lia)) as N0; destruct (map snd (evaluate_par slight n X)) as [|f0 l]; [discriminate|]; cbn [nth_error] in N0; injection N0 as ->;
    eexists; split; [reflexivity|]; cbn [p_stop]; rewrite P, T0; reflexivity|]);
  destruct ST as (s1 & ES & P1); cbn [optimize_par]; rewrite ES, P1; destruct (stop_par_same _ _ _ ES) as (T & _ & I & V & _).
  - exists s1. split; [reflexivity|]. rewrite T, I. split; [lia|exact F].
  - destruct (generation_par_total default_run slight argsort SO rnd NO PO ltac:(repeat constructor) ltac:(cbn; lia) ltac:(right; cbn; lia) g s1 (healthy_stop _ _ _ H ES)) as (s2 & G & H2). rewrite G.
    destruct (generation_counts _ _ _ _ _ _ _ G) as (off & T2 & O2 & LO & V2 & I2 & _ & PS & X & EX). assert (LX : List.length X = 10) by (rewrite EX in LO; unfold evaluate_par in LO; rewrite indexed_map_length in LO; exact LO).
    destruct (IH (S g) s2 H2) as (r & R1 & R2 & R3).
    + eapply generation_counted; [|exact G]. eapply stop_counted; eauto.
    + congruence.
    + rewrite T2, T. apply Forall_app. split; [exact F|]. rewrite EX. apply slight_small. lia.
    + right. exists (p_evals s1), X. split; [exact LX|]. now rewrite O2, EX.
    + exists r. split; [exact R1|]. split; [lia|exact R3].
Qed.

Lemma healthy_construct c fit s0 e0 p0 X s : Forall (in_domain (m_vs c)) X -> List.length X = m_mu c -> construct c fit s0 e0 p0 X = Some s -> healthy c s.
Proof.
  intros D L H. destruct (construct_forget _ _ _ _ _ _ _ H) as (I & _). destruct (init_inv c fit X (forget s) D I) as (J & PT & EV). split; [exact J|].
  apply (f_equal (@List.length _)) in PT. cbn in PT. rewrite map_length in PT. rewrite PT. destruct J as [_ _ _ _ J5]. cbn in J5. unfold evaluated in *. cbn in EV. rewrite map_length in *. lia.
Qed.

(** ** The given parameters *)
Lemma given_raises c fit s0 e0 p0 X : (id_r (m_vs c) <> [] /\ (exists l, s0 = Some l /\ l <> [])) \/ (id_i (m_vs c) <> [] /\ (exists l, e0 = Some l /\ l <> [])) \/ (id_d (m_vs c) <> [] /\ (exists l, p0 = Some l /\ l <> [])) ->
  construct c fit s0 e0 p0 X = None.
Proof.
  intro H. unfold construct, par_columns. set (vs := m_vs c) in *.
  assert (L1 : List.length (default_sigma vs) = List.length (id_r vs)) by (unfold default_sigma, id_r, ids, indexed; apply (filter_flat (fun v => is_real (vkind v))); intro v; destruct (vkind v); reflexivity).
  assert (L2 : List.length (default_eta vs) = List.length (id_i vs)) by (unfold default_eta, id_i, ids, indexed; apply (filter_flat (fun v => is_integer (vkind v))); intro v; destruct (vkind v); reflexivity).
  assert (L3 : List.length (default_prob vs) = Nat.min (List.length (id_d vs)) 1) by (unfold default_prob; destruct (id_d vs) as [|a [|b t]]; reflexivity).
  set (A := List.length (match id_r vs with [] => [] | _ => match s0 with Some l => l | None => default_sigma vs end end)).
  set (B := List.length (match id_i vs with [] => [] | _ => match e0 with Some l => l | None => default_eta vs end end)).
  set (C := List.length (match id_d vs with [] => [] | _ => match p0 with Some l => l | None => default_prob vs end end)).
  assert (HA : match s0 with None => A = List.length (id_r vs) | Some l => id_r vs <> [] -> A = List.length l end) by (unfold A; destruct s0, (id_r vs); cbn [List.length]; try tauto; auto).
  assert (HB : match e0 with None => B = List.length (id_i vs) | Some l => id_i vs <> [] -> B = List.length l end) by (unfold B; destruct e0, (id_i vs); cbn [List.length]; try tauto; auto).
  assert (HC : match p0 with None => C = Nat.min (List.length (id_d vs)) 1 | Some l => id_d vs <> [] -> C = List.length l end) by (unfold C; destruct p0, (id_d vs); cbn [List.length]; try tauto; auto).
  replace (A + B + C =? par_names vs s0 e0 p0) with false; [reflexivity|]. symmetry. apply Nat.eqb_neq. unfold par_names.
  assert (NL : forall l : list Q, l <> [] -> 1 <= List.length l) by (intros [|? ?]; cbn; [tauto|lia]).
  destruct H as [(U & l & -> & V)|[(U & l & -> & V)|(U & l & -> & V)]]; apply NL in V; [specialize (HA U)|specialize (HB U)|specialize (HC U)]; repeat match goal with o : option (list Q) |- _ => destruct o end; lia.
Qed.
Lemma default_constructs c fit X : X <> [] -> exists s, construct c fit None None None X = Some s.
Proof.
  intro H. unfold construct, par_columns. set (vs := m_vs c) in *.
  assert (L1 : List.length (default_sigma vs) = List.length (id_r vs)) by (unfold default_sigma, id_r, ids, indexed; apply (filter_flat (fun v => is_real (vkind v))); intro v; destruct (vkind v); reflexivity).
  assert (L2 : List.length (default_eta vs) = List.length (id_i vs)) by (unfold default_eta, id_i, ids, indexed; apply (filter_flat (fun v => is_integer (vkind v))); intro v; destruct (vkind v); reflexivity).
  assert (L3 : List.length (default_prob vs) = Nat.min (List.length (id_d vs)) 1) by (unfold default_prob; destruct (id_d vs) as [|a [|b t]]; reflexivity).
  match goal with |- context [?n =? ?k] => replace (n =? k) with true end.
  2: { symmetry. apply Nat.eqb_eq. unfold par_names. f_equal; [f_equal|]; [destruct (id_r vs)|destruct (id_i vs)|destruct (id_d vs)]; auto. }
  set (p := evaluate_par fit 0 _). assert (NE : map (fun a : ind * Q => (i_x (fst a), snd a)) p <> []).
  { intro E. apply map_eq_nil in E. unfold p, evaluate_par in E. apply map_eq_nil in E. apply (f_equal (@List.length _)) in E. rewrite indexed_length, map_length in E. destruct X; [tauto|discriminate]. }
  destruct (map _ p) as [|a t]; [tauto|]. unfold first_best. cbn. destruct (fold_left _ t a). eauto.
Qed.
