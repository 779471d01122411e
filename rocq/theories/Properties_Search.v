(** Properties of the hyper-parameter search (C64, C144). *)
From Coq Require Import List Bool Arith ZArith QArith String Lia Lqa.
From Verif Require Import Model_Search.
Import ListNotations.

(** ** Specification *)
(** [a] is at most [b], as extended numbers; nan is not comparable. *)
Definition at_most (a b : val) : Prop :=
  match a, b with
  | NaN, _ | _, NaN => False
  | NInf, _ | _, PInf => True
  | PInf, _ | _, NInf => False
  | Num a, Num b => (a <= b)%Q
  end.
Definition value {P} (o : P * val * Z) : val := snd (fst o).
Definition point {P} (o : P * val * Z) : P := fst (fst o).
Definition calls {P} (l : list (P * val * Z)) : Z := fold_right (fun o n => (snd o + n)%Z) 0%Z l.

Lemma vle_spec a b : vle a b = true <-> at_most a b.
Proof. destruct a, b; cbn; first [apply Qle_bool_iff | split; intros; first [discriminate | tauto | auto]]. Qed.
Lemma at_most_refl a : a <> NaN -> at_most a a.
Proof. destruct a; cbn; auto; try congruence. intros. lra. Qed.
Lemma at_most_trans a b c : at_most a b -> at_most b c -> at_most a c.
Proof. destruct a, b, c; cbn; auto; try tauto. intros. lra. Qed.
Lemma at_most_total a b : a <> NaN -> b <> NaN -> ~ at_most a b -> at_most b a.
Proof. destruct a, b; cbn; auto; try congruence. intros. destruct (Qlt_le_dec q q0); lra. Qed.

Section P.
  Context {P : Type}.
  Variable inner : P -> Z -> P * val * Z.
  Variable draw : nat -> P.
  Variable wait_iter : Z.

  (** What holds between two restarts. *)
  Definition Inv (budget0 budget wait : Z) (best : option (P * val)) (trace : list (P * val * Z)) : Prop :=
    (forall o, In o trace -> value o <> NaN) ->
    budget = (budget0 - calls trace)%Z /\
    exists before after x f n, trace = before ++ (x, f, n) :: after /\ best = Some (x, f) /\
      (forall o, In o before -> at_most f (value o)) /\ (forall o, In o after -> ~ at_most (value o) f) /\
      Z.of_nat (List.length after) = wait.
  Lemma calls_app a b : calls (P := P) (a ++ b) = (calls a + calls b)%Z.
  Proof. induction a; cbn; auto. unfold calls in *. cbn. rewrite IHa. lia. Qed.

  Lemma inv_step budget0 budget wait best trace x f n :
    trace <> [] -> Inv budget0 budget wait best trace ->
    Inv budget0 (budget - n) (match best with Some (_, b) => if vle f b then 0%Z else (wait + 1)%Z | None => wait end)
        (match best with Some (_, b) => if vle f b then Some (x, f) else best | None => None end) (trace ++ [(x, f, n)]).
  Proof.
    intros N H NN. destruct H as (Eb & before & after & x0 & f0 & n0 & Et & -> & Hb & Ha & Hw); [intros; apply NN; rewrite in_app_iff; auto|].
    split; [rewrite calls_app; cbn; lia|]. assert (Nf : f <> NaN) by (apply (NN (x, f, n)); rewrite in_app_iff; cbn; auto).
    destruct (vle f f0) eqn:E.
    - apply vle_spec in E. exists trace, [], x, f, n. repeat split; auto.
      intros o Ho. subst trace. apply in_app_iff in Ho as [Ho|[<-|Ho]]; [eapply at_most_trans; eauto|exact E|].
      eapply at_most_trans; [exact E|]. apply at_most_total; [apply NN; rewrite !in_app_iff; cbn; auto| |now apply Ha]. intros Q0. rewrite Q0 in E. destruct f; cbn in E; tauto.
    - exists before, (after ++ [(x, f, n)]), x0, f0, n0. rewrite Et, <- app_assoc. repeat split; auto.
      + intros o Ho. apply in_app_iff in Ho as [Ho|[<-|[]]]; auto. cbn. intros A. apply vle_spec in A. congruence.
      + rewrite app_length. cbn. lia.
  Qed.

  Lemma restarts_spec k : forall i start best wait budget trace budget0 res tr,
    (i = 0%nat -> best = None /\ trace = [] /\ wait = 0%Z /\ budget = budget0) ->
    (i <> 0%nat -> trace <> [] /\ Inv budget0 budget wait best trace) ->
    (forall pre post, trace = pre ++ post -> post <> [] -> pre <> [] -> (calls pre < budget0)%Z) ->
    (trace <> [] -> (0 < budget)%Z /\ budget = (budget0 - calls trace)%Z) ->
    restarts inner draw wait_iter k i start best wait budget trace = (res, tr) ->
    (exists more, tr = trace ++ more /\ (List.length more <= k)%nat /\ (k <> 0%nat -> more <> [])) /\
    (forall pre post, tr = pre ++ post -> post <> [] -> pre <> [] -> (calls pre < budget0)%Z) /\
    (tr <> [] -> exists wait' budget', Inv budget0 budget' wait' res tr /\
       (List.length tr = (List.length trace + k)%nat \/ (budget0 <= calls tr)%Z \/ (wait_iter <= wait')%Z)).
  Proof.
    induction k as [|k IH]; intros i start best wait budget trace budget0 res tr H0 H1 Hpre Hb H; cbn [restarts] in H.
    - injection H as -> ->. split; [exists []; rewrite app_nil_r; repeat split; auto; congruence|]. split; [exact Hpre|].
      intros N. destruct (Nat.eq_dec i 0) as [E|E]; [destruct (H0 E) as (_ & -> & _); congruence|]. destruct (H1 E) as (_ & I). exists wait, budget. split; auto.
    - set (st := if Nat.eqb i 0 then start else draw i) in H. destruct (inner st budget) as [[x f] n] eqn:Ei.
      set (best' := if Nat.eqb i 0 then Some (x, f) else match best with Some (_, b) => if vle f b then Some (x, f) else best | None => None end).
      set (wait' := if Nat.eqb i 0 then wait else match best with Some (_, b) => if vle f b then 0%Z else (wait + 1)%Z | None => wait end).
      assert (Epair : (if Nat.eqb i 0 then (Some (x, f), wait)
          else match best with Some (_, b) => if vle f b then (Some (x, f), 0%Z) else (best, (wait + 1)%Z) | None => (None, wait) end) = (best', wait')).
      { unfold best', wait'. destruct (Nat.eqb i 0); auto. destruct best as [[? b]|]; auto. destruct (vle f b); auto. }
      rewrite Epair in H. clear Epair.
      assert (I' : Inv budget0 (budget - n) wait' best' (trace ++ [(x, f, n)])).
      { destruct (Nat.eq_dec i 0) as [E|E].
        - destruct (H0 E) as (-> & -> & -> & ->). unfold best', wait'. rewrite E. cbn. intros NN. split; [cbn; lia|]. exists [], [], x, f, n. repeat split; auto; intros o [].
        - destruct (H1 E) as (Nt & I). unfold best', wait'. destruct (Nat.eqb_spec i 0); [congruence|]. apply inv_step; auto. }
      assert (Eb : (budget - n = budget0 - calls (trace ++ [(x, f, n)]))%Z).
      { rewrite calls_app. cbn. destruct (Nat.eq_dec i 0) as [E|E]; [destruct (H0 E) as (_ & -> & _ & ->); cbn; lia|]. destruct (H1 E) as (Nt & _). destruct (Hb Nt). lia. }
      assert (Hpre' : forall pre post, trace ++ [(x, f, n)] = pre ++ post -> post <> [] -> pre <> [] -> (calls pre < budget0)%Z).
      { intros pre post E Np Npre. destruct (exists_last Np) as (post' & z & ->). rewrite app_assoc in E. apply app_inj_tail in E as (E & _).
        destruct post' as [|w post']; [rewrite app_nil_r in E; subst pre; destruct (Hb Npre); lia|]. eapply Hpre; eauto. discriminate. }
      destruct ((budget - n <=? 0)%Z || (wait_iter <=? wait')%Z) eqn:Es.
      + injection H as <- <-. split; [exists [(x, f, n)]; repeat split; auto; cbn; try lia; discriminate|]. split; [exact Hpre'|].
        intros _. exists wait', (budget - n)%Z. split; auto. right. apply orb_true_iff in Es as [Es|Es]; apply Z.leb_le in Es; [left; lia|right; auto].
      + apply orb_false_iff in Es as (Es1 & Es2). apply Z.leb_gt in Es1, Es2.
        destruct (IH (S i) st best' wait' (budget - n)%Z (trace ++ [(x, f, n)]) budget0 res tr) as (A & B & C); auto.
        * intros F; discriminate.
        * intros _. split; auto. destruct trace; discriminate.
        * split; [|split; [exact B|]].
          { destruct A as (more & -> & Lm & _). exists ((x, f, n) :: more). rewrite <- app_assoc. split; [reflexivity|]. split; [cbn; lia|discriminate]. }
          intros Nt. destruct (C Nt) as (w & b & I & D). exists w, b. split; auto. rewrite app_length in D. cbn in D. destruct D as [D|D]; [left; lia|auto].
  Qed.

  (** C64: with BFGS at most random_start inner runs are made; the search returns a point that the
      inner optimizer found, with a negated log-likelihood that no other run undercuts. *)
  Theorem C64_best_restart random_start start budget res runs :
    random_start <> 0%nat -> bfgs inner draw wait_iter random_start start budget = (res, runs) ->
    (forall o, In o runs -> value o <> NaN) ->
    (1 <= List.length runs <= random_start)%nat /\
    exists o, In o runs /\ res = Some (point o, value o) /\ forall o', In o' runs -> at_most (value o) (value o').
  Proof.
    intros N H NN. unfold bfgs in H.
    destruct (restarts_spec random_start 0 start None 0 budget [] budget res runs) as ((more & Em & Lm & Nm) & _ & C); auto; try congruence.
    { intros pre post E Np. destruct pre, post; try discriminate; congruence. }
    cbn in Em. subst more. specialize (Nm N). split; [destruct runs; [congruence|cbn in *; lia]|].
    destruct (C Nm) as (w & b & I & _). destruct (I NN) as (_ & before & after & x & f & n & Et & -> & Hb & Ha & _).
    exists (x, f, n). split; [subst; apply in_app_iff; cbn; auto|]. split; [reflexivity|].
    intros o' Ho. assert (Nf : f <> NaN) by (apply (NN (x, f, n)); subst; apply in_app_iff; cbn; auto).
    assert (No : value o' <> NaN) by auto. subst runs. apply in_app_iff in Ho as [Ho|[<-|Ho]]; auto; [now apply at_most_refl|]. apply at_most_total; auto. 
  Qed.
  (** No run is started when the evaluation budget has been used up, and the search ends only after
      random_start runs, or with the budget used up, or when the last wait_iter runs were all worse
      than the result. *)
  Theorem C64_stopping random_start start budget res runs :
    random_start <> 0%nat -> bfgs inner draw wait_iter random_start start budget = (res, runs) ->
    (forall o, In o runs -> value o <> NaN) ->
    (forall pre post, runs = pre ++ post -> pre <> [] -> post <> [] -> (calls pre < budget)%Z) /\
    (List.length runs = random_start \/ (budget <= calls runs)%Z \/
     exists before after x f, runs = before ++ after /\ (wait_iter <= Z.of_nat (List.length after))%Z /\ res = Some (x, f) /\
       forall o, In o after -> ~ at_most (value o) f).
  Proof.
    intros N H NN. unfold bfgs in H.
    destruct (restarts_spec random_start 0 start None 0 budget [] budget res runs) as ((more & Em & Lm & Nm) & Bp & C); auto; try congruence.
    { intros pre post E Np. destruct pre, post; try discriminate; congruence. }
    cbn in Em. subst more. specialize (Nm N). split; [intros; eapply Bp; eauto|].
    destruct (C Nm) as (w & b & I & D). destruct (I NN) as (_ & before & after & x & f & n & Et & -> & Hb & Ha & Hw).
    destruct D as [D|[D|D]]; [left; auto|right; left; auto|]. right. right. exists (before ++ [(x, f, n)]), after, x, f. rewrite <- app_assoc. repeat split; auto. lia.
  Qed.
End P.
Print Assumptions C64_best_restart.
Print Assumptions C64_stopping.
(** random_start = 0 leaves the result unbound. *)
Theorem C64_no_restart {P} inner draw wait_iter (start : P) budget : fst (bfgs inner draw wait_iter 0 start budget) = None.
Proof. reflexivity. Qed.
Print Assumptions C64_no_restart.
(** Three of at most ten restarts: the second is the best, the third worse, and wait_iter = 1 stops. *)
Example C64_example :
  let inner := fun (p : nat) (_ : Z) => match p with 0%nat => (10%nat, PInf, 5%Z) | 1%nat => (11%nat, Num 3, 7%Z) | _ => (12%nat, Num 4, 7%Z) end in
  bfgs inner (fun i => i) 1 10 0%nat 100 = (Some (11%nat, Num 3), [(10%nat, PInf, 5%Z); (11%nat, Num 3, 7%Z); (12%nat, Num 4, 7%Z)]).
Proof. reflexivity. Qed.

(** ** C144: the CMA optimizer *)
Lemma run_running {P} (off : nat -> list P) ll budget fuel : forall g s, snd (run off ll budget fuel g s) = false.
Proof. induction fuel; intros; cbn; auto. Qed.
(** With CMA the search goes on for ever: after any number of generations it is still running. *)
Theorem C144_never_ends_refuted {P} (off : nat -> list P) ll budget random_start start : random_start <> 0%nat ->
  forall fuel, snd (cma_optimize off ll budget fuel random_start start) = false.
Proof. intros N fuel. destruct random_start; [congruence|]. apply run_running. Qed.
Print Assumptions C144_never_ends_refuted.
Lemma run_evals {P} (off : nat -> list P) ll budget fuel : (forall g, off g <> []) -> forall g s, (c_evals s + Z.of_nat fuel <= c_evals (fst (run off ll budget fuel g s)))%Z.
Proof.
  intros N. induction fuel; intros g s; cbn [run fst]; [lia|]. unfold stop_requested. eapply Z.le_trans; [|apply IHfuel].
  unfold generation. destruct (match smallest ll (off g) with Some _ => _ | None => _ end). cbn. specialize (N g). destruct (off g); [congruence|]. cbn [List.length]. lia.
Qed.
(** So it evaluates more often than any budget allows. *)
Theorem C144_budget_refuted {P} (off : nat -> list P) ll budget random_start start : random_start <> 0%nat -> (forall g, off g <> []) ->
  exists fuel, (budget < c_evals (fst (cma_optimize off ll budget fuel random_start start)))%Z /\ snd (cma_optimize off ll budget fuel random_start start) = false.
Proof.
  intros Nr N. exists (S (Z.to_nat budget)). split; [|now apply C144_never_ends_refuted]. destruct random_start; [congruence|]. unfold cma_optimize.
  pose proof (run_evals off ll budget (S (Z.to_nat budget)) N 0 (cma_init start)). cbn [c_evals cma_init] in H. lia.
Qed.
Print Assumptions C144_budget_refuted.
(** What it keeps meanwhile is the point with the smallest log-likelihood seen, not the largest. *)
Lemma vneg_vneg v : at_most (vneg (vneg v)) v /\ at_most v (vneg (vneg v)) \/ v = NaN.
Proof. destruct v; cbn; auto; left; lra. Qed.
Lemma smallest_spec {P} (ll : P -> val) l : (forall x, In x l -> ll x <> NaN) -> l <> [] -> exists x, smallest ll l = Some x /\ In x l /\ forall y, In y l -> at_most (fitness ll x) (fitness ll y).
Proof.
  assert (NF : forall x, ll x <> NaN -> fitness ll x <> NaN) by (intros x; unfold fitness; destruct (ll x); cbn; congruence).
  induction l as [|a l IH]; intros NN N; [congruence|]. cbn [smallest]. destruct l as [|b l].
  - exists a. cbn. repeat split; auto. intros y [<-|[]]. apply at_most_refl. apply NF, NN. cbn; auto.
  - destruct IH as (y & E & Iy & Hy); [intros; apply NN; cbn; auto|discriminate|]. rewrite E. destruct (vle (fitness ll a) (fitness ll y)) eqn:V.
    + apply vle_spec in V. exists a. repeat split; auto; [cbn; auto|]. intros z [<-|Hz]; [apply at_most_refl, NF, NN; cbn; auto|]. eapply at_most_trans; eauto.
    + exists y. repeat split; auto; [right; auto|]. intros z [<-|Hz]; auto. apply at_most_total; [apply NF, NN; cbn; auto|apply NF, NN; right; auto|]. rewrite <- vle_spec. congruence.
Qed.
Lemma vgt_spec a b : a <> NaN -> b <> NaN -> (vgt a b = true <-> ~ at_most a b).
Proof. intros Ha Hb. unfold vgt. rewrite <- vle_spec. destruct a, b; try congruence; destruct (vle _ _); cbn; split; intros; try congruence; try discriminate; auto; exfalso; apply H; auto. Qed.
Theorem C144_keeps_the_worst_refuted {P} (off : nat -> list P) ll budget random_start start fuel : random_start <> 0%nat -> (forall g, off g <> []) -> (forall x, ll x <> NaN) ->
  let s := fst (cma_optimize off ll budget fuel random_start start) in
  forall g x, (g < fuel)%nat -> In x (off g) -> at_most (c_fopt s) (ll x) /\ (c_fopt s = PInf \/ at_most (ll (c_xopt s)) (c_fopt s)).
Proof.
  intros Nr N NN. destruct random_start; [congruence|]. unfold cma_optimize.
  assert (NF : forall x, fitness ll x <> NaN) by (intros x; unfold fitness; specialize (NN x); destruct (ll x); cbn; congruence).
  assert (FL : forall x, at_most (fitness ll x) (ll x) /\ at_most (ll x) (fitness ll x)) by (intros x; destruct (vneg_vneg (ll x)) as [H|H]; [exact H|now apply NN in H]).
  assert (G : forall fuel g0 s, c_fopt s <> NaN -> (c_fopt s = PInf \/ at_most (ll (c_xopt s)) (c_fopt s)) ->
    let s' := fst (run off ll budget fuel g0 s) in
    at_most (c_fopt s') (c_fopt s) /\ (c_fopt s' = PInf \/ at_most (ll (c_xopt s')) (c_fopt s')) /\
    forall g x, (g0 <= g < g0 + fuel)%nat -> In x (off g) -> at_most (c_fopt s') (ll x)).
  { clear fuel. induction fuel as [|fuel IH]; intros g0 s Ns Xs; cbn [run fst].
    { repeat split; auto; [now apply at_most_refl|intros; lia]. }
    unfold stop_requested. destruct (smallest_spec ll (off g0)) as (y & Ey & Iy & Hy); auto.
    assert (Gen : at_most (c_fopt (generation off ll budget g0 s)) (c_fopt s) /\ at_most (c_fopt (generation off ll budget g0 s)) (fitness ll y) /\
      c_fopt (generation off ll budget g0 s) <> NaN /\ (c_fopt (generation off ll budget g0 s) = PInf \/ at_most (ll (c_xopt (generation off ll budget g0 s))) (c_fopt (generation off ll budget g0 s)))).
    { unfold generation. rewrite Ey. destruct (vgt (c_fopt s) (fitness ll y)) eqn:V; cbn.
      - apply vgt_spec in V; auto. split; [apply at_most_total; auto|]. split; [now apply at_most_refl|]. split; [auto|]. right; apply FL.
      - assert (at_most (c_fopt s) (fitness ll y)). { destruct (vle (c_fopt s) (fitness ll y)) eqn:W; [now apply vle_spec|]. exfalso. assert (vgt (c_fopt s) (fitness ll y) = true) by (apply vgt_spec; auto; rewrite <- vle_spec; congruence). congruence. }
        repeat split; auto. now apply at_most_refl. }
    destruct Gen as (G1 & G2 & G3 & G4). destruct (IH (S g0) (generation off ll budget g0 s) G3 G4) as (A & B & C). split; [eapply at_most_trans; eauto|]. split; auto.
    intros g x Hg Hx. destruct (Nat.eq_dec g g0) as [->|]; [|apply (C g x); auto; lia].
    eapply at_most_trans; [exact A|]. eapply at_most_trans; [exact G2|]. eapply at_most_trans; [apply (Hy x Hx)|]. apply FL. }
  intros g x Hg Hx. destruct (G fuel 0%nat (cma_init start)) as (A & B & C); [discriminate|now left|]. split; [apply (C g x); auto; lia|exact B].
Qed.
Print Assumptions C144_keeps_the_worst_refuted.
Example C144_example : let s := fst (cma_optimize (fun _ => [1%nat; 2%nat]) (fun x => match x with 1%nat => Num (-5) | _ => Num (-1) end) 10 3 2 0%nat) in
  c_xopt s = 1%nat /\ c_evals s = 6%Z.
Proof. split; reflexivity. Qed.
