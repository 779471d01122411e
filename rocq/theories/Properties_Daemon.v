(** Properties C73, C100, C101: the daemon. *)
From Coq Require Import List Bool Arith Lia.
From Verif Require Import Model_Daemon.
Import ListNotations.

Definition J (w : world) : Prop :=
  (forall p, daemon w p = true -> p <> 0 /\ alive w p = true /\ pf w = Pid p) /\ pf w <> Garbage /\ pf w <> Pid 0.

Lemma setb_true f p b q : setb f p b q = true -> (q = p /\ b = true) \/ (q <> p /\ f q = true).
Proof. unfold setb. destruct (q =? p) eqn:E; [apply Nat.eqb_eq in E|apply Nat.eqb_neq in E]; auto. Qed.
Lemma setb_other f p b q : q <> p -> setb f p b q = f q.
Proof. intros H. unfold setb. apply Nat.eqb_neq in H. now rewrite H. Qed.
Lemma setb_same f p b : setb f p b p = b.
Proof. unfold setb. now rewrite Nat.eqb_refl. Qed.

Lemma happen_J w e : J w -> possible w e -> J (happen w e).
Proof.
  intros (A & B & C) P. destruct e as [p| |p|p|p]; cbn in *.
  - unfold start, start_check, get_pid. destruct (pf w) as [| |[|q]] eqn:Ep; cbn; try congruence.
    + split; [|split; discriminate || (intros [= ?]; lia)]. cbn. intros q H. apply setb_true in H as [[-> _]|[N H]].
      * rewrite setb_same. split; [lia|auto].
      * destruct (A q H) as (_ & _ & X). congruence.
    + unfold J. rewrite Ep. split; [exact A|]. split; discriminate.
  - unfold stop, get_pid. destruct (pf w) as [| |[|q]] eqn:Ep; cbn; try congruence.
    + unfold J. rewrite Ep. split; [exact A|]. split; discriminate.
    + destruct (alive w (S q)) eqn:Ea; cbn.
      * unfold J. rewrite Ep. split; [exact A|]. split; discriminate.
      * split; [|split; discriminate]. cbn. intros r H. destruct (A r H) as (_ & X & Y). injection Y as <-. congruence.
  - unfold exits, delpid. destruct (daemon w p) eqn:Ed.
    + destruct (A p Ed) as (_ & _ & Ep). rewrite Ep, Nat.eqb_refl. cbn. split; [|split; discriminate].
      cbn. intros q H. apply setb_true in H as [[_ ?]|[N H]]; [discriminate|]. destruct (A q H) as (_ & _ & X). congruence.
    + split; [|split; assumption]. cbn. intros q H. apply setb_true in H as [[_ ?]|[N H]]; [discriminate|].
      destruct (A q H) as (X & Y & Z). rewrite setb_other by assumption. auto.
  - split; [|split; assumption]. cbn. intros q H. apply setb_true in H as [[_ ?]|[N H]]; [discriminate|].
    destruct (A q H) as (X & Y & Z). rewrite setb_other by assumption. auto.
  - split; [|split; assumption]. cbn. intros q H. destruct (A q H) as (X & Y & Z). split; auto. split; auto.
    unfold setb. destruct (q =? p); auto.
Qed.
Lemma history_J w es w' : history w es w' -> J w -> J w'.
Proof. induction 1; auto. intros Hj. apply IHhistory. now apply happen_J. Qed.
Lemma boot_J others : J (boot others).
Proof. split; [discriminate|split; discriminate]. Qed.

(** C73: after every sequence of complete start and stop calls, terminations, kills and unrelated
    processes coming up, there is at most one live daemon, its number is in the pid file, and
    while there is one every start refuses without changing anything; start never fails in
    another way than refusing. *)
Theorem C73_at_most_one :
  forall others es w, history (boot others) es w ->
    (forall p q, daemon w p = true -> daemon w q = true -> p = q) /\
    (forall p, daemon w p = true -> alive w p = true /\ pf w = Pid p /\ forall q, start w q = (w, Exit1)) /\
    (forall q, snd (start w q) = Returned \/ snd (start w q) = Exit1).
Proof.
  intros others es w H. destruct (history_J _ _ _ H (boot_J others)) as (A & B & C). split; [|split].
  - intros p q Hp Hq. destruct (A p Hp) as (_ & _ & X), (A q Hq) as (_ & _ & Y). congruence.
  - intros p Hp. destruct (A p Hp) as (N & X & Y). split; auto. split; auto. intros q. unfold start, start_check, get_pid. rewrite Y.
    destruct p; [congruence|reflexivity].
  - intros q. unfold start, start_check, get_pid. destruct (pf w) as [| |[|p]]; cbn; auto; congruence.
Qed.
Print Assumptions C73_at_most_one.

Example daemon_case :
  exists w, history (boot (fun p => p =? 3)) [EStart 5; EKill 5; ESpawn 6; EStart 7; EStop; EStart 8] w /\ daemon w 8 = true /\ daemon w 5 = false.
Proof.
  eexists. split; [repeat (apply h_cons; [first [exact I|reflexivity|split; [discriminate|reflexivity]]|]); apply h_nil|]. split; reflexivity.
Qed.

(** C100, full statement (refuted): stop of a live daemon ends it, removes the pid file and
    returns.  In every reachable state with a live daemon stop raises NameError right after it has
    sent the first signal. *)
Theorem C100_stop_refuted :
  forall others es w p, history (boot others) es w -> daemon w p = true -> stop w = (w, NameError, Some p).
Proof.
  intros others es w p H Hp. destruct (history_J _ _ _ H (boot_J others)) as (A & _). destruct (A p Hp) as (N & X & Y).
  unfold stop, get_pid. rewrite Y. destruct p; [congruence|]. now rewrite X.
Qed.
Print Assumptions C100_stop_refuted.
(** And if the number of a daemon that was killed has been given to another process, stop sends
    the signal to that process. *)
Theorem C100_wrong_process_refuted :
  exists others es w p, history (boot others) es w /\ alive w p = true /\ daemon w p = false /\ snd (stop w) = Some p.
Proof.
  exists (fun _ => false), [EStart 5; EKill 5; ESpawn 5]. eexists. exists 5.
  split; [repeat (apply h_cons; [first [exact I|reflexivity|split; [discriminate|reflexivity]]|]); apply h_nil|]. repeat split; reflexivity.
Qed.
Print Assumptions C100_wrong_process_refuted.
(** What does hold: the daemon gets the signal, and when its handler has run it is gone and so is
    the pid file; and if no process with the recorded number lives, stop returns and leaves no
    pid file, so that the next start succeeds. *)
Theorem C100_stop_partial :
  forall others es w, history (boot others) es w ->
    (forall p, daemon w p = true ->
       snd (stop w) = Some p /\ alive (exits (fst (fst (stop w))) p) p = false /\ pf (exits (fst (fst (stop w))) p) = NoFile) /\
    ((forall p, pf w = Pid p -> alive w p = false) ->
       snd (fst (stop w)) = Returned /\ snd (stop w) = None /\ pf (fst (fst (stop w))) = NoFile /\
       forall q, snd (start (fst (fst (stop w))) q) = Returned).
Proof.
  intros others es w H. destruct (history_J _ _ _ H (boot_J others)) as (A & B & C). split.
  - intros p Hp. rewrite (C100_stop_refuted _ _ _ _ H Hp). cbn. destruct (A p Hp) as (N & X & Y). split; auto.
    unfold exits, delpid. rewrite Hp, Y, Nat.eqb_refl. cbn. split; auto. apply setb_same.
  - intros D. unfold stop, get_pid. destruct (pf w) as [| |[|p]] eqn:Ep; cbn; try congruence.
    + split; auto. split; auto. split; auto. intros q. unfold start, start_check, get_pid. now rewrite Ep.
    + rewrite (D _ eq_refl). cbn. auto.
Qed.
Print Assumptions C100_stop_partial.

(** C101, full statement (refuted): two callers that start the daemon at the same time do not get
    two daemons.  Both can find no pid file; then two daemons run, only one of which is recorded. *)
Theorem C101_race_refuted :
  forall others p q, p <> 0 -> q <> 0 -> p <> q -> others p = false -> others q = false ->
    let '(w, a, b) := start_race (boot others) p q in
    a = Returned /\ b = Returned /\ daemon w p = true /\ daemon w q = true /\ pf w = Pid q.
Proof.
  intros others p q Np Nq N Hp Hq. cbn. split; auto. split; auto. split; [|split; auto using setb_same].
  rewrite setb_other by assumption. apply setb_same.
Qed.
Print Assumptions C101_race_refuted.
(** What does hold: if a live daemon is recorded, both refuse. *)
Theorem C101_race_partial :
  forall others es w p q r, history (boot others) es w -> daemon w r = true -> start_race w p q = (w, Exit1, Exit1).
Proof.
  intros others es w p q r H Hr. destruct (history_J _ _ _ H (boot_J others)) as (A & _). destruct (A r Hr) as (N & X & Y).
  unfold start_race, start_check, get_pid. rewrite Y. destruct r; [congruence|reflexivity].
Qed.
Print Assumptions C101_race_partial.
