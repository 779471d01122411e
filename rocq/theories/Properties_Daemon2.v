(** C160 - C162: is_running, restart and interrupted starts of the daemon. *)
From Coq Require Import List Bool Arith Lia.
From Verif Require Import Model_Daemon Properties_Daemon.
Import ListNotations.

(** C160: is_running answers whether a daemon of this pid file is running.  Refuted: after a kill, another process can
    get the number. *)
Definition running (w : world) : Prop := exists p, daemon w p = true.
Theorem C160_is_running_refuted :
  exists others es w, history (boot others) es w /\ ~ running w /\ is_running w = Some true.
Proof.
  exists (fun _ => false), [EStart 5; EKill 5; ESpawn 5]. eexists.
  split; [repeat (apply h_cons; [first [exact I|reflexivity|split; [discriminate|reflexivity]]|]); apply h_nil|].
  split; [|reflexivity]. intros [p H]. cbn in H. unfold setb in H. destruct (p =? 5); discriminate.
Qed.
Print Assumptions C160_is_running_refuted.
(** What does hold: it never raises, it is right about live daemons, and right altogether as long as the recorded number
    belongs to a daemon or to nobody. *)
Theorem C160_is_running_partial :
  forall others es w, history (boot others) es w ->
    (exists b, is_running w = Some b) /\
    (running w -> is_running w = Some true) /\
    ((forall p, pf w = Pid p -> alive w p = true -> daemon w p = true) -> is_running w = Some true <-> running w) /\
    (is_running w = Some true -> exists p, pf w = Pid p /\ alive w p = true).
Proof.
  intros others es w H. destruct (history_J _ _ _ H (boot_J others)) as (A & B & C).
  assert (R : running w -> is_running w = Some true).
  { intros [p Hp]. destruct (A p Hp) as (N & X & Y). unfold is_running, get_pid. rewrite Y. now rewrite X. }
  split; [|split; [exact R|split]].
  - unfold is_running, get_pid. destruct (pf w); eauto. congruence.
  - intros Own. split; [|exact R]. unfold is_running, get_pid. destruct (pf w) as [| |p] eqn:E; try discriminate. intros [= X].
    exists p. now apply Own.
  - unfold is_running, get_pid. destruct (pf w) as [| |p] eqn:E; try discriminate. intros [= X]. eauto.
Qed.
Print Assumptions C160_is_running_partial.
Example C160_ex : exists w w', history (boot (fun _ => false)) [EStart 5] w /\ running w /\
  history (boot (fun _ => false)) [EStart 5; EKill 5] w' /\ is_running w' = Some false /\ (forall p, pf w' = Pid p -> alive w' p = true -> daemon w' p = true).
Proof.
  do 2 eexists. split; [repeat (apply h_cons; [first [exact I|reflexivity|split; [discriminate|reflexivity]]|]); apply h_nil|].
  split; [exists 5; reflexivity|].
  split; [repeat (apply h_cons; [first [exact I|reflexivity|split; [discriminate|reflexivity]]|]); apply h_nil|].
  split; [reflexivity|]. cbn. intros p [= <-]. discriminate.
Qed.

(** C161: restart leaves a newly started daemon.  Refuted whenever there is a daemon to restart: it raises, and no new
    daemon is started. *)
Theorem C161_restart_refuted :
  forall others es w p q, history (boot others) es w -> daemon w p = true -> restart w q = (w, NameError).
Proof.
  intros others es w p q H Hp. unfold restart. now rewrite (C100_stop_refuted _ _ _ _ H Hp).
Qed.
Print Assumptions C161_restart_refuted.
(** What does hold: without a living process under the recorded number (so in particular after a crash), restart starts the
    daemon. *)
Theorem C161_restart_partial :
  forall others es w q, history (boot others) es w -> q <> 0 -> alive w q = false -> (forall p, pf w = Pid p -> alive w p = false) ->
    snd (restart w q) = Returned /\ daemon (fst (restart w q)) q = true /\ alive (fst (restart w q)) q = true /\ pf (fst (restart w q)) = Pid q /\
    (forall p, p <> q -> daemon (fst (restart w q)) p = false /\ alive (fst (restart w q)) p = alive w p).
Proof.
  intros others es w q H Nq Hq D. destruct (history_J _ _ _ H (boot_J others)) as (A & B & C).
  assert (ND : forall p, daemon w p = false).
  { intros p. destruct (daemon w p) eqn:E; [|reflexivity]. destruct (A p E) as (_ & X & Y). now rewrite (D p Y) in X. }
  assert (E : restart w q = (World (Pid q) (setb (alive w) q true) (setb (daemon w) q true), Returned)).
  { unfold restart, stop, get_pid. destruct (pf w) as [| |[|p]] eqn:Ep; try congruence.
    - unfold start, start_check, get_pid. now rewrite Ep.
    - rewrite (D _ eq_refl). reflexivity. }
  rewrite E. cbn. rewrite !setb_same. repeat split; auto; rewrite setb_other by assumption; auto.
Qed.
Print Assumptions C161_restart_partial.
Example C161_ex : exists w, history (boot (fun _ => false)) [EStart 5; EKill 5] w /\ alive w 7 = false /\ (forall p, pf w = Pid p -> alive w p = false) /\
  start w 7 = (w, Exit1).
Proof.
  eexists. split; [repeat (apply h_cons; [first [exact I|reflexivity|split; [discriminate|reflexivity]]|]); apply h_nil|].
  split; [reflexivity|]. split; [|reflexivity]. intros p [= <-]. reflexivity.
Qed.

(** C162: after a start that was interrupted, the daemon can be started again, if need be after stop.  Refuted for the
    moment at which the pid file has been created but not written: whatever happens later, every start, stop, restart and
    is_running raises ValueError and no daemon ever runs. *)
Theorem C162_interrupted_start_refuted :
  forall others es w p w1, history (boot others) es w -> start_killed w p = Some w1 ->
    forall es' w2, history w1 es' w2 ->
      (forall q, start w2 q = (w2, ValueError)) /\ stop w2 = (w2, ValueError, None) /\ (forall q, restart w2 q = (w2, ValueError)) /\
      is_running w2 = None /\ ~ running w2.
Proof.
  intros others es w p w1 H HK es' w2 H2.
  assert (I : pf w1 = Garbage /\ ~ running w1).
  { destruct (history_J _ _ _ H (boot_J others)) as (A & B & C). unfold start_killed in HK. destruct (start_check w) eqn:E; [discriminate|].
    injection HK as <-. split; [reflexivity|]. intros [q Hq]. cbn in Hq. destruct (A q Hq) as (N & X & Y).
    unfold start_check, get_pid in E. rewrite Y in E. destruct q; congruence. }
  clear H HK. revert I. induction H2 as [w1|w1 e es2 w2 P H2 IH].
  - intros [G NR]. assert (ES : stop w1 = (w1, ValueError, None)) by (unfold stop, get_pid; now rewrite G).
    split; [intros q; unfold start, start_check, get_pid; now rewrite G|]. split; [exact ES|].
    split; [intros q; unfold restart; now rewrite ES|]. split; [|exact NR]. unfold is_running, get_pid. now rewrite G.
  - intros [G NR]. apply IH. destruct e as [q| |q|q|q]; cbn.
    + unfold start, start_check, get_pid. rewrite G. auto.
    + unfold stop, get_pid. rewrite G. auto.
    + unfold exits, delpid. rewrite G. replace (if daemon w1 q then w1 else w1) with w1 by (destruct (daemon w1 q); reflexivity). cbn.
      split; [exact G|]. intros [r Hr]. cbn in Hr. apply setb_true in Hr as [[_ X]|[_ X]]; [discriminate|]. apply NR. now exists r.
    + split; [exact G|]. intros [r Hr]. cbn in Hr. apply setb_true in Hr as [[_ X]|[_ X]]; [discriminate|]. apply NR. now exists r.
    + split; [exact G|]. exact NR.
Qed.
Print Assumptions C162_interrupted_start_refuted.
(** What does hold: killed at any other moment, that is before the file is created (nothing has changed) or after it was written
    (the file names a dead process), the next stop returns and the start after it succeeds. *)
Theorem C162_interrupted_start_partial :
  forall others es w p q w1, history (boot others) es w -> start_check w = None -> alive w p = false -> q <> 0 -> alive w1 q = false ->
    w1 = w \/ w1 = killed (daemonize w p) p ->
    snd (fst (stop w1)) = Returned /\ snd (start (fst (fst (stop w1))) q) = Returned /\
    daemon (fst (start (fst (fst (stop w1))) q)) q = true.
Proof.
  intros others es w p q w1 H HC Hp Nq Hq [->| ->].
  - destruct (history_J _ _ _ H (boot_J others)) as (A & B & C). unfold start_check, get_pid in HC.
    unfold stop, get_pid. destruct (pf w) as [| |[|r]] eqn:E; try congruence; try discriminate HC.
    cbn. unfold start, start_check, get_pid. rewrite E. cbn. rewrite setb_same. auto.
  - unfold stop, get_pid. cbn. destruct p as [|p].
    + cbn. rewrite setb_same. auto.
    + rewrite setb_same. cbn. rewrite setb_same. auto.
Qed.
Print Assumptions C162_interrupted_start_partial.
Example C162_ex : exists w1 w2, start_killed (boot (fun _ => false)) 5 = Some w1 /\ history w1 [EStart 6; EStop; EStart 7] w2.
Proof.
  do 2 eexists. split; [reflexivity|]. repeat (apply h_cons; [first [exact I|reflexivity|split; [discriminate|reflexivity]]|]); apply h_nil.
Qed.
