(** Properties C65, C66, C97, C98: saving and loading an optimizer. *)
From Coq Require Import List Bool Arith Lia.
From Verif Require Import Model_Checkpoint Proofs_Checkpoint.
Import ListNotations.

(** A toy dill that has all the properties assumed below: numbers are written shifted by one and
    the stream ends with 0. *)
Module Toy.
  Notation tobj := (obj nat nat nat bool bool).
  Fixpoint strip (b : list nat) : option (list nat) :=
    match b with
    | [] => None
    | 0 :: b => match b with [] => Some [] | _ => None end
    | S n :: b => option_map (cons n) (strip b)
    end.
  Definition seal (b : list nat) : list nat := map S b ++ [0].
  Definition dumps (v : dval nat) : option (list nat) := match v with DLive n => Some [0; n] | DBytes b => Some (1 :: b) end.
  Definition loads (b : list nat) : option (dval nat) := match b with [0; n] => Some (DLive n) | 1 :: b => Some (DBytes b) | _ => None end.
  Definition dumpL (l : nat) : option (list nat) := Some [l].
  Definition loadL (b : list nat) : option nat := match b with [l] => Some l | _ => None end.
  Definition wrap (f : bool) : bool := negb f.
  Definition ebool (o : option bool) : nat := match o with None => 0 | Some true => 1 | Some false => 2 end.
  Definition dbool (n : nat) : option bool := match n with 0 => None | 1 => Some true | _ => Some false end.
  Definition edata (d : option (dval nat)) : list nat := match d with None => [0] | Some (DLive n) => [1; n] | Some (DBytes b) => 2 :: b end.
  Definition ddata (b : list nat) : option (option (dval nat)) := match b with [0] => Some None | [1; n] => Some (Some (DLive n)) | 2 :: b => Some (Some (DBytes b)) | _ => None end.
  Definition elog (l : lval nat) : list nat := match l with LLive n => [0; n] | LBytes b => 1 :: b end.
  Definition dlog (b : list nat) : option (lval nat) := match b with [0; n] => Some (LLive n) | 1 :: b => Some (LBytes b) | _ => None end.
  (** an optimizer whose [other] is 0 cannot be pickled *)
  Definition pickle (o : tobj) : list nat * bool :=
    if other o =? 0 then ([1], false)
    else (seal (ebool (oh o) :: ebool (og o) :: ebool (owh o) :: ebool (owg o) :: other o :: length (edata (odata o)) ::
                edata (odata o) ++ elog (olog o)), true).
  Definition unpickle (b : list nat) : option tobj :=
    match strip b with
    | Some (h :: g :: wh :: wg :: k :: n :: r) =>
      match ddata (firstn n r), dlog (skipn n r) with
      | Some d, Some l => Some (Obj d l (dbool h) (dbool g) (dbool wh) (dbool wg) k)
      | _, _ => None
      end
    | _ => None
    end.

  Lemma strip_seal b : strip (seal b) = Some b.
  Proof. induction b as [|n b IH]; auto. cbn. unfold seal in IH. now rewrite IH. Qed.
  Lemma strip_prefix b : forall x y, seal b = x ++ y -> y <> [] -> strip x = None.
  Proof.
    induction b as [|n b IH]; intros [|c x] y E N; auto; unfold seal in *; cbn in E.
    - injection E as <- E. destruct x; [|discriminate]. cbn in E. congruence.
    - injection E as <- E. cbn. now rewrite (IH x y E N).
  Qed.
  Lemma data_rt v p : dumps v = Some p -> loads p = Some v.
  Proof. destruct v; intros H; injection H as <-; reflexivity. Qed.
  Lemma bool_rt o : dbool (ebool o) = o.
  Proof. destruct o as [[]|]; reflexivity. Qed.
  Lemma obj_rt o b : pickle o = (b, true) -> unpickle b = Some o.
  Proof.
    unfold pickle. destruct (other o =? 0); intros H; [discriminate|]. injection H as <-. unfold unpickle. rewrite strip_seal.
    rewrite firstn_app, skipn_app, firstn_all, skipn_all, Nat.sub_diag. cbn [firstn skipn]. rewrite app_nil_r, !bool_rt.
    assert (Hd : ddata (edata (odata o)) = Some (odata o)) by (destruct (odata o) as [[]|]; reflexivity).
    assert (Hl : dlog ([] ++ elog (olog o)) = Some (olog o)) by (destruct (olog o); reflexivity).
    rewrite Hd, Hl. destruct o; reflexivity.
  Qed.
  Lemma obj_prefix o x y ok : pickle o = (x ++ y, ok) -> (ok = false \/ y <> []) -> unpickle x = None.
  Proof.
    unfold pickle. destruct (other o =? 0); intros H N; injection H; intros E1 E2.
    - destruct x as [|a [|b x]]; [reflexivity| |discriminate]. cbn in E2. injection E2; intros; subst; reflexivity.
    - destruct N as [N|N]; [congruence|]. unfold unpickle. now rewrite (strip_prefix _ _ _ E2 N).
  Qed.
End Toy.

Section Properties.
  Context {D Lg K F W : Type}.
  Notation obj := (obj D Lg K F W).
  Notation bytes := (list nat).
  Variable dumps : dval D -> option bytes.
  Variable loads : bytes -> option (dval D).
  Variable dumpL : Lg -> option bytes.
  Variable loadL : bytes -> option Lg.
  Variable wrap : F -> W.
  Variable pickle : obj -> bytes * bool.
  Variable unpickle : bytes -> option obj.
  Variables can_mkdir can_open : bool.
  Notation step := (step D Lg K F W dumps loads dumpL pickle can_mkdir can_open).
  Notation steps := (steps D Lg K F W dumps loads dumpL pickle can_mkdir can_open).
  Notation saving := (saving D Lg K F W dumps loads dumpL pickle can_mkdir can_open).
  Notation load := (load D Lg K F W loads loadL wrap unpickle).

  (** What save pickles: the optimizer with its data and its logger pickled separately. *)
  Definition pickled_form (o o2 : obj) : Prop :=
    exists d l, match odata o with None => d = None | Some v => exists p, dumps v = Some p /\ d = Some (DBytes p) end /\
      (exists live, olog o = LLive live /\ dumpL live = Some l) /\
      o2 = Obj d (LBytes l) (oh o) (og o) (owh o) (owg o) (other o).
  (** A complete checkpoint of o. *)
  Definition new_checkpoint (o : obj) (b : bytes) : Prop := exists o2, pickled_form o o2 /\ pickle o2 = (b, true).

  Lemma staged_form o o2 : staged dumps dumpL o o2 -> pickled_form o o2.
  Proof.
    intros (o1 & S1 & p & Hp & ->). destruct S1 as [[A ->]|(v & q & A & B & ->)]; cbn in Hp.
    - exists None, p. rewrite A. split; auto. split; [destruct (olog o) eqn:El; [eexists; eauto|discriminate]|].
      unfold with_log. now rewrite A.
    - exists (Some (DBytes q)), p. rewrite A. split; eauto. split; [destruct (olog o) eqn:El; [eexists; eauto|discriminate]|]. reflexivity.
  Qed.

  (** C65, full statement (refuted): if the process dies at any point during save, the file holds
      a complete old or a complete new checkpoint.  Whatever the optimizer and the old file are,
      there is a point at which the file is empty, and an empty file cannot be loaded. *)
  Theorem C65_crash_window_refuted :
    can_mkdir = true -> can_open = true -> unpickle [] = None ->
    forall o old, exists s, saving o old s /\ disk s = Some [] /\ load [] = None.
  Proof.
    intros Hm Ho Hu o old. exists (Sys Opened o (Some []) []). split; [|split; auto].
    - eapply steps_next; [eapply steps_next; [apply steps_refl|apply s_mkdir; auto]|]. apply s_open; auto.
    - unfold Model_Checkpoint.load. now rewrite Hu.
  Qed.

  Lemma disk_cases o old s : saving o old s ->
    disk s = old \/ disk s = Some [] \/
    exists x y o2 ok, disk s = Some x /\ pickled_form o o2 /\ pickle o2 = (x ++ y, ok).
  Proof.
    intros H. pose proof (saving_inv _ _ _ _ _ _ _ _ _ H) as I. unfold Inv in I.
    assert (E : content s [] -> disk s = Some []).
    { intros (d & Hd & E). symmetry in E. apply app_eq_nil in E as [-> _]. exact Hd. }
    assert (G : forall q o2 ok r, content s q -> staged dumps dumpL o o2 -> pickle o2 = (q ++ r, ok) ->
               exists x y o2 ok, disk s = Some x /\ pickled_form o o2 /\ pickle o2 = (x ++ y, ok)).
    { intros q o2 ok r (d & Hd & ->) S2 Hp. exists d, (buf s ++ r), o2, ok. split; auto. split; [now apply staged_form|].
      rewrite Hp. now rewrite app_assoc. }
    assert (G0 : forall q o2 ok, content s q -> staged dumps dumpL o o2 -> pickle o2 = (q, ok) ->
               exists x y o2 ok, disk s = Some x /\ pickled_form o o2 /\ pickle o2 = (x ++ y, ok)).
    { intros q o2 ok C S2 Hp. apply (G q o2 ok [] C S2). now rewrite app_nil_r. }
    destruct (at_ s).
    - left. tauto.
    - left. tauto.
    - right; left. tauto.
    - right; left. tauto.
    - right; left. tauto.
    - right; right. destruct I as (_ & S2 & x & C & Hp). eapply G; eauto.
    - right; right. destruct I as (_ & S2 & x & C & Hp). eapply G0; eauto.
    - right; right. destruct I as (_ & x & o2 & C & S2 & Hp). eapply G0; eauto.
    - right; right. destruct I as (o1 & x & o2 & _ & _ & C & S2 & Hp). eapply G0; eauto.
    - destruct I as [(_ & A & _)|[(_ & C & _)|[(_ & C & _)|[(S2 & x & C & Hp)|(_ & _ & x & o2 & C & S2 & Hp)]]]]; [now left|right..]; auto; right; eapply G0; eauto.
    - right; right. destruct I as (o1 & x & o2 & _ & _ & Hd & Hb & S2 & Hp). exists x, [], o2, true. rewrite app_nil_r. split; auto.
      split; auto. now apply staged_form.
    - destruct I as [(_ & A & _)|[(_ & C & _)|[(_ & C & _)|[(S2 & x & C & Hp)|(_ & _ & x & o2 & C & S2 & Hp)]]]]; [now left|right..]; auto; right; eapply G0; eauto.
  Qed.

  (** What does hold: at every point the file is the old one, empty, or a beginning of the pickle
      of this optimizer, and when save returns it is complete. *)
  Theorem C65_content_partial :
    forall o old s, saving o old s ->
      (disk s = old \/ disk s = Some [] \/
       exists x y o2 ok, disk s = Some x /\ pickled_form o o2 /\ pickle o2 = (x ++ y, ok)) /\
      (at_ s = Done -> exists b, disk s = Some b /\ new_checkpoint o b).
  Proof.
    intros o old s H. split; [now apply disk_cases|].
    intros Hq. pose proof (saving_inv _ _ _ _ _ _ _ _ _ H) as I. unfold Inv in I. rewrite Hq in I.
    destruct I as (o1 & x & o2 & _ & _ & Hd & _ & S2 & Hp). exists x. split; auto. exists o2. split; auto. now apply staged_form.
  Qed.

  (** C97: a file left by an interrupted save is never taken for something else: it is the old
      file, or the complete new checkpoint, or load raises.  Assumption on dill: a stream that is
      cut short cannot be loaded (pickles end with a STOP opcode). *)
  Theorem C97_no_false_checkpoint :
    unpickle [] = None ->
    (forall o x y ok, pickle o = (x ++ y, ok) -> ok = false \/ y <> [] -> unpickle x = None) ->
    forall o old s, saving o old s ->
      disk s = old \/ exists x, disk s = Some x /\ (load x = None \/ new_checkpoint o x).
  Proof.
    intros Hu Hcut o old s H. destruct (disk_cases o old s H) as [A|[A|(x & y & o2 & ok & A & P & Hp)]]; auto; right.
    - exists []. split; auto. left. unfold Model_Checkpoint.load. now rewrite Hu.
    - exists x. split; auto. destruct y as [|c y].
      + destruct ok.
        * right. rewrite app_nil_r in Hp. exists o2. auto.
        * left. unfold Model_Checkpoint.load. now rewrite (Hcut _ _ _ _ Hp (or_introl eq_refl)).
      + left. unfold Model_Checkpoint.load. rewrite (Hcut _ _ _ _ Hp); auto. right. discriminate.
  Qed.

  (** C66: when save returns, the optimizer is as before ... *)
  Theorem C66_save_keeps_optimizer :
    (forall v p, dumps v = Some p -> loads p = Some v) ->
    forall o old s, saving o old s -> at_ s = Done -> mem s = o.
  Proof.
    intros RT o old s H Hq. pose proof (saving_inv _ _ _ _ _ _ _ _ _ H) as I. unfold Inv in I. rewrite Hq in I.
    destruct I as (o1 & x & o2 & S1 & S3 & _). exact (stage13 _ _ _ _ _ RT S1 S3).
  Qed.

  (** ... and loading the file yields an optimizer with the same data, counters, history and
      functions, and with the logger that load_logger makes from the dumped one.  Assumptions on
      dill: what it pickles completely it restores. *)
  Theorem C66_load_restores :
    (forall v p, dumps v = Some p -> loads p = Some v) ->
    (forall o b, pickle o = (b, true) -> unpickle b = Some o) ->
    (forall l p, dumpL l = Some p -> exists l', loadL p = Some l') ->
    forall o old s, saving o old s -> at_ s = Done ->
      (forall h, oh o = Some h -> owh o = Some (wrap h)) -> (forall g, og o = Some g -> owg o = Some (wrap g)) ->
      exists b l p l', disk s = Some b /\ olog o = LLive l /\ dumpL l = Some p /\ loadL p = Some l' /\
        load b = Some (with_log o (LLive l')).
  Proof.
    intros RT URT LRT o old s H Hq Hh Hg. destruct (proj2 (C65_content_partial o old s H) Hq) as (b & Hd & o2 & (d & lb & Ed & (l & El & Hl) & ->) & Hp).
    destruct (LRT _ _ Hl) as [l' Hl']. exists b, l, lb, l'. repeat (split; [assumption|]).
    unfold Model_Checkpoint.load. rewrite (URT _ _ Hp). cbn. rewrite Hl'.
    assert (E : match d with None => Some None | Some (DBytes p) => option_map Some (loads p) | Some (DLive _) => None end = Some (odata o)).
    { destruct (odata o) as [v|]; [|now subst d]. destruct Ed as (p & Hp' & ->). now rewrite (RT _ _ Hp'). }
    assert (Eh : match oh o with Some h => Some (wrap h) | None => owh o end = owh o) by (destruct (oh o) as [h|]; auto; symmetry; now apply Hh).
    assert (Eg : match og o with Some g => Some (wrap g) | None => owg o end = owg o) by (destruct (og o) as [g|]; auto; symmetry; now apply Hg).
    rewrite Eh, Eg. destruct d as [[dd|bb]|]; [discriminate| |].
    - rewrite E. reflexivity.
    - unfold with_log. now injection E as <-.
  Qed.

  Lemma steps_app s t u : steps s t -> steps t u -> steps s u.
  Proof. intros A B. induction B as [|x y z By IH Hz]; auto. exact (steps_next _ _ _ _ _ _ _ _ _ _ _ _ _ _ (IH A) Hz). Qed.
  Lemma write_all l o ok : forall p d b, steps (Sys (Writing l p ok) o d b) (Sys (Writing l [] ok) o d (b ++ p)).
  Proof.
    induction p as [|c p IH]; intros d b; [rewrite app_nil_r; apply steps_refl|].
    eapply steps_app; [eapply steps_next; [apply steps_refl|apply s_write]|]. replace (b ++ c :: p) with ((b ++ [c]) ++ p) by (now rewrite <- app_assoc). apply IH.
  Qed.

  (** save reaches its call of dill.dump *)
  Lemma reach_dump o old : can_mkdir = true -> can_open = true ->
    (forall v, odata o = Some v -> exists p, dumps v = Some p) ->
    forall l p, olog o = LLive l -> dumpL l = Some p ->
    exists o2, pickled_form o o2 /\ saving o old (Sys (LoggerDumped (LLive l)) o2 (Some []) []) /\
      stage1 dumps o (with_log o2 (LLive l)).
  Proof.
    intros Hm Ho Hd l p El Hl.
    assert (A : saving o old (Sys Opened o (Some []) [])).
    { eapply steps_next; [eapply steps_next; [apply steps_refl|apply s_mkdir; auto]|]. apply s_open; auto. }
    destruct (odata o) as [v|] eqn:Ev.
    - destruct (Hd v eq_refl) as [q Hq]. exists (with_log (with_data o (Some (DBytes q))) (LBytes p)). split; [|split].
      + exists (Some (DBytes q)), p. rewrite Ev. split; eauto.
      + eapply steps_next; [eapply steps_next; [exact A|]|].
        * eapply s_data; eauto.
        * rewrite <- El. apply (s_log _ _ _ _ _ _ _ _ _ _ _ (with_data o (Some (DBytes q)))). cbn. now rewrite El.
      + right. exists v, q. split; auto. split; auto. unfold with_log, with_data. cbn. now rewrite El.
    - exists (with_log o (LBytes p)). split; [|split].
      + exists None, p. rewrite Ev. split; auto. split; [eauto|]. unfold with_log. now rewrite Ev.
      + eapply steps_next; [eapply steps_next; [exact A|]|].
        * eapply s_nodata; eauto.
        * rewrite <- El. apply (s_log _ _ _ _ _ _ _ _ _ _ _ o). now rewrite El.
      + left. split; auto. unfold with_log. cbn. rewrite <- El. now destruct o.
  Qed.

  (** Whenever none of the steps raises, save does return. *)
  Theorem C66_save_returns :
    can_mkdir = true -> can_open = true ->
    (forall v p, dumps v = Some p -> loads p = Some v) ->
    forall o old, (forall v, odata o = Some v -> exists p, dumps v = Some p) ->
      (exists l p, olog o = LLive l /\ dumpL l = Some p) ->
      (forall o2, pickled_form o o2 -> snd (pickle o2) = true) ->
      exists s, saving o old s /\ at_ s = Done /\ mem s = o.
  Proof.
    intros Hm Ho RT o old Hd (l & p & El & Hl) Hk.
    destruct (reach_dump o old Hm Ho Hd l p El Hl) as (o2 & P & R & S1).
    destruct (pickle o2) as [b ok] eqn:Hp. pose proof (Hk _ P) as Hok. rewrite Hp in Hok. cbn in Hok. subst ok.
    assert (R2 : saving o old (Sys LoggerBack (with_log o2 (LLive l)) (Some []) b)).
    { eapply steps_next; [eapply steps_next; [eapply steps_app; [eapply steps_next; [exact R|]|]|]|].
      - apply s_dump. exact Hp.
      - apply write_all.
      - apply s_written.
      - apply s_logger. }
    destruct S1 as [[Ev E1]|(v & q & Ev & Hq & E1)].
    - exists (Sys Done o (Some b) []). split; [|auto]. rewrite E1 in R2.
      eapply steps_next; [eapply steps_next; [exact R2|apply s_nodata_back; auto]|]. apply (s_close _ _ _ _ _ _ _ _ _ _ _ o (Some []) b).
    - exists (Sys Done o (Some b) []). split; [|auto]. rewrite E1 in R2.
      eapply steps_next; [eapply steps_next; [exact R2|]|].
      + eapply s_data_back; [reflexivity|]. exact (RT _ _ Hq).
      + assert (Eo : with_data (with_data o (Some (DBytes q))) (Some v) = o) by (destruct o; cbn in *; now rewrite Ev).
        rewrite Eo. apply (s_close _ _ _ _ _ _ _ _ _ _ _ o (Some []) b).
  Qed.

  (** C98, full statement (refuted): if save fails, the optimizer is unchanged.  Whenever
      dill.dump raises (for instance on an objective that cannot be pickled), the logger of the
      optimizer is left replaced by its pickle, and the data too; and from then on no save of
      this optimizer returns. *)
  Theorem C98_failed_dump_refuted :
    can_mkdir = true -> can_open = true ->
    forall o old, (forall v, odata o = Some v -> exists p, dumps v = Some p) ->
      (exists l p, olog o = LLive l /\ dumpL l = Some p) ->
      (forall o2, pickled_form o o2 -> snd (pickle o2) = false) ->
      exists s, saving o old s /\ at_ s = Failed /\ mem s <> o /\ pickled_form o (mem s) /\
        forall old' s', saving (mem s) old' s' -> at_ s' <> Done.
  Proof.
    intros Hm Ho o old Hd (l & p & El & Hl) Hk.
    destruct (reach_dump o old Hm Ho Hd l p El Hl) as (o2 & P & R & S1).
    destruct (pickle o2) as [b ok] eqn:Hp. pose proof (Hk _ P) as Hok. rewrite Hp in Hok. cbn in Hok. subst ok.
    assert (N : exists lb, olog o2 = LBytes lb) by (destruct P as (d & lb & _ & _ & ->); cbn; eauto).
    exists (Sys Failed o2 (Some b) []). split; [|split; [reflexivity|split; [|split; [exact P|]]]].
    - eapply steps_next; [eapply steps_next; [eapply steps_app; [eapply steps_next; [exact R|]|]|]|].
      + apply s_dump. exact Hp.
      + apply write_all.
      + apply s_dump_fails.
      + apply (s_raise _ _ _ _ _ _ _ _ _ _ _ o2 (Some []) b).
    - cbn. destruct N as [lb N]. intros E. rewrite E in N. congruence.
    - cbn. intros old' s' H' Hq. pose proof (saving_inv _ _ _ _ _ _ _ _ _ H') as I. unfold Inv in I. rewrite Hq in I.
      destruct I as (o1 & x & o3 & _ & _ & _ & _ & (o1' & S1' & q & Hq' & _) & _). rewrite (stage1_log _ _ _ S1') in Hq'.
      destruct N as [lb N]. rewrite N in Hq'. discriminate.
  Qed.

  (** What does hold: if save fails before it has pickled the logger (the folder or the file
      cannot be made, or the data cannot be pickled), or for any reason other than the pickling
      of the logger and of the optimizer, the optimizer is unchanged. *)
  Theorem C98_early_failure_partial :
    (forall v p, dumps v = Some p -> loads p = Some v) ->
    forall o old s, saving o old s -> at_ s = Failed ->
      (exists l p, olog o = LLive l /\ dumpL l = Some p) ->
      (forall o2, pickled_form o o2 -> snd (pickle o2) = true) ->
      mem s = o.
  Proof.
    intros RT o old s H Hq (l & p & El & Hl) Hk. pose proof (saving_inv _ _ _ _ _ _ _ _ _ H) as I. unfold Inv in I. rewrite Hq in I.
    destruct I as [(A & _)|[(A & _)|[(_ & _ & B)|[(S2 & x & C & Hp)|(S1 & (q & Hq1 & Hq2) & _)]]]]; auto.
    - rewrite El in B. cbn in B. congruence.
    - specialize (Hk _ (staged_form _ _ S2)). rewrite Hp in Hk. discriminate.
    - destruct S1 as [[A E]|(v & q' & A & B & E)]; rewrite E in Hq1.
      + congruence.
      + cbn in Hq1. injection Hq1 as <-. rewrite (RT _ _ B) in Hq2. discriminate.
  Qed.
End Properties.
Print Assumptions C65_crash_window_refuted.
Print Assumptions C65_content_partial.
Print Assumptions C97_no_false_checkpoint.
Print Assumptions C66_save_keeps_optimizer.
Print Assumptions C66_load_restores.
Print Assumptions C66_save_returns.
Print Assumptions C98_failed_dump_refuted.
Print Assumptions C98_early_failure_partial.

(** A concrete dill and optimizer meet the hypotheses. *)
Example toy_saves :
  let o := Obj (Some (DLive 7)) (LLive 3) (Some true) None (Some false) None 5 in
  exists s, saving nat nat nat bool bool Toy.dumps Toy.loads Toy.dumpL Toy.pickle true true o (Some [1; 2]) s /\ at_ s = Done /\ mem s = o.
Proof.
  intros o. apply C66_save_returns; auto.
  - exact Toy.data_rt.
  - intros v [= <-]. eexists. reflexivity.
  - exists 3, [3]. auto.
  - intros o2 (d & l & _ & _ & ->). reflexivity.
Qed.
Example toy_loads :
  let o := Obj (Some (DLive 7)) (LLive 3) (Some true) None (Some false) None 5 in
  forall s, saving nat nat nat bool bool Toy.dumps Toy.loads Toy.dumpL Toy.pickle true true o (Some [1; 2]) s -> at_ s = Done ->
  exists b, disk s = Some b /\ load nat nat nat bool bool Toy.loads Toy.loadL Toy.wrap Toy.unpickle b = Some o.
Proof.
  intros o s H Hq.
  destruct (C66_load_restores Toy.dumps Toy.loads Toy.dumpL Toy.loadL Toy.wrap Toy.pickle Toy.unpickle true true
              Toy.data_rt Toy.obj_rt) with (o := o) (old := Some [1; 2]) (s := s) as (b & l & p & l' & A & B & C & E & G); auto.
  - intros l p [= <-]. eexists. reflexivity.
  - intros h [= <-]. reflexivity.
  - intros g [=].
  - exists b. split; auto. rewrite G. cbn in B. injection B as <-. injection C as <-. cbn in E. injection E as <-. reflexivity.
Qed.
Example toy_interrupted :
  let o := Obj (Some (DLive 7)) (LLive 3) (Some true) None (Some false) None 5 in
  forall s, saving nat nat nat bool bool Toy.dumps Toy.loads Toy.dumpL Toy.pickle true true o (Some [1; 2]) s ->
    disk s = Some [1; 2] \/ exists x, disk s = Some x /\
      (load nat nat nat bool bool Toy.loads Toy.loadL Toy.wrap Toy.unpickle x = None \/ new_checkpoint Toy.dumps Toy.dumpL Toy.pickle o x).
Proof. intros o s. apply C97_no_false_checkpoint; [reflexivity|exact Toy.obj_prefix]. Qed.
Example toy_fails :
  let o := Obj (Some (DLive 7)) (LLive 3) (Some true) None (Some false) None 0 in
  exists s, saving nat nat nat bool bool Toy.dumps Toy.loads Toy.dumpL Toy.pickle true true o None s /\ at_ s = Failed /\ mem s <> o.
Proof.
  intros o. destruct (C98_failed_dump_refuted Toy.dumps Toy.loads Toy.dumpL Toy.pickle true true eq_refl eq_refl o None) as (s & A & B & C & _).
  - intros v [= <-]. eexists. reflexivity.
  - exists 3, [3]. auto.
  - intros o2 (d & l & _ & _ & ->). reflexivity.
  - exists s. auto.
Qed.
