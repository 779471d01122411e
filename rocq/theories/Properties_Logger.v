(** Properties C67, C99: loggers survive saving and loading. *)
From Coq Require Import Bool Arith String List Permutation.
From Verif Require Import Model_Logger.
Import ListNotations.
Open Scope string_scope.

(** The registry of a process in which the logger does not exist yet. *)
Definition fresh (r : registry) (id : string) : Prop := r id = [].

Section Logger.
  Variables (abspath : string -> string) (openable : string -> bool) (enumerate : list string -> list string).
  (** The order in which a set is enumerated is not known. *)
  Hypothesis enumerate_perm : forall l, Permutation (enumerate l) l.
  Notation get_logger := (get_logger abspath openable enumerate).
  Notation load_logger := (load_logger abspath openable enumerate).

  Lemma enumerate_set l x : In x (enumerate l) <-> In x l.
  Proof. split; apply Permutation_in; [|apply Permutation_sym]; apply enumerate_perm. Qed.

  Lemma load_handlers r r' id : fresh r' id ->
    forall h, In h (load_logger r' (dump_logger r id) id) <->
      (h = Console /\ existsb is_stream (r id) = true) \/
      (exists p, In (File p) (r id) /\ openable p = true /\ h = File (abspath p)).
  Proof.
    intros Fr h. unfold Model_Logger.load_logger, dump_logger, Model_Logger.get_logger. cbn [fst snd]. unfold set_logger. rewrite String.eqb_refl, Fr.
    cbn [existsb negb andb].
    assert (Fl : forall p, In p (flat_map base_name (filter is_file (r id))) <-> In (File p) (r id)).
    { intros p. rewrite in_flat_map. split.
      - intros (k & Hk & Hp). apply filter_In in Hk as [Hk _]. destruct k as [|q|q]; cbn in Hp; try contradiction.
        destruct Hp as [<-|[]]. exact Hk.
      - intros Hp. exists (File p). split; [apply filter_In; auto|now left]. }
    assert (Ap : forall hs, existsb is_file hs = false -> (forall k, In k hs <-> k = Console /\ existsb is_stream (r id) = true) ->
       In h (match (match filter is_file (r id) with [] => None | _ => Some (flat_map base_name (filter is_file (r id))) end) with
             | Some fs => if existsb is_file hs then hs else hs ++ map (fun f => File (abspath f)) (filter openable (enumerate (nodup string_dec fs)))
             | None => hs end) <->
       (h = Console /\ existsb is_stream (r id) = true) \/ (exists p, In (File p) (r id) /\ openable p = true /\ h = File (abspath p))).
    { intros hs Nf Hs. destruct (filter is_file (r id)) as [|k ks] eqn:Ef.
      - rewrite Hs. split; [auto|]. intros [A|(p & Hp & _)]; auto.
        assert (In (File p) (filter is_file (r id))) as X by (apply filter_In; auto). rewrite Ef in X. destruct X.
      - rewrite Nf. rewrite in_app_iff, Hs, in_map_iff. split; (intros [A|A]; [now left|right]).
        + destruct A as (p & <- & A). apply filter_In in A as [A B]. rewrite enumerate_set, nodup_In, Fl in A. eauto.
        + destruct A as (p & A & B & ->). exists p. split; auto. apply filter_In. split; auto. now rewrite enumerate_set, nodup_In, Fl. }
    destruct (existsb is_stream (r id)) eqn:Es.
    - apply Ap; auto. intros k. cbn. intuition congruence.
    - apply Ap; auto. intros k. cbn. intuition congruence.
  Qed.

  (** C67, full statement (refuted): dumping a logger and loading it in a new process yields the
      same set of handlers.  A logger with a log file and without console output has console
      output after loading. *)
  Theorem C67_file_only_refuted :
    forall r r' id f, fresh r id -> fresh r' id -> openable f = true ->
      let old := get_logger r id (Some [f]) false in
      old id = [File (abspath f)] /\ In Console (load_logger r' (dump_logger old id) id).
  Proof.
    intros r r' id f F1 F2 Ho old. assert (E : old id = [File (abspath f)]).
    { unfold old, Model_Logger.get_logger, set_logger. rewrite String.eqb_refl.
      replace (nodup string_dec [f]) with [f] by reflexivity. rewrite (Permutation_length_1_inv (Permutation_sym (enumerate_perm [f]))). cbn [filter]. rewrite Ho, andb_false_r. unfold fresh in F1. rewrite F1. reflexivity. }
    split; auto. apply load_handlers; auto. left. split; auto. rewrite E. reflexivity.
  Qed.

  (** What does hold in a new process: exactly the log files that can still be opened are kept,
      and there is console output iff there was some or there was a log file; so loggers that
      have console output, or no log file, keep their handlers (apart from handlers of other
      classes, which are lost). *)
  Theorem C67_new_process_partial :
    forall r r' id, fresh r' id ->
      (forall p, In (File p) (r id) -> abspath p = p /\ openable p = true) ->
      (forall p, In (File p) (load_logger r' (dump_logger r id) id) <-> In (File p) (r id)) /\
      (In Console (load_logger r' (dump_logger r id) id) <-> In Console (r id) \/ exists p, In (File p) (r id)) /\
      (In Console (r id) \/ (forall p, ~ In (File p) (r id)) ->
       forall h, (forall k, h <> Foreign k) -> (In h (load_logger r' (dump_logger r id) id) <-> In h (r id))).
  Proof.
    intros r r' id Fr Hf. pose proof (load_handlers r r' id Fr) as L.
    assert (A : forall p, In (File p) (load_logger r' (dump_logger r id) id) <-> In (File p) (r id)).
    { intros p. rewrite L. split.
      - intros [[? _]|(q & Hq & _ & E)]; [discriminate|]. rewrite (proj1 (Hf q Hq)) in E. injection E as ->. exact Hq.
      - intros Hp. destruct (Hf p Hp) as [E1 E2]. right. exists p. now rewrite E1. }
    assert (B : In Console (load_logger r' (dump_logger r id) id) <-> In Console (r id) \/ exists p, In (File p) (r id)).
    { rewrite L. split.
      - intros [[_ E]|(q & _ & _ & ?)]; [|discriminate]. apply existsb_exists in E as (k & Hk & Es). destruct k; eauto; discriminate.
      - intros E. left. split; auto. apply existsb_exists. destruct E as [E|[p E]]; eauto. }
    split; auto. split; auto. intros Hc h Hh. destruct h as [|p|k]; auto; [|exfalso; eapply Hh; reflexivity].
    rewrite B. destruct Hc as [Hc|Hc]; [tauto|]. split; auto. intros [?|[p Hp]]; auto. exfalso. eapply Hc; eauto.
  Qed.

  (** C99: loading in the process that still has the logger (and dumping) does not change its
      handlers, whatever they are. *)
  Theorem C99_same_process : forall r id i, load_logger r (dump_logger r id) i = r i.
  Proof.
    intros r id i. unfold Model_Logger.load_logger, dump_logger, Model_Logger.get_logger, set_logger. cbn [fst snd].
    destruct (String.eqb i id) eqn:Ei; auto. apply String.eqb_eq in Ei. subst i.
    assert (E : (if negb (existsb is_stream (r id)) && existsb is_stream (r id) then (r id ++ [Console])%list else r id) = r id)
      by (destruct (existsb is_stream (r id)); reflexivity).
    rewrite E. destruct (filter is_file (r id)) as [|k ks] eqn:Ef; auto.
    assert (X : existsb is_file (r id) = true); [|now rewrite X].
    apply existsb_exists. exists k. apply filter_In. rewrite Ef. now left.
  Qed.
End Logger.
Print Assumptions C67_file_only_refuted.
Print Assumptions C67_new_process_partial.
Print Assumptions C99_same_process.

Example logger_case :
  let id := "BO (1)" in
  let r := get_logger (fun f => f) (fun _ => true) (fun l => l) (fun _ => []) id (Some ["/a"; "/b"]) true in
  r id = [Console; File "/a"; File "/b"] /\
  load_logger (fun f => f) (fun _ => true) (fun l => l) (fun _ => []) (dump_logger r id) id = r id /\
  fresh (fun _ => []) id.
Proof. vm_compute. auto. Qed.
