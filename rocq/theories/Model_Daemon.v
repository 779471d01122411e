(** Starting and stopping a daemon (bayes_optim/utils/_daemon.py).  Processes are numbers; the
    file descriptors, umask and the log messages are left out. *)
From Coq Require Import List Bool Arith.
Import ListNotations.

(** The pid file: absent, something int() rejects (for instance empty), or a number. *)
Inductive pidfile := NoFile | Garbage | Pid (p : nat).
(** The system: the pid file, the living processes, and which of them are daemons started through
    this pid file. *)
Record world := World { pf : pidfile; alive : nat -> bool; daemon : nat -> bool }.
(** No counterpart in the code: a set of processes with one changed. *)
Definition setb (f : nat -> bool) (p : nat) (b : bool) : nat -> bool := fun q => if q =? p then b else f q.

(** How a call of _daemon.py ends: it returns, sys.exit(1), or an exception. *)
Inductive outcome := Returned | Exit1 | ValueError | NameError.

(** 204-213  get_pid: ValueError is not caught *)
Definition get_pid (w : world) : option (option nat) :=
  match pf w with NoFile => Some None | Garbage => None | Pid p => Some (Some p) end.

(** 137-150  the test at the beginning of start (a zero pid is falsy) *)
Definition start_check (w : world) : option outcome :=
  match get_pid w with
  | None => Some ValueError
  | Some (Some (S _)) => Some Exit1
  | Some _ => None
  end.
(** 44-116  daemonize: the new process p registers delpid and writes its pid *)
Definition daemonize (w : world) (p : nat) : world := World (Pid p) (setb (alive w) p true) (setb (daemon w) p true).

(** 118-128  delpid, run at the exit of process p (its ValueError is lost at exit) *)
Definition delpid (w : world) (p : nat) : world :=
  match pf w with Pid q => if q =? p then World NoFile (alive w) (daemon w) else w | _ => w end.
(** The process ends: after SIGTERM or by itself (96-98: sys.exit runs delpid) ... *)
Definition exits (w : world) (p : nat) : world :=
  let w := if daemon w p then delpid w p else w in World (pf w) (setb (alive w) p false) (setb (daemon w) p false).
(** ... or killed, without running anything *)
Definition killed (w : world) (p : nat) : world := World (pf w) (setb (alive w) p false) (setb (daemon w) p false).

(** 130-154  start, without interruption, p being the new process *)
Definition start (w : world) (p : nat) : world * outcome :=
  match start_check w with Some o => (w, o) | None => (daemonize w p, Returned) end.

(** 156-195  stop: the outcome, the pid file it leaves, and the process that gets SIGTERM.  time
    is not imported (1-5), so time.sleep (183) raises NameError after the first signal. *)
Definition stop (w : world) : world * outcome * option nat :=
  match get_pid w with
  | None => (w, ValueError, None)
  | Some None => (w, Returned, None)
  | Some (Some 0) => (World NoFile (alive w) (daemon w), Returned, None)
  | Some (Some p) =>
    if alive w p then (w, NameError, Some p)
    else (World NoFile (alive w) (daemon w), Returned, None)
  end.

(** 215-226  is_running; None: ValueError *)
Definition is_running (w : world) : option bool :=
  match get_pid w with None => None | Some None => Some false | Some (Some p) => Some (alive w p) end.

(** Everything that can happen: complete calls, processes coming and going. *)
Inductive event :=
| EStart (p : nat)      (* start is called; p is the number the system gives to the new process *)
| EStop                 (* stop is called *)
| ETerm (p : nat)       (* process p ends through its SIGTERM handler or by itself *)
| EKill (p : nat)       (* process p is killed *)
| ESpawn (p : nat).     (* an unrelated process appears *)
Definition possible (w : world) (e : event) : Prop :=
  match e with
  | EStart p | ESpawn p => p <> 0 /\ alive w p = false
  | EStop => True
  | ETerm p | EKill p => alive w p = true
  end.
(** The effect of an event: the calls of _daemon.py 44-228, or the end or appearance of a process. *)
Definition happen (w : world) (e : event) : world :=
  match e with
  | EStart p => fst (start w p)
  | EStop => fst (fst (stop w))
  | ETerm p => exits w p
  | EKill p => killed w p
  | ESpawn p => World (pf w) (setb (alive w) p true) (daemon w)
  end.
(** The histories of such events. *)
Inductive history : world -> list event -> world -> Prop :=
| h_nil w : history w [] w
| h_cons w e es w' : possible w e -> history (happen w e) es w' -> history w (e :: es) w'.
(** Before the first call: no pid file and no daemon. *)
Definition boot (others : nat -> bool) : world := World NoFile others (fun _ => false).

(** Two callers of start whose calls overlap: both test before either writes. *)
Definition start_race (w : world) (p q : nat) : world * outcome * outcome :=
  match start_check w with
  | Some o => (w, o, o)
  | None => (daemonize (daemonize w p) q, Returned, Returned)
  end.

(** 197-202  restart: stop, then start; an exception of stop ends it.  The outcome, and the world after it; p is the
    number of the process that start would create. *)
Definition restart (w : world) (p : nat) : world * outcome :=
  let '(w', o, _) := stop w in match o with Returned => start w' p | _ => (w', o) end.
(** 116: open(..., "w+") creates the empty file before anything is written to it; the new process is killed in
    between.  [None]: start does not get that far. *)
Definition start_killed (w : world) (p : nat) : option world :=
  match start_check w with Some _ => None | None => Some (World Garbage (alive w) (daemon w)) end.
