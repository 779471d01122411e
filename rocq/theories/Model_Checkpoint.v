(** Saving and loading an optimizer (bayes_optim/base.py 499-540).  dill, the file system and the
    attributes that are only copied are parameters. *)
From Coq Require Import List Bool Arith.
Import ListNotations.

Section Checkpoint.
  Variables (D Lg K F W : Type).   (* data, logger, the other attributes, a constraint function, its wrapper *)
  Notation bytes := (list nat).

  (** self.data holds a Solution, or its pickle while save runs; self.logger likewise. *)
  Inductive dval := DLive (d : D) | DBytes (b : bytes).
  (** self.logger, or its pickle while save runs (base.py 499-519). *)
  Inductive lval := LLive (l : Lg) | LBytes (b : bytes).
  (** The attributes of the optimizer that save and load treat differently (base.py 224-229 for
      _h and _g); all the others are [other].  [odata] is None before the first tell. *)
  Record obj := Obj { odata : option dval; olog : lval; oh : option F; og : option F;
                      owh : option W; owg : option W; other : K }.
  (** The assignment of self.data in base.py 499-540. *)
  Definition with_data (o : obj) (d : option dval) := Obj d (olog o) (oh o) (og o) (owh o) (owg o) (other o).
  (** The assignment of self.logger in base.py 499-540. *)
  Definition with_log (o : obj) (l : lval) := Obj (odata o) l (oh o) (og o) (owh o) (owg o) (other o).

  Variable dumps : dval -> option bytes.    (* dill.dumps(self.data), None: raises *)
  Variable loads : bytes -> option dval.    (* dill.loads *)
  Variable dumpL : Lg -> option bytes.      (* dump_logger of a logger *)
  Variable loadL : bytes -> option Lg.      (* load_logger *)
  Variable wrap : F -> W.                   (* func_with_list_arg(., eval_type, var_name) *)
  (** dill.dump(self, f): the bytes it writes, and whether it completes *)
  Variable pickle : obj -> bytes * bool.
  Variable unpickle : bytes -> option obj.
  (** whether os.makedirs and open succeed *)
  Variables can_mkdir can_open : bool.

  (** dump_logger (logger.py 76-80) of something that is not a logger raises AttributeError *)
  Definition dump_log (l : lval) : option bytes := match l with LLive l => dumpL l | LBytes _ => None end.

  (** Where save is.  The local variable logger (511) is carried along. *)
  Inductive pc :=
  | Start                                   (* before 502 *)
  | MadeDir                                 (* before 504 *)
  | Opened                                  (* before 507 *)
  | DataDumped                              (* before 511 *)
  | LoggerDumped (logger : lval)            (* before 514 *)
  | Writing (logger : lval) (todo : bytes) (ok : bool)   (* in dill.dump *)
  | Dumped (logger : lval)                  (* before 516 *)
  | LoggerBack                              (* before 517 *)
  | DataBack                                (* before the end of the with block *)
  | Raising                                 (* an exception leaves the with block, which closes f *)
  | Done
  | Failed.

  (** The process and the disk: [disk] is the content of the file (None: no such file), [buf] what
      has been written to f but not flushed. *)
  Record sys := Sys { at_ : pc; mem : obj; disk : option bytes; buf : bytes }.
  (** No counterpart in the code: the bytes of the file. *)
  Definition on_disk (s : sys) : bytes := match disk s with Some b => b | None => [] end.

  (** 499-519.  open(filename, "wb") truncates the file.  logger.info (519) is taken to be
      without effect. *)
  Inductive step : sys -> sys -> Prop :=
  | s_mkdir o d : can_mkdir = true -> step (Sys Start o d []) (Sys MadeDir o d [])
  | s_mkdir_fails o d : can_mkdir = false -> step (Sys Start o d []) (Sys Failed o d [])
  | s_open o d : can_open = true -> step (Sys MadeDir o d []) (Sys Opened o (Some []) [])
  | s_open_fails o d : can_open = false -> step (Sys MadeDir o d []) (Sys Failed o d [])
  | s_nodata o d b : odata o = None -> step (Sys Opened o d b) (Sys DataDumped o d b)
  | s_data o d b v p : odata o = Some v -> dumps v = Some p ->
      step (Sys Opened o d b) (Sys DataDumped (with_data o (Some (DBytes p))) d b)
  | s_data_fails o d b v : odata o = Some v -> dumps v = None -> step (Sys Opened o d b) (Sys Raising o d b)
  | s_log o d b p : dump_log (olog o) = Some p ->
      step (Sys DataDumped o d b) (Sys (LoggerDumped (olog o)) (with_log o (LBytes p)) d b)
  | s_log_fails o d b : dump_log (olog o) = None -> step (Sys DataDumped o d b) (Sys Raising o d b)
  | s_dump o d b l p ok : pickle o = (p, ok) -> step (Sys (LoggerDumped l) o d b) (Sys (Writing l p ok) o d b)
  | s_write o d b l c p ok : step (Sys (Writing l (c :: p) ok) o d b) (Sys (Writing l p ok) o d (b ++ [c]))
  | s_written o d b l : step (Sys (Writing l [] true) o d b) (Sys (Dumped l) o d b)
  | s_dump_fails o d b l : step (Sys (Writing l [] false) o d b) (Sys Raising o d b)
  | s_logger o d b l : step (Sys (Dumped l) o d b) (Sys LoggerBack (with_log o l) d b)
  | s_nodata_back o d b : odata o = None -> step (Sys LoggerBack o d b) (Sys DataBack o d b)
  | s_data_back o d b p v : odata o = Some (DBytes p) -> loads p = Some v ->
      step (Sys LoggerBack o d b) (Sys DataBack (with_data o (Some v)) d b)
  | s_data_back_fails o d b p : odata o = Some (DBytes p) -> loads p = None ->
      step (Sys LoggerBack o d b) (Sys Raising o d b)
  | s_close o d b : step (Sys DataBack o d b) (Sys Done o (Some (match d with Some x => x | None => [] end ++ b)) [])
  | s_raise o d b : step (Sys Raising o d b) (Sys Failed o (Some (match d with Some x => x | None => [] end ++ b)) [])
  (** the buffer may be flushed, in part or completely, at any time *)
  | s_flush q o d b1 b2 : step (Sys q o (Some d) (b1 ++ b2)) (Sys q o (Some (d ++ b1)) b2).

  Inductive steps : sys -> sys -> Prop :=
  | steps_refl s : steps s s
  | steps_next s t u : steps s t -> step t u -> steps s u.

  (** Everything save can be interrupted in, from an optimizer o and a file with content d. *)
  Definition saving (o : obj) (d : option bytes) (s : sys) : Prop := steps (Sys Start o d []) s.

  (** 521-540  load.  The branch for files of older versions (_logger) is left out. *)
  Definition load (b : bytes) : option obj :=
    match unpickle b with
    | None => None
    | Some o =>
      match match odata o with
            | None => Some None
            | Some (DBytes p) => option_map Some (loads p)
            | Some (DLive _) => None
            end with
      | None => None
      | Some data =>
        match olog o with
        | LLive _ => None
        | LBytes p =>
          match loadL p with
          | None => None
          | Some l => Some (Obj data (LLive l) (oh o) (og o)
                              (match oh o with Some h => Some (wrap h) | None => owh o end)
                              (match og o with Some g => Some (wrap g) | None => owg o end) (other o))
          end
        end
      end
    end.
End Checkpoint.

Arguments DLive {D}. Arguments DBytes {D}. Arguments LLive {Lg}. Arguments LBytes {Lg}.
Arguments Obj {D Lg K F W}. Arguments odata {D Lg K F W}. Arguments olog {D Lg K F W}.
Arguments oh {D Lg K F W}. Arguments og {D Lg K F W}. Arguments owh {D Lg K F W}. Arguments owg {D Lg K F W}. Arguments other {D Lg K F W}.
Arguments with_data {D Lg K F W}. Arguments with_log {D Lg K F W}.
Arguments Sys {D Lg K F W}. Arguments at_ {D Lg K F W}. Arguments mem {D Lg K F W}. Arguments disk {D Lg K F W}. Arguments buf {D Lg K F W}.
Arguments Start {Lg}. Arguments MadeDir {Lg}. Arguments Opened {Lg}. Arguments DataDumped {Lg}. Arguments LoggerDumped {Lg}.
Arguments Writing {Lg}. Arguments Dumped {Lg}. Arguments LoggerBack {Lg}. Arguments DataBack {Lg}. Arguments Raising {Lg}.
Arguments Done {Lg}. Arguments Failed {Lg}.
