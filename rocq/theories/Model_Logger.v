(** The loggers of the optimizers (bayes_optim/utils/logger.py).  Levels and formatters are left
    out: they do not depend on the configuration. *)
From Coq Require Import List Bool Arith String.
Import ListNotations.

(** A handler: logging.StreamHandler on stdout, logging.FileHandler (by baseFilename), or one of
    another class that is not a subclass of StreamHandler. *)
Inductive handler := Console | File (path : string) | Foreign (what : nat).
(** isinstance(h, logging.StreamHandler): FileHandler is a subclass *)
Definition is_stream (h : handler) : bool := match h with Console | File _ => true | Foreign _ => false end.
(** isinstance(h, logging.FileHandler). *)
Definition is_file (h : handler) : bool := match h with File _ => true | _ => false end.
(** h.baseFilename. *)
Definition base_name (h : handler) : list string := match h with File p => [p] | _ => [] end.

(** logging's registry of the process: the handlers of each logger name *)
Definition registry := string -> list handler.
(** The handlers of one logger changed. *)
Definition set_logger (r : registry) (id : string) (hs : list handler) : registry := fun i => if String.eqb i id then hs else r i.

Section Logger.
  (** os.path.abspath, which FileHandler applies; whether a file can be opened (65, otherwise
      FileNotFoundError, 69); the order in which a set of names is enumerated (63). *)
  Variables (abspath : string -> string) (openable : string -> bool) (enumerate : list string -> list string).

  (** 42-73  get_logger: the process' registry after the call; the logger is the entry of id *)
  Definition get_logger (r : registry) (id : string) (file : option (list string)) (console : bool) : registry :=
    let hs := r id in
    let hs := if negb (existsb is_stream hs) && console then hs ++ [Console] else hs in
    let hs :=
      match file with
      | Some fs => if existsb is_file hs then hs
                   else hs ++ map (fun f => File (abspath f)) (filter openable (enumerate (nodup string_dec fs)))
      | None => hs
      end in
    set_logger r id hs.

  (** 76-80  dump_logger *)
  Definition dump_logger (r : registry) (id : string) : string * bool * option (list string) :=
    let fhs := filter is_file (r id) in
    (id, existsb is_stream (r id), match fhs with [] => None | _ => Some (flat_map base_name fhs) end).
  (** 83-84  load_logger, in a process with registry r *)
  Definition load_logger (r : registry) (d : string * bool * option (list string)) : registry :=
    get_logger r (fst (fst d)) (snd d) (snd (fst d)).
End Logger.
