(** Writing a search space to a json file and reading it back: search_space.py:610-612, 681-696. *)
From Coq Require Import Bool Arith ZArith QArith String List.
From Verif Require Import Model_Var Model_Opt Model_Space Model_SpaceDict.
Import ListNotations.
Open Scope nat_scope.

(** What json.dump hands to f.write, in order: braces, brackets, keys and values.  Simplification: separators are left out and numbers
    and strings are written as they are. *)
Inductive token := Open | Close | LOpen | LClose | Key (k : string) | Val (v : val) | Num (n : Z) | Text (s : string) | Null.
(** The text of a file and the files by name; None: there is no such file. *)
Definition text := list token.
(** The file system, for 611 and 695. *)
Definition files := string -> option text.
(** open(file, "w") and the writes that follow, 611-612: the previous text is lost. *)
Definition write (fs : files) (file : string) (t : text) : files := fun f => if String.eqb f file then Some t else fs f.

(** The tokens written until the value is complete (true) or cannot be encoded (false). *)
Definition out := (text * bool)%type.
(** json.dump, 612: the next chunk is encoded after the previous ones were written; an exception leaves those in the file. *)
Definition andthen (a b : out) : out := if snd a then (fst a ++ fst b, snd b) else a.
(** The value of the key "type", 594: json encodes strings; a class object is a TypeError. *)
Definition dump_type (t : ptype) : out := match t with TStr s => ([Text s], true) | TCls _ => ([], false) end.
(** json.dump of None or an integer, 598-602. *)
Definition dump_num (o : option Z) : out := ([match o with Some n => Num n | None => Null end], true).
(** One value of the dictionary, 592-602, in the order of the keys.  Simplification: every value of a range can be encoded; the
    conditions, which come last, are left out. *)
Definition dump_value (e : entry) : out :=
  andthen ([Open; Key "range"%string; LOpen] ++ map Val (bounds_of e) ++ [LClose; Key "type"%string], true)
    (andthen (dump_type (etype e))
      (andthen ([Key "N"%string], true)
        (andthen (dump_num (option_map Z.of_nat (eN e)))
          (andthen match escale e with
                   | Some s => andthen ([Key "precision"%string], true) (andthen (dump_num (eprec e)) ([Key "scale"%string; Text s], true))
                   | None => match estep e with Some st => ([Key "step"%string; Num st], true) | None => ([], true) end
                   end ([Close], true))))).
(** The items of the dictionary. *)
Definition dump_items (es : list entry) : out :=
  fold_right (fun e o => andthen (andthen ([Key (ekey e)], true) (dump_value e)) o) ([], true) es.
(** json.dump(param, f), 612. *)
Definition dump (es : list entry) : out := andthen ([Open], true) (andthen (dump_items es) ([Close], true)).

(** to_json, 610-612: false is the TypeError of json.dump. *)
Definition to_json (fs : files) (file : string) (h : heap) (s : space) : files * bool :=
  let '(t, ok) := dump (to_dict h s) in (write fs file t, ok).

Section FromJson.
  (** json.load; None: a JSONDecodeError or a value that is no dictionary of items.  An oracle. *)
  Variable load : text -> option (list entry).
  (** The bounds after the scale setter, as in Model_SpaceDict.v. *)
  Variable adjust : string -> Q * Q -> Q * Q.
  (** from_json, 681-696; None: an exception. *)
  Definition from_json (fs : files) (file : string) : option (heap * space) :=
    match fs file with
    | Some t => match load t with Some es => from_dict adjust es | None => None end
    | None => None
    end.
End FromJson.
