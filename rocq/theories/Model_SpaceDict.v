(** Dictionary form of search spaces: search_space.py:590-679. *)
From Coq Require Import Bool Arith ZArith QArith String List.
From Verif Require Import Model_Var Model_Opt Model_Space.
Import ListNotations.
Open Scope nat_scope.

(** The "type" entry: a string, or the class object that to_dict writes. *)
Inductive ptype := TStr (t : string) | TCls (t : string).
(** One item of the dictionary: the key, "range", "type", "N", whether there is a "default" key,
    "precision", "scale", "step".  Simplification: "range" is a flat list of values, "N" a natural
    number, "step" an integer. *)
Record entry := mkE { ekey : string; erange : option (list val); etype : ptype; eN : option nat;
                      edefault : bool; eprec : option Z; escale : option string; estep : option Z }.

(** v["type"] in [...]: a class object equals no string. *)
Definition is_type (t : ptype) (l : list string) : bool :=
  match t with TStr s => existsb (String.eqb s) l | TCls _ => false end.
(** 631-678: the range of an entry. *)
Definition bounds_of (e : entry) : list val := match erange e with Some l => l | None => [] end.
(** 631-678: v.pop(N, 1) of an entry. *)
Definition count_of (e : entry) : nat := match eN e with Some n => n | None => 1 end.
(** 631-678: the scale of an entry, linear by default. *)
Definition scale_of (e : entry) : string := match escale e with Some s => s | None => "linear"%string end.
(** 631-678: the step of an entry, 1 by default. *)
Definition step_of (e : entry) : Z := match estep e with Some s => s | None => 1%Z end.
(** variable.py:40-46, the keys of TRANS. *)
Definition scales : list string := ["linear"; "log"; "log10"; "logit"; "bilog"]%string.

Section FromDict.
(** The bounds after the scale setter, variable.py:216-245 (see Model_Scale.v). *)
Variable adjust : string -> Q * Q -> Q * Q.

(** Real(...), variable.py:168-197; None is an exception. *)
Definition make_real (e : entry) : option vobj :=
  match bounds_of e with
  | a :: b :: _ =>
    match as_num a, as_num b with
    | Some lb, Some ub =>
      if negb (Qle_bool ub lb) && existsb (String.eqb (scale_of e)) scales
      then let '(lb', ub') := adjust (scale_of e) (lb, ub) in
           Some (mkV (ekey e) (KReal lb' ub' (eprec e)) None (scale_of e))
      else None
    | _, _ => None
    end
  | _ => None
  end.
(** Integer(...), variable.py:317-331, for integer bounds; a step of 0 is a division by zero. *)
Definition make_int (e : entry) (step : Z) : option vobj :=
  match dedup (bounds_of e) with
  | [VI lb; VI ub] => if (lb <? ub)%Z && negb (step =? 0)%Z then Some (mkV (ekey e) (KInt lb ub step) None "") else None
  | _ => None
  end.
(** The list comprehension of N Integer(...): v.pop("step", 1) takes the step for the first copy
    only. *)
Fixpoint make_ints (e : entry) (steps : list Z) : option (list vobj) :=
  match steps with
  | [] => Some []
  | st :: r => match make_int e st, make_ints e r with Some v, Some l => Some (v :: l) | _, _ => None end
  end.
(** 631-678: the steps of the N copies. *)
Definition all_steps (e : entry) : list Z :=
  match count_of e with 0 => [] | S n => step_of e :: repeat 1%Z n end.
(** [v for _ in range(N)] where building v may fail *)
Definition replicate (N : nat) (v : option vobj) : option (list vobj) :=
  match N with 0 => Some [] | _ => option_map (fun x => repeat x N) v end.

(** The try block, 644-677. *)
Inductive made := Fail | Unmatched | Vars (l : list vobj).
(** No counterpart in the code: an exception of a constructor is caught by the try block. *)
Definition made_of (o : option (list vobj)) : made := match o with Some l => Vars l | None => Fail end.
(** 644-677: the variables of one entry. *)
Definition make (e : entry) : made :=
  if is_type (etype e) ["r"; "real"]%string then made_of (replicate (count_of e) (make_real e))
  else if is_type (etype e) ["i"; "int"; "integer"]%string then made_of (make_ints e (all_steps e))
  else if is_type (etype e) ["o"; "ordinal"]%string then Vars (repeat (mkV (ekey e) (KOrdinal (bounds_of e)) None "") (count_of e))
  else if is_type (etype e) ["c"; "cat"]%string then Vars (repeat (mkV (ekey e) (KDiscrete (bounds_of e)) None "") (count_of e))
  else if is_type (etype e) ["s"; "subset"]%string then Vars (repeat (mkV (ekey e) (KSubset (bounds_of e)) None "") (count_of e))
  else if is_type (etype e) ["b"; "bool"]%string then Vars (repeat (mkV (ekey e) KBool None "") (count_of e))
  else Unmatched.

(** The loop, 631-678.  [prev] is the local _vars, unbound at first; an unmatched type adds the
    variables of the previous matched entry once more.  None: an exception outside the try block
    (bounds[0] of an empty range; the misspelt key "defualt"). *)
Fixpoint from_items (h : heap) (acc : list ref) (prev : option (list ref)) (es : list entry) : option (heap * list ref) :=
  match es with
  | [] => Some (h, acc)
  | e :: r =>
    match erange e with
    | Some [] => None
    | _ =>
      if edefault e then None else
      match make e with
      | Fail => from_items h acc prev r
      | Unmatched => from_items h (acc ++ match prev with Some p => p | None => [] end) prev r
      | Vars l => let rs := seq (List.length h) (List.length l) in
                  from_items (h ++ l) (acc ++ rs) (Some rs) r
      end
    end
  end.
(** 614-679 from_dict. *)
Definition from_dict (es : list entry) : option (heap * space) :=
  option_map (fun p => set_data (fst p) (snd p)) (from_items [] [] None es).
End FromDict.

(** to_dict, 590-609: out[var.name] = value, so a later variable replaces an earlier one of the same
    name, in its place. *)
Definition entry_of (v : vobj) : entry :=
  mkE (vn v) (Some (vbounds (vk v))) (TCls (type_name (vk v))) (Some 1) false
      (match vk v with KReal _ _ p => p | _ => None end)
      (match vk v with KReal _ _ _ => Some (vscale v) | _ => None end)
      (match vk v with KInt _ _ st => Some st | _ => None end).
(** 590-609: out[name] = value. *)
Fixpoint set_item (d : list entry) (e : entry) : list entry :=
  match d with
  | [] => [e]
  | x :: r => if String.eqb (ekey x) (ekey e) then e :: r else x :: set_item r e
  end.
(** 590-609 to_dict. *)
Definition to_dict (h : heap) (s : space) : list entry := fold_left (fun d v => set_item d (entry_of v)) (variables h s) [].
