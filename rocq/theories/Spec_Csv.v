(** What a delimited text file says: a reader for such files, and the records of a solution set.
    Nothing here mentions the writer. *)
From Coq Require Import Bool Arith ZArith QArith String Ascii List.
From Verif Require Import Model_Var Model_Opt Model_Sol Spec_Sol.
From Verif Require Model_MOBO.
Import ListNotations.
Open Scope nat_scope.

(** The pieces of a text between the occurrences of a character. *)
Fixpoint split (d : ascii) (s : string) : list string :=
  match s with
  | EmptyString => [EmptyString]
  | String c s' =>
    if Ascii.eqb c d then EmptyString :: split d s'
    else match split d s' with
         | w :: l => String c w :: l
         | [] => [String c EmptyString]
         end
  end.

(** The lines of a text all of whose lines are ended by a newline. *)
Definition lines (s : string) : list string := removelast (split (ascii_of_nat 10) s).

(** The records of a delimited text. *)
Definition records (d : ascii) (s : string) : list (list string) := map (split d) (lines s).

(** The character does not occur in the text. *)
Fixpoint free (d : ascii) (s : string) : Prop :=
  match s with EmptyString => True | String c s' => c <> d /\ free d s' end.

(** A text that can stand in a column: neither the delimiter nor a newline occurs in it. *)
Definition plain (d : ascii) (s : string) : Prop := free d s /\ free (ascii_of_nat 10) s.

Section Table.
  Variable show : val -> string.               (* str of a component *)
  Variable show_f : option Q -> string.        (* str of a fitness value *)
  Variable show_n : Z -> string.               (* str of a count *)

  (** The record of the i-th solution: label, components, number of evaluations, fitness. *)
  Definition is_record (h : heap) (s : sol) (i : nat) (r : list string) : Prop :=
    exists l xs n fs, nth_error (labels h s) i = Some l /\ nth_error (values h s) i = Some xs /\
      nth_error (evals h s) i = Some n /\ nth_error (fits h s) i = Some fs /\
      r = l :: map show xs ++ show_n n :: map show_f fs.
End Table.

(** l is m with some elements left out. *)
Inductive sublist {A} : list A -> list A -> Prop :=
| sub_nil : sublist [] []
| sub_skip a l m : sublist l m -> sublist l (a :: m)
| sub_keep a l m : sublist l m -> sublist (a :: l) (a :: m).

(** The text of a file, empty when there is none. *)
Definition contents (f : option string) : string := match f with Some s => s | None => EmptyString end.

(** A line that describes an observation of a multi-objective run: a label, the components of the
    point, the number of evaluations and the objective values. *)
Definition describes {X} (cells : X -> list string) (str_f : Model_MOBO.fval -> string) (count : string)
  (l : list string) (r : Model_MOBO.row X) : Prop :=
  exists lab, l = lab :: cells (Model_MOBO.r_x r) ++ count :: map str_f (Model_MOBO.r_fit r).
