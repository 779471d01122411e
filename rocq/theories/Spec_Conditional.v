(** Vocabulary of the properties of the conditional optimizer. *)
From Coq Require Import ZArith QArith String.
From Verif Require Import Model_Conditional.

(** The values that are false in a condition of Python. *)
Inductive falsy : value -> Prop :=
| falsy_none : falsy PNone
| falsy_int : falsy (PInt 0)
| falsy_float q : (q == 0)%Q -> falsy (PFloat q)
| falsy_str : falsy (PStr "")
| falsy_bool : falsy (PBool false).
