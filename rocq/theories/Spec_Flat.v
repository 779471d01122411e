(** Vocabulary for C260. *)
From Coq Require Import List ZArith QArith.
From Verif Require Import Model_Opt Spec_Opt.
Import ListNotations.
Open Scope Q_scope.

(** The finite values in the data of an optimizer. *)
Definition stored {xv} (s : st xv) : list Q := flat_map (fun r => match rf r with FNum q => [q] | _ => [] end) (rows s).
(** The sum of the squared differences of all ordered pairs, that is 2 n^2 times the square of the standard deviation. *)
Definition spread (l : list Q) : Q := fold_right Qplus 0 (map (fun p => (fst p - snd p) * (fst p - snd p)) (list_prod l l)).
(** More than five values whose standard deviation is at most 10^-8. *)
Definition flat_values (l : list Q) : Prop :=
  (5 < List.length l)%nat /\ spread l <= 2 * inject_Z (Z.of_nat (List.length l)) * inject_Z (Z.of_nat (List.length l)) * (1 # 10000000000000000).
