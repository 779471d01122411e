(** Vocabulary of the properties of the error measures. *)
From Coq Require Import Reals List.
From Verif Require Import Lib_Normal.
Import ListNotations.
Open Scope R_scope.
(** The average of n terms. *)
Definition average (n : nat) (f : nat -> R) : R := fold_right (fun i s => f i + s) 0 (seq 0 n) / INR n.
(** Minus the logarithm of the density at y of the normal distribution with mean m and variance v. *)
Definition log_loss (m v y : R) : R := - ln (pdf ((y - m) / sqrt v) / sqrt v).
