(** Vocabulary of the properties of the sampler under constraints. *)
From Coq Require Import Reals ZArith List.
From Coquelicot Require Import Coquelicot.
From Verif Require Import Lib_Sum Lib_Normal Model_Metropolis.
Import ListNotations.
Open Scope R_scope.

(** All combinations of the levels. *)
Fixpoint product {V} (Ls : list (list V)) : list (list V) :=
  match Ls with [] => [[]] | L :: Ls' => flat_map (fun a => map (cons a) (product Ls')) L end.
(** Sum over a list of points. *)
Definition over {V} (S : list V) (h : V -> R) : R := fold_right (fun x s => h x + s) 0 S.
(** The density sampled from: the target density times the probabilities that the constraints with Gaussian noise of deviation nu
    hold. *)
Definition posterior {V} (target : list V -> R) (constraints : list V -> option (list R)) (nu : R) (x : list V) : R :=
  target x * fold_right (fun v p => cdf (- v / nu) * p) 1 (match constraints x with Some c => c | None => [] end).

(** Expectations: a uniform number between 0 and 1, a uniform position, all random numbers of one component with m levels, those
    of one row, and those of one row in n steps. *)
Definition expect01 (g : R -> R) : R := RInt g 0 1.
Definition expect_position (m : nat) (g : nat -> R) : R := sumn m g / INR m.
Definition expect_draw (m : nat) (g : draw -> R) : R :=
  expect01 (fun a => expect_position m (fun j => expect01 (fun u => g (Draw a j 0%Z u)))).
Fixpoint expect_row (ms : list nat) (g : list draw -> R) : R :=
  match ms with [] => g [] | m :: ms' => expect_draw m (fun d => expect_row ms' (fun ds => g (d :: ds))) end.
Fixpoint expect_steps (n : nat) (ms : list nat) (g : list (list draw) -> R) : R :=
  match n with O => g [] | S n' => expect_row ms (fun ds => expect_steps n' ms (fun w => g (ds :: w))) end.
(** The final point of a single row; the theorems prove that it exists. *)
Definition final {V} (x : list V) (o : option (list (list V))) : list V := match o with Some (y :: _) => y | _ => x end.
(** The difference of two independent geometric numbers. *)
Definition expect_geometric (p : R) (g : Z -> R) : R :=
  Series (fun a => p * (1 - p) ^ a * Series (fun b => p * (1 - p) ^ b * g (Z.of_nat a - Z.of_nat b)%Z)).
