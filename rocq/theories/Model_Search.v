(** The search for the hyper-parameters of the Gaussian process:
    bayes_optim/surrogate/gaussian_process/gpr.py 1057-1194 and cma_es.py 565-618. *)
From Coq Require Import List Bool Arith ZArith QArith String.
Import ListNotations.

(** A float: the value of the negated log-likelihood (gpr.py 986-988 returns -inf for a rejected one). *)
Inductive val := Num (q : Q) | PInf | NInf | NaN.
(** a <= b and a > b of floats; every comparison with nan is false. *)
Definition vle (a b : val) : bool :=
  match a, b with
  | NaN, _ | _, NaN => false
  | NInf, _ | _, PInf => true
  | PInf, _ | _, NInf => false
  | Num a, Num b => Qle_bool a b
  end.
(** a > b of floats. *)
Definition vgt (a b : val) : bool :=
  match a, b with NaN, _ | _, NaN => false | _, _ => negb (vle a b) end.
(** -a of a float. *)
Definition vneg (a : val) : val :=
  match a with Num q => Num (- q) | PInf => NInf | NInf => PInf | NaN => NaN end.

(** ** optimizer = "BFGS": gpr.py 1127-1166 *)
Section Bfgs.
  Context {P : Type}.
  (** fmin_l_bfgs_b from a starting point with a limit on the evaluations: the point, the value and
      info["funcalls"]; and the random starting point of a later restart. *)
  Variable inner : P -> Z -> P * val * Z.
  Variable draw : nat -> P.
  Variable wait_iter : Z.

  (** [k] restarts are left; [trace] collects what the inner runs returned, oldest first.
      None for the best result: param_opt is unbound. *)
  Fixpoint restarts (k iteration : nat) (start : P) (best : option (P * val)) (wait budget : Z)
      (trace : list (P * val * Z)) : option (P * val) * list (P * val * Z) :=
    match k with
    | 0%nat => (best, trace)
    | S k =>
        let start := if Nat.eqb iteration 0 then start else draw iteration in
        let '(x, f, n) := inner start budget in
        let '(best, wait) :=
          if Nat.eqb iteration 0 then (Some (x, f), wait)
          else match best with
               | Some (_, b) => if vle f b then (Some (x, f), 0%Z) else (best, (wait + 1)%Z)
               | None => (None, wait)
               end in
        let budget := (budget - n)%Z in
        let trace := trace ++ [(x, f, n)] in
        if ((budget <=? 0) || (wait_iter <=? wait))%Z then (best, trace)
        else restarts k (S iteration) start best wait budget trace
    end.
  (** gpr.py 1057-1194: the branch of BFGS, with all restarts. *)
  Definition bfgs (random_start : nat) (start : P) (budget : Z) := restarts random_start 0 start None 0 budget [].
End Bfgs.

(** ** optimizer = "CMA": gpr.py 1168-1184 with cma_es.py 565-618 *)
Section Cma.
  Context {P : Type}.
  (** The sampled points of each generation (mutation, recombination, adaptation of the distribution
      and their random numbers) and the log-likelihood.  Exceptions in them are not modelled. *)
  Variable offspring : nat -> list P.
  Variable loglik : P -> val.
  Variable budget : Z.

  (** gpr.py 1109-1117 negates the log-likelihood, and cma_es.py 75 negates it again, because
      the caller passes is_minimize=False. *)
  Definition fitness (x : P) : val := vneg (vneg (loglik x)).
  (** argsort(fitness)[0] *)
  Fixpoint smallest (l : list P) : option P :=
    match l with
    | [] => None
    | x :: l => match smallest l with Some y => if vle (fitness x) (fitness y) then Some x else Some y | None => Some x end
    end.

  (** cma_es.py 565-618: the attributes of the optimizer that the loop changes. *)
  Record cma := mkCma { c_xopt : P; c_fopt : val; c_evals : Z; c_stop : list (string * bool) }.
  (** cma_es.py 595-599, 476-477 (of the entries of stop_dict only ftarget and maxfevals are modelled;
      f_target is inf, negated by cma_es.py 116). *)
  Definition generation (g : nat) (s : cma) : cma :=
    let pop := offspring g in
    let evals := (c_evals s + Z.of_nat (List.length pop))%Z in
    let '(x, f) := match smallest pop with
                   | Some x => if vgt (c_fopt s) (fitness x) then (x, fitness x) else (c_xopt s, c_fopt s)
                   | None => (c_xopt s, c_fopt s)
                   end in
    mkCma x f evals [("ftarget"%string, vle f NInf); ("maxfevals"%string, (budget <=? evals)%Z)].
  (** cma_es.py 601: array(self.stop_dict.values()) == True.  In Python 3 the array is a single object, the view
      of the values, which is not equal to True. *)
  Definition stop_requested (d : list (string * bool)) : bool := false.
  (** cma_es.py 567-618: [fuel] generations.  None: still running.  The code after the inner loop, which would
      start the next restart, is left out, because the inner loop is never left. *)
  Fixpoint run (fuel g : nat) (s : cma) : cma * bool :=
    match fuel with
    | 0%nat => (s, false)
    | S fuel => let s := generation g s in if stop_requested (c_stop s) then (s, true) else run fuel (S g) s
    end.
  (** cma_es.py 565-618: before the first generation. *)
  Definition cma_init (start : P) : cma := mkCma start PInf 0 [].
  (** restart_budget = random_start *)
  Definition cma_optimize (fuel random_start : nat) (start : P) : cma * bool :=
    match random_start with 0%nat => (cma_init start, true) | _ => run fuel 0 (cma_init start) end.
End Cma.
