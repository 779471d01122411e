(** The acquisition parameters of several optimizers in one process (bayes_optim/bayes_opt.py
    66-98, 124, 140-143, 173; base.py 112).  Dictionaries are objects in a heap, so that two
    optimizers can hold the same one. *)
From Coq Require Import Bool Arith QArith String List.
Import ListNotations.
Open Scope nat_scope.

Definition dict := list (string * Q).
(** d[k] = v of a Python dict (bayes_opt.py 124, 140-143). *)
Fixpoint dset (d : dict) (k : string) (v : Q) : dict :=
  match d with [] => [(k, v)] | (k', v') :: d' => if String.eqb k' k then (k, v) :: d' else (k', v') :: dset d' k v end.
(** d[k] of a Python dict. *)
Definition dget (d : dict) (k : string) : option Q := option_map snd (find (fun p => String.eqb (fst p) k) d).

(** All dictionaries, the next free address, and the address of each optimizer's
    _acquisition_par.  Address 0 is the default argument {"t": 2} of ParallelBO (70), which is
    created once, when the class is defined. *)
Record heap := Heap { cell : nat -> dict; next : nat; opts : list nat }.
(** No counterpart in the code: replace the contents of one dictionary. *)
Definition put (h : heap) (a : nat) (d : dict) : heap := Heap (fun b => if b =? a then d else cell h b) (next h) (opts h).
(** The state after the module has been imported; bayes_opt.py 70 for the default argument. *)
Definition import : heap := Heap (fun _ => [("t"%string, 2%Q)]) 1 [].

(** the argument acquisition_par of the constructor: left out, a dictionary of the caller, or a
    new literal *)
Inductive par := Default | Given (a : nat) | Literal (d : dict).
(** bayes_opt.py 73-98: the acquisition functions with a parameter. *)
Inductive fun_name := MGFI | UCB | EpsilonPI.
(** bayes_opt.py 73-98: the name of the parameter of each. *)
Definition par_name (f : fun_name) : string := match f with MGFI => "t" | UCB => "alpha" | EpsilonPI => "epsilon" end.

(** base.py:112  acquisition_par if acquisition_par else {} *)
Definition bind_par (h : heap) (p : par) : heap * nat :=
  match p with
  | Default => (h, 0)
  | Given a => if match cell h a with [] => true | _ => false end
               then (Heap (fun b => if b =? next h then [] else cell h b) (S (next h)) (opts h), next h) else (h, a)
  | Literal d => (Heap (fun b => if b =? next h then d else cell h b) (S (next h)) (opts h), next h)
  end.
(** 73-98  ParallelBO(acquisition_fun=f, acquisition_par=p); dv is the default value of the
    parameter in the acquisition class *)
Definition parallel (h : heap) (f : fun_name) (p : par) (dv : Q) : heap * nat :=
  let (h, a) := bind_par h p in
  let h := if existsb (fun kv => String.eqb (fst kv) (par_name f)) (cell h a) then h else put h a (dset (cell h a) (par_name f) dv) in
  (Heap (cell h) (next h) (opts h ++ [a]), length (opts h)).
(** 119-124  AnnealingBO *)
Definition annealing (h : heap) (f : fun_name) (p : par) (dv t0 : Q) : heap * nat :=
  let (h, o) := parallel h f p dv in
  let a := nth o (opts h) 0 in
  (put h a (dset (cell h a) "t" t0), o).
(** 140-143 (AnnealingBO) and 173 (SelfAdaptiveBO): after a proposal the parameter t of optimizer o
    is set to v *)
Definition adapt (h : heap) (o : nat) (v : Q) : heap :=
  match nth_error (opts h) o with Some a => put h a (dset (cell h a) "t" v) | None => h end.

(** What optimizer o passes to its acquisition function. *)
Definition parameters (h : heap) (o : nat) : option dict := option_map (cell h) (nth_error (opts h) o).

(** The calls a process makes, one constructor each. *)
Inductive action :=
| AParallel (f : fun_name) (p : par) (dv : Q)
| AAnnealing (f : fun_name) (p : par) (dv t0 : Q)
| AAdapt (o : nat) (v : Q).
(** The effect of one call; each case is one of the functions above. *)
Definition act (h : heap) (x : action) : heap :=
  match x with
  | AParallel f p dv => fst (parallel h f p dv)
  | AAnnealing f p dv t0 => fst (annealing h f p dv t0)
  | AAdapt o v => adapt h o v
  end.
