(** A whole run of MOBO (mobo.py) on a search space with real, integer and categorical variables and with constraints: the loop of
    _base.py 133-136 with step of base.py 252-256.  tell and xopt are those of Model_MOBO; ask, the sampler and the evolution strategy
    are those of Model_Ask, Model_Sampler and Model_Propose, as in Model_Run.  The random numbers, the surrogates and the objective
    functions are arbitrary. *)
From Coq Require Import Bool Arith ZArith QArith String List.
From Verif Require Import Model_Opt Model_Var Model_Ask Model_Sampler Model_Propose Model_Run Model_Pareto.
From Verif Require Model_MOBO.
Import ListNotations.
Open Scope nat_scope.
Notation mval := Model_MOBO.fval.
Notation mrow := (Model_MOBO.row point).
Notation mst := (Model_MOBO.mstate point).

(** One call: the number of the objective function, the point and what it returned. *)
Notation mcall := (nat * point * res mval)%type.

Inductive mo_outcome :=
| MReturned (s : mst) (front : list mrow)
| MRaised (e : exn) (s : mst)
| MOutOfFuel.

Section MoRun.
  (** The arguments of the constructor (mobo.py 23-27): of [P] the values of minimize, ftarget and batch are not used, as the parent
      is given minimize = True and MOBO does not implement batches; there are no warm data.  [minimize]: one entry for each objective. *)
  Variable P : problem.
  Variable minimize : list bool.
  (** The conversion to single precision by torch.Tensor. *)
  Variable cast : Q -> Q.
  Variable W : world.
  (** The objective functions: the j-th one at the i-th point of the k-th iteration; it may be noisy and it may raise. *)
  Variable func : nat -> nat -> nat -> point -> res mval.

  Definition n_obj : nat := List.length minimize.
  (** The points of self.data, read by ask. *)
  Definition mo_known (s : mst) : list point := map Model_MOBO.r_x (Model_MOBO.data s).

  (** base.py 254: ask().  The model is fitted as soon as tell has succeeded. *)
  Definition mo_propose (k : nat) (s : mst) : res (list point) :=
    ask_mies (p_space P) (p_h P) (p_g P) (w_argsort W) (p_AQ_wait_iter P) (p_AQ_n_restart P) (w_acquisition W k) (w_start W k) (w_rnd W k)
      (p_AQ_max_FEs P) (run_samp P W k) false (0 <? Model_MOBO.iter_count s) (mo_known s) (p_n_point P) (p_DoE_size P) None.

  (** mobo.py 87-91: the calls, objective by objective, up to the first exception (sequential execution). *)
  Fixpoint mo_calls1 (k j i : nat) (X : list point) : list mcall :=
    match X with
    | [] => []
    | x :: X' => (j, x, func k j i x) :: match func k j i x with Ok _ => mo_calls1 k j (S i) X' | Err _ => [] end
    end.
  (** mobo.py 87-91: the values of one objective, or the exception. *)
  Fixpoint mo_column (l : list mcall) : res (list mval) :=
    match l with
    | [] => Ok []
    | (_, Err e) :: _ => Err e
    | (_, Ok v) :: l' => match mo_column l' with Err e => Err e | Ok vs => Ok (v :: vs) end
    end.
  (** mobo.py 87-91: the calls for the objectives from j on. *)
  Fixpoint mo_calls (k j n : nat) (X : list point) : list mcall :=
    match n with
    | 0 => []
    | S n' => mo_calls1 k j 0 X ++ match mo_column (mo_calls1 k j 0 X) with Ok _ => mo_calls k (S j) n' X | Err _ => [] end
    end.
  (** mobo.py 87-91: the values of the objectives from j on. *)
  Fixpoint mo_columns (k j n : nat) (X : list point) : res (list (list mval)) :=
    match n with
    | 0 => Ok []
    | S n' => match mo_column (mo_calls1 k j 0 X) with
              | Err e => Err e
              | Ok c => match mo_columns k (S j) n' X with Err e => Err e | Ok cs => Ok (c :: cs) end
              end
    end.
  (** mobo.py 78-93: one row for each point *)
  Definition mo_evaluate (k : nat) (X : list point) : res (list (list mval)) :=
    match mo_columns k 0 n_obj X with
    | Err e => Err e
    | Ok cs => Ok (Model_MOBO.zip_star (Model_MOBO.shortest cs) cs)
    end.

  (** base.py 252-256.  An exception of tell is an IndexError of post_eval_check or comes from the surrogate. *)
  Definition fits (k : nat) : bool := match w_model W k with (true, None) => true | _ => false end.
  (** base.py 252-256. *)
  Definition mo_step (k : nat) (s : mst) : option exn * mst :=
    match mo_propose k s with
    | Err e => (Some e, s)
    | Ok X => match mo_evaluate k X with
              | Err e => (Some e, s)
              | Ok F => match Model_MOBO.tell n_obj (fits k) s false X F with
                        | Model_MOBO.Done s' => (None, s')
                        | Model_MOBO.Raised s' => (Some (if forallb Model_MOBO.is_fin (List.concat F) then EModel else EIndex), s')
                        end
              end
    end.

  (** mobo.py 51-57: xopt; [None] without data. *)
  Definition fin_of (v : mval) : Q := match v with Model_MOBO.Fin q => q | _ => 0%Q end.
  (** data.fitness (mobo.py 51-57). *)
  Definition values_of (s : mst) : list (list Q) := map (fun r => map fin_of (Model_MOBO.r_fit r)) (Model_MOBO.data s).
  (** mobo.py 51-57. *)
  Definition mo_xopt (s : mst) : option (list mrow) :=
    match Model_MOBO.data s with
    | [] => None
    | d => Some (flat_map (fun i => match nth_error d i with Some r => [r] | None => [] end) (Model_MOBO.xopt_index cast minimize (values_of s)))
    end.

  (** _base.py 123-131: with a target, xopt.fitness[0] is a row and self.minimize an array; the truth value of an array with several
      elements is a ValueError, and with one element the comparison is made. *)
  Definition mo_compare (row : list mval) (t : Q) : res bool :=
    match minimize, row with
    | [true], [Model_MOBO.Fin q] => Ok (negb (Qle_bool t q))
    | [false], [Model_MOBO.Fin q] => Ok (negb (Qle_bool t q))
    | _, _ => Err EValue
    end.
  (** _base.py 123-131. *)
  Definition mo_check_stop (target : option Q) (s : mst) : res bool :=
    let by_budget := match p_max_FEs P with Some m => m <=? Model_MOBO.eval_count s | None => false end in
    match target, mo_xopt s with
    | Some t, Some front => match front with
                            | [] => Err EIndex
                            | r :: _ => match mo_compare (Model_MOBO.r_fit r) t with Err e => Err e | Ok b => Ok (by_budget || b) end
                            end
    | _, _ => Ok by_budget
    end.

  (** _base.py 133-136; [fuel] bounds the number of iterations.  _to_pheno(None) is an AttributeError. *)
  Fixpoint mo_loop (target : option Q) (fuel k : nat) (s : mst) : mo_outcome :=
    match mo_check_stop target s with
    | Err e => MRaised e s
    | Ok true => match mo_xopt s with Some front => MReturned s front | None => MRaised EAttribute s end
    | Ok false =>
        match fuel with
        | 0 => MOutOfFuel
        | S fuel' => match mo_step k s with (Some e, s') => MRaised e s' | (None, s') => mo_loop target fuel' (S k) s' end
        end
    end.
  (** The calls of the objective functions in each iteration. *)
  Fixpoint mo_log (target : option Q) (fuel k : nat) (s : mst) : list (list mcall) :=
    match mo_check_stop target s with
    | Ok false =>
        match fuel with
        | 0 => []
        | S fuel' =>
            match mo_propose k s with
            | Err _ => []
            | Ok X => mo_calls k 0 n_obj X :: match mo_step k s with (None, s') => mo_log target fuel' (S k) s' | _ => [] end
            end
        end
    | _ => []
    end.
  (** _base.py 133-136 from the new optimizer on, with the calls made. *)
  Definition mo_run (target : option Q) (fuel : nat) : mo_outcome * list (list mcall) :=
    (mo_loop target fuel 0 Model_MOBO.mstart, mo_log target fuel 0 Model_MOBO.mstart).
End MoRun.

(** ** The optimizer of the acquisition function *)
(** mobo.py 23-27: the parent's constructor runs before n_obj is set, with the default n_obj = 1 (_base.py 18). *)
Definition mobo_chosen (given : option string) (real gradient : bool) (n_obj : nat) (constrained : bool) : string :=
  let n_obj_of_parent := match n_obj with _ => 1 end in
  chosen given real gradient n_obj_of_parent constrained.
(** mobo.py 177-186 and multi_objective/analytic.py forward: EHVI returns an array with one value whatever return_dx;
    optim/__init__.py 48: Penalized unpacks two values, otherwise a ValueError. *)
Definition ehvi_outputs (return_dx : bool) : nat := if return_dx then 1 else 1.
(** optim/__init__.py 48. *)
Definition penalized_call (outputs : nat) : res unit := if outputs =? 2 then Ok tt else Err EValue.
(** The first call of the acquisition function in ask with the optimizer [o]; the other optimizers take one value. *)
Definition first_acquisition (o : string) (real : bool) : raised + res unit :=
  match restart_engine o real with
  | inl e => inl e
  | inr (LBFGSB, dx) => inr (penalized_call (ehvi_outputs dx))
  | inr (_, dx) => inr (Ok tt)
  end.
