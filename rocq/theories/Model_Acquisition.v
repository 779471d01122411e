(** Model of bayes_optim/acquisition/acquisition_fun.py over the real numbers.

    Numbers are real instead of floating point; what floating point adds and the code reacts to (a
    not-a-number result, an overflow in [exp]) is represented: a value of [None] is not-a-number and
    an exponent above [exp_max] overflows.  A call is modelled for one point, the way
    [argmax_restart] calls it (the branches [n_sample == 1]).  The surrogate is any function giving
    a prediction and a mean squared error, with any gradient function; its mean squared error is
    meant to be non-negative (gpr.py clamps it at zero, line 510; random_forest.py squares a
    deviation, line 147). *)
From Coq Require Import Reals List Bool Lra.
From Verif Require Import Lib_Normal.
Import ListNotations.
Open Scope R_scope.

Definition rltb (a b : R) : bool := if Rlt_dec a b then true else false.
(** No counterpart in the code: Python's <= on numbers. *)
Definition rleb (a b : R) : bool := if Rle_dec a b then true else false.
(** No counterpart in the code: Python's == on numbers. *)
Definition reqb (a b : R) : bool := if Req_EM_T a b then true else false.

(** What an acquisition function uses of a surrogate: [predict(X, eval_MSE=True)], [gradient(X)],
    and the attributes [sigma2] and [y], which need not exist (lines 61, 77, 99 and 162). *)
Record surrogate := Surrogate {
  s_predict : list R -> R * R;
  s_gradient : list R -> list R * list R;
  s_sigma2 : option R;
  s_y : option (list R)
}.

(** [AcquisitionFunction._predict], lines 52-64. *)
Definition predict (minimize : bool) (s : surrogate) (x : list R) : R * R :=
  let (y_hat, sd2) := s_predict s x in
  ((if minimize then y_hat else -1 * y_hat), sqrt sd2).
(** [AcquisitionFunction._gradient], lines 66-80.  The transposition is left out: gradients are
    lists with one entry per coordinate. *)
Definition gradient (minimize : bool) (s : surrogate) (x : list R) : list R * list R :=
  let (y_dx, sd2_dx) := s_gradient s x in
  ((if minimize then y_dx else map (fun g => -1 * g) y_dx), sd2_dx).

(** [np.min], line 100. *)
Fixpoint list_min (a : R) (l : list R) : R := match l with [] => a | b :: l' => list_min (Rmin a b) l' end.
(** [np.max], line 100. *)
Fixpoint list_max (a : R) (l : list R) : R := match l with [] => a | b :: l' => list_max (Rmax a b) l' end.

(** The exceptions that reach the caller: ValueError (line 44, [np.min] of an empty array), AssertionError (lines 46, 124,
    205, 261), TypeError (keyword arguments). *)
Inductive error := ValueError | AssertionError | TypeError.
(** A value or an exception. *)
Inductive result (A : Type) := Ok (a : A) | Err (e : error).
Arguments Ok {A}. Arguments Err {A}.

(** [ImprovementBased.plugin] setter, lines 96-104; [np.min] and [np.max] of an empty array raise. *)
Definition set_plugin (minimize : bool) (s : surrogate) (plugin : option R) : result (option R) :=
  match plugin with
  | None =>
      match s_y s with
      | None => Ok None
      | Some [] => Err ValueError
      | Some (a :: l) => Ok (Some (if minimize then list_min a l else -1 * list_max a l))
      end
  | Some p => Ok (Some (if minimize then p else -1 * p))
  end.

(** Entry-wise combination of the two gradients of the surrogate, as numpy's broadcasting does. *)
Fixpoint map2 (f : R -> R -> R) (a b : list R) : list R :=
  match a, b with u :: a', v :: b' => f u v :: map2 f a' b' | _, _ => [] end.

(** ** UCB, lines 107-147 *)
Definition UCB_value (alpha : R) (minimize : bool) (s : surrogate) (x : list R) : R :=
  let (y_hat, sd) := predict minimize s x in y_hat + alpha * sd.
(** Lines 139-146; a division by a zero deviation gives not-a-number or an infinity. *)
Definition UCB_dx (alpha : R) (minimize : bool) (s : surrogate) (x : list R) : option (list R) :=
  let (y_hat, sd) := predict minimize s x in
  let (y_dx, sd2_dx) := gradient minimize s x in
  if reqb sd 0 then None
  else Some (map2 (fun dy d2 => dy + alpha * (d2 / (2 * sd))) y_dx sd2_dx).

(** ** EI, lines 150-189 *)
(** The test of lines 162-169: true when the call returns zero at once.  A zero [sigma2] gives an
    infinity or not-a-number, which is not below the bound. *)
Definition EI_small (s : surrogate) (sd : R) : bool :=
  match s_sigma2 s with
  | Some v => if reqb (sqrt v) 0 then false else rltb (sd / sqrt v) (/ 1000000)
  | None => rltb sd (/ 10000000000)
  end.
(** Lines 170-179, for a plugin that is a number. *)
Definition EI_formula (plugin y_hat sd : R) : option R :=
  let xcr_ := plugin - y_hat in
  if reqb sd 0 then (if rltb 0 xcr_ then Some xcr_ else if rltb xcr_ 0 then Some 0 else None)
  else let xcr := xcr_ / sd in Some (xcr_ * cdf xcr + sd * pdf xcr).
(** [EI.__call__] without gradient, lines 153-180 and 189; without a plugin line 171 raises and line 179 gives zero. *)
Definition EI_value (plugin : option R) (minimize : bool) (s : surrogate) (x : list R) : option R :=
  let (y_hat, sd) := predict minimize s x in
  if EI_small s sd then Some 0
  else match plugin with None => Some 0 | Some p => EI_formula p y_hat sd end.
(** Lines 164, 169 and 181-188. *)
Definition EI_dx (plugin : option R) (minimize : bool) (s : surrogate) (x : list R) : option (list R) :=
  let (y_hat, sd) := predict minimize s x in
  let (y_dx, sd2_dx) := gradient minimize s x in
  if EI_small s sd then Some (map (fun _ => 0) x)
  else match plugin with
       | None => Some (map (fun _ => 0) x)
       | Some p =>
           let xcr := (p - y_hat) / sd in
           if reqb sd 0 then None
           else Some (map2 (fun dy d2 => - dy * cdf xcr + (d2 / (2 * sd)) * pdf xcr) y_dx sd2_dx)
       end.

(** ** EpsilonPI, lines 192-228 *)
Definition PI_coef (eps y_hat : R) : R := if rltb 0 y_hat then 1 - eps else 1 + eps.
(** Lines 213-218; a zero deviation gives an infinite argument, or not-a-number. *)
Definition PI_formula (eps plugin y_hat sd : R) : option R :=
  let xcr_ := plugin - PI_coef eps y_hat * y_hat in
  if reqb sd 0 then (if rltb 0 xcr_ then Some 1 else if rltb xcr_ 0 then Some 0 else None)
  else Some (cdf (xcr_ / sd)).
(** [EpsilonPI.__call__] without gradient, lines 208-218 and 228; without a plugin line 218 gives zero. *)
Definition PI_value (eps : R) (plugin : option R) (minimize : bool) (s : surrogate) (x : list R) : option R :=
  let (y_hat, sd) := predict minimize s x in
  match plugin with None => Some 0 | Some p => PI_formula eps p y_hat sd end.
(** Lines 220-227. *)
Definition PI_dx (eps : R) (plugin : option R) (minimize : bool) (s : surrogate) (x : list R) : option (list R) :=
  let (y_hat, sd) := predict minimize s x in
  let (y_dx, sd2_dx) := gradient minimize s x in
  match plugin with
  | None => Some (map (fun _ => 0) x)
  | Some p =>
      let coef := PI_coef eps y_hat in
      let xcr := (p - coef * y_hat) / sd in
      if reqb sd 0 then None
      else Some (map2 (fun dy d2 => - (coef * dy + xcr * (d2 / (2 * sd))) * pdf xcr / sd) y_dx sd2_dx)
  end.

(** ** MGFI, lines 238-310 *)
(** The [t] setter, lines 259-263. *)
Definition MGFI_set_t (t : R) : result R := if rltb 0 t then Ok (Rmin t (2236 / 100)) else Err AssertionError.
(** [np.isclose(sd, 0)], line 274: the absolute tolerance is 1e-8. *)
Definition MGFI_small (sd : R) : bool := rleb (Rabs sd) (/ 100000000).
(** Lines 277-290.  Warnings are errors inside of the block, so that an overflow in [exp], for an
    exponent above [exp_max], ends in the value zero. *)
Definition MGFI_formula (exp_max t plugin y_hat sd : R) : R :=
  let y_hat_p := y_hat - t * (sd * sd) in
  let beta_p := (plugin - y_hat_p) / sd in
  let term := t * (plugin - y_hat - 1) in
  let e := term + t * t * (sd * sd) / 2 in
  if rltb exp_max e then 0 else cdf beta_p * exp e.
(** [MGFI.__call__] without gradient, lines 265-290 and 310; without a plugin line 287 gives zero. *)
Definition MGFI_value (exp_max t : R) (plugin : option R) (minimize : bool) (s : surrogate) (x : list R) : R :=
  let (y_hat, sd) := predict minimize s x in
  if MGFI_small sd then 0
  else match plugin with None => 0 | Some p => MGFI_formula exp_max t p y_hat sd end.
(** Lines 275 and 292-309. *)
Definition MGFI_dx (exp_max t : R) (plugin : option R) (minimize : bool) (s : surrogate) (x : list R) : list R :=
  let (y_hat, sd) := predict minimize s x in
  let (y_dx, sd2_dx) := gradient minimize s x in
  if MGFI_small sd then map (fun _ => 0) x
  else match plugin with
       | None => map (fun _ => 0) x
       | Some p =>
           let y_hat_p := y_hat - t * (sd * sd) in
           let beta_p := (p - y_hat_p) / sd in
           let e := t * (p + t * (sd * sd) / 2 - y_hat - 1) in
           if rltb exp_max e then map (fun _ => 0) x
           else map2 (fun dy d2 =>
                  let sd_dx := d2 / (2 * sd) in
                  let m_prime_dx := dy - 2 * t * sd * sd_dx in
                  let beta_p_dx := - (m_prime_dx + beta_p * sd_dx) / sd in
                  exp e * (pdf beta_p * beta_p_dx + cdf beta_p * ((t * t) * sd * sd_dx - t * dy))) y_dx sd2_dx
       end.

(** ** Constructors *)
(** The classes exported by bayes_optim/acquisition/__init__.py, with the keyword arguments that
    their constructors in acquisition_fun.py take: [UCB] lines 108-125, [EI] lines 88-90, [EpsilonPI] lines 195-206, [PI]
    lines 232-235 and [MGFI] lines 250-263.  [None] is an argument that is not given.  [model] and
    [minimize] are always passed by the optimizer (base.py line 488). *)
Inductive acquisition :=
| AUCB (alpha : R)
| AEI (plugin : option R)
| AEpsilonPI (epsilon : R) (plugin : option R)
| AMGFI (t : R) (plugin : option R).
(** The classes of lines 107, 150, 192, 231 and 238. *)
Inductive cls := UCB | EI | EpsilonPI | PI | MGFI.
(** The keyword arguments of lines 88, 108, 195 and 250. *)
Record kwargs := Kwargs { k_alpha : option R; k_epsilon : option R; k_t : option R; k_plugin : option R }.
(** A call of the constructor without keyword arguments. *)
Definition no_kwargs : kwargs := Kwargs None None None None.
(** The default values of lines 108, 195 and 250. *)
Definition dflt (d : R) (o : option R) : R := match o with Some v => v | None => d end.
(** A keyword argument that ends in [AcquisitionFunction.__init__] (line 25), which does not take it: a TypeError. *)
Definition unexpected (o : option R) : bool := match o with Some _ => true | None => false end.

(** [UCB.alpha] and [EpsilonPI.epsilon] setters, lines 123-125 and 204-206. *)
Definition set_positive (v : R) : result R := if rltb 0 v then Ok v else Err AssertionError.
(** No counterpart in the code: an exception skips what follows. *)
Definition bind {A B} (r : result A) (f : A -> result B) : result B := match r with Ok a => f a | Err e => Err e end.
(** [EpsilonPI.__init__], lines 195-206: first the plugin (lines 88-90), then epsilon. *)
Definition new_EpsilonPI (minimize : bool) (s : surrogate) (k : kwargs) : result acquisition :=
  if unexpected (k_alpha k) || unexpected (k_t k) then Err TypeError
  else bind (set_plugin minimize s (k_plugin k)) (fun p =>
       bind (set_positive (dflt (/ 10000000000) (k_epsilon k))) (fun e => Ok (AEpsilonPI e p))).
(** The constructors of lines 88-90, 108-116, 195-197, 232-235 and 250-253. *)
Definition construct (c : cls) (minimize : bool) (s : surrogate) (k : kwargs) : result acquisition :=
  match c with
  | UCB =>
      if unexpected (k_epsilon k) || unexpected (k_t k) || unexpected (k_plugin k) then Err TypeError
      else bind (set_positive (dflt (/ 2) (k_alpha k))) (fun a => Ok (AUCB a))
  | EI =>
      if unexpected (k_alpha k) || unexpected (k_epsilon k) || unexpected (k_t k) then Err TypeError
      else bind (set_plugin minimize s (k_plugin k)) (fun p => Ok (AEI p))
  | EpsilonPI => new_EpsilonPI minimize s k
  (* [kwargs.update] replaces whatever was passed *)
  | PI => new_EpsilonPI minimize s (Kwargs (k_alpha k) (Some 0) (k_t k) (k_plugin k))
  | MGFI =>
      if unexpected (k_alpha k) || unexpected (k_epsilon k) then Err TypeError
      else bind (set_plugin minimize s (k_plugin k)) (fun p =>
           bind (MGFI_set_t (dflt 1 (k_t k))) (fun t => Ok (AMGFI t p)))
  end.

(** Calling the object: value, and value with gradient. *)
Definition value (exp_max : R) (a : acquisition) (minimize : bool) (s : surrogate) (x : list R) : option R :=
  match a with
  | AUCB al => Some (UCB_value al minimize s x)
  | AEI p => EI_value p minimize s x
  | AEpsilonPI e p => PI_value e p minimize s x
  | AMGFI t p => Some (MGFI_value exp_max t p minimize s x)
  end.
(** The gradient part of [__call__] with [return_dx=True], lines 139-146, 181-188, 220-227 and 292-309. *)
Definition value_dx (exp_max : R) (a : acquisition) (minimize : bool) (s : surrogate) (x : list R) : option (list R) :=
  match a with
  | AUCB al => UCB_dx al minimize s x
  | AEI p => EI_dx p minimize s x
  | AEpsilonPI e p => PI_dx e p minimize s x
  | AMGFI t p => Some (MGFI_dx exp_max t p minimize s x)
  end.

(** ** What the optimizers hand over *)

(** [np.mean] and [np.std] (population deviation). *)
Definition rsum (l : list R) : R := fold_right Rplus 0 l.
(** [np.mean], used by base.py lines 423-438. *)
Definition average (l : list R) : R := rsum l / INR (length l).
(** [np.std] (population deviation), used by base.py lines 423-438. *)
Definition std (l : list R) : R := sqrt (average (map (fun v => (v - average l) * (v - average l)) l)).
(** [BaseBO.update_model], base.py lines 423-438: the values the surrogate is fitted to; [None] is
    the FlatFitnessError.  [np.isclose(_std, 0)] has the absolute tolerance 1e-8. *)
Definition flat (l : list R) : bool := rleb (Rabs (std l)) (/ 100000000).
(** base.py lines 423-438: FlatFitnessError after five values, otherwise the standardised values, or the values themselves if
    they are flat. *)
Definition standardise (fitness : list R) : option (list R) :=
  if (5 <? length fitness)%nat && flat fitness then None
  else Some (if flat fitness then fitness else map (fun v => (v - average fitness) / std fitness) fitness).

(** Does the class have the attribute [plugin]? (bayes_opt.py line 21) *)
Definition has_plugin (c : cls) : bool := match c with UCB => false | _ => true end.
(** [BO._create_acquisition], bayes_opt.py lines 18-25, followed by [BaseBO._create_acquisition],
    base.py lines 482-488.  [par] is what the caller passes; wrapping the criterion for fixed
    variables is left out (see Model_Features). *)
Definition create_acquisition (c : cls) (minimize : bool) (s : surrogate) (fmin fmax : R) (par : kwargs) : result acquisition :=
  let par := if has_plugin c
             then match k_plugin par with
                  | Some _ => par
                  | None => Kwargs (k_alpha par) (k_epsilon par) (k_t par) (Some (if minimize then fmin else fmax))
                  end
             else par in
  construct c minimize s par.
(** [BaseBO.arg_max_acquisition] of [BO] for one point, base.py line 471: [acquisition_par], the
    optimizer's own dictionary, is not passed. *)
Definition single_point (acquisition_par : kwargs) (c : cls) (minimize : bool) (s : surrogate) (fmin fmax : R) : result acquisition :=
  create_acquisition c minimize s fmin fmax no_kwargs.
(** [ParallelBO._batch_arg_max_acquisition], bayes_opt.py lines 80-106, for one element of the
    batch: [z] is the standard normal draw.  The sampler of EpsilonPI is [None], and calling it is
    a TypeError; EI and PI raise NotImplementedError in the constructor (line 94), which is a
    ValueError here. *)
Definition sample (c : cls) (v z : R) : result R :=
  match c with
  | MGFI => Ok (exp (ln v + / 2 * z))
  | UCB => Ok (1 / (1 + exp ((v * 4 - 2) + 6 / 10 * z)))
  | EpsilonPI => Err TypeError
  | EI | PI => Err ValueError
  end.
(** bayes_opt.py lines 104-105: the sampled value replaces the parameter of the class. *)
Definition with_sample (c : cls) (par : kwargs) (v : R) : kwargs :=
  match c with
  | MGFI => Kwargs (k_alpha par) (k_epsilon par) (Some v) (k_plugin par)
  | UCB => Kwargs (Some v) (k_epsilon par) (k_t par) (k_plugin par)
  | _ => Kwargs (k_alpha par) (Some v) (k_t par) (k_plugin par)
  end.
(** Lines 97-98: a missing parameter is filled in from the class. *)
Definition parameter (c : cls) (par : kwargs) : R :=
  match c with MGFI => dflt 1 (k_t par) | UCB => dflt (/ 2) (k_alpha par) | _ => dflt (/ 10000000000) (k_epsilon par) end.
(** bayes_opt.py lines 103-106: sampling, then constructing the criterion. *)
Definition batch_element (acquisition_par : kwargs) (c : cls) (minimize : bool) (s : surrogate) (fmin fmax z : R) : result acquisition :=
  bind (sample c (parameter c acquisition_par) z) (fun v =>
  create_acquisition c minimize s fmin fmax (with_sample c acquisition_par v)).
