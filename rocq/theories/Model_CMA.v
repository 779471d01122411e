(** The (1+1)-CMA-ES: bayes_optim/acquisition/optim/one_plus_one_cma_es.py (OnePlusOne_CMA and,
    for everything but the covariance update, its subclass OnePlusOne_Cholesky_CMA).
    Points are vectors of rationals; objective values, penalties, step size, success rate and
    tolerances are reals.  The covariance matrix only shapes the random moves, which are arbitrary
    here, and may make the Cholesky factorisation fail, which is an arbitrary event; the covariance
    update itself is in Model_Cholesky.v.  Logging is not modelled. *)
From Coq Require Import Bool Arith ZArith QArith Qreals Reals List.
From Verif Require Import Model_Var Model_Box Model_Penalty.
Import ListNotations.
Open Scope R_scope.

Notation pt := (list Q).

(** Constructor parameters (26-42, 99-121, 148-154); [c_d], [c_target_rate], [c_cp] are d,
    p_succ_target and cp. *)
Record ccfg := mkC {
  c_box : list (Q * Q); c_prec : list (option Z); c_min : bool; c_max : option nat; c_ftarget : option R;
  c_restart : Z; c_xtol : R; c_ftol : R; c_sigma0 : R; c_target_rate : R; c_cp : R; c_d : R }.

(** 151 with the default options. *)
Definition default_d (dim : nat) : R := 1 + INR dim / 2.

(** stop_dict (127, 354-369): which keys are present. *)
Record sdict := mkD { k_ftarget : bool; k_FEs : bool; k_sigma : bool; k_ftol : bool; k_xtol : bool }.
(** The empty stop_dict, 127 and 276. *)
Definition no_keys := mkD false false false false false.
(** bool(self.stop_dict), 375 and 377. *)
Definition any_key (d : sdict) : bool := k_ftarget d || k_FEs d || k_sigma d || k_ftol d || k_xtol d.

(** The state (110-144); [told] (what tell has received) and [seen] (what was evaluated) and [restarts] are
    observations the program does not read. *)
Record cst := mkS {
  x : pt; xopt : pt; fopt : R; fpen : R; sigma : R; rate : R; dx : R; df : R; evals : nat; iters : nat;
  n_restart : Z; rflag : bool; stopped : bool; keys : sdict;
  seen : list (pt * R); told : list (pt * R * R); restarts : nat }.

(** No counterpart in the code: <= on numbers. *)
Definition leb (a b : R) : bool := if Rle_dec a b then true else false.
(** No counterpart in the code: < on numbers. *)
Definition ltb (a b : R) : bool := if Rlt_dec a b then true else false.
(** No counterpart in the code: == on numbers. *)
Definition eqb (a b : R) : bool := if Req_EM_T a b then true else false.

(** 328  np.sqrt(sum((self._x - x) ** 2)) *)
Definition dist (a b : pt) : R := sqrt (rsum (map (fun p => Rsqr (Q2R (fst p) - Q2R (snd p))) (combine a b))).

(** 1e-8 of 362 and 409. *)
Definition lo_sigma : R := / 100000000.
(** 1e8 of 362 and 409. *)
Definition hi_sigma : R := 100000000.

Section CMA.
  Variable c : ccfg.
  (** The value of the n-th evaluation; the constraints (None: not given; their evaluation may
      fail). *)
  Variable obj : nat -> pt -> R.
  Variables h g : option (pt -> option (list R)).
  (** The move sigma * z of the k-th step, the failure of the k-th covariance update, the uniform
      sample of the k-th restart. *)
  Variable move : nat -> pt.
  Variable chol_fails : nat -> bool.
  Variable uniform : nat -> pt.

  (** 122 *)
  Definition better (a b : R) : bool := if c_min c then leb a b else leb b a.

  (** 248-256 with the default parameters of dynamic_penalty (utils.py:272-281); [None]:
      ConstraintEvaluationError. *)
  Definition ppar_at (t : nat) : ppar := mkPP (INR t) (/ 2) 1 (3 / 2) (/ 10) (c_min c).
  (** 248-256 penalize for one point at the current iteration. *)
  Definition penalize (s : cst) (y : pt) : option R :=
    match dynamic_penalty (ppar_at (S (iters s))) h g [y] with Some [p] => Some p | _ => None end.

  (** 294-297  ask: move, box repair, rounding *)
  Definition fit_box (y : pt) : pt :=
    map (fun p => real_round (fst (fst (fst p))) (snd (fst (fst p))) (snd (fst p))
                    (reflect (snd p) (fst (fst (fst p))) (snd (fst (fst p)))))
        (combine (combine (c_box c) (c_prec c)) y).
  (** self._x + self.sigma * z of 294, for the scaled move. *)
  Definition add (a b : pt) : pt := map (fun p => (fst p + snd p)%Q) (combine a b).
  (** 279-300 ask. *)
  Definition ask (k : nat) (s : cst) : pt := fit_box (add (x s) (move k)).

  (** 390-393, 408-417 and 302-338 (after the first call); k numbers the call for the event
      "Cholesky fails". *)
  Definition tell (k : nat) (s : cst) (y : pt) (fy p : R) : cst :=
    let told' := told s ++ [(y, fy, p)] in
    if stopped s then s
    else
      let success := better (fy + p) (fpen s) in
      let rate' := (1 - c_cp c) * rate s + c_cp c * (if success then 1 else 0) in
      let sigma' := sigma s * exp ((rate' - c_target_rate c) / (1 - c_target_rate c) / c_d c) in
      let df' := df s * (9 / 10) + (if success then (1 - 9 / 10) * Rabs (fpen s - (fy + p)) else 0) in
      let dx' := dx s * (9 / 10) + (if success then (1 - 9 / 10) * dist (x s) y else 0) in
      let exn := (success && chol_fails k) || (ltb sigma' lo_sigma || ltb hi_sigma sigma') in
      let opt := success && eqb p 0 in
      mkS (if success then y else x s) (if opt then y else xopt s) (if opt then fy else fopt s)
          (if success then fy + p else fpen s) (if exn then c_sigma0 c else sigma') rate' dx' df'
          (evals s) (S (iters s)) (n_restart s) (rflag s) (stopped s) (keys s) (seen s) told' (restarts s).

  (** 354-377 *)
  Definition check_stop (s : cst) : cst :=
    let d := keys s in
    let d := mkD (k_ftarget d || match c_ftarget c with Some t => better (fopt s) t | None => false end)
                 (k_FEs d || match c_max c with Some m => (m <=? evals s)%nat | None => false end)
                 (k_sigma d || (ltb (sigma s) lo_sigma || ltb hi_sigma (sigma s)))
                 (k_ftol d || ltb (df s) (c_ftol c)) (k_xtol d || ltb (dx s) (c_xtol c)) in
    let hard := k_ftarget d || k_FEs d in
    let more := (0 <? n_restart s)%Z in
    mkS (x s) (xopt s) (fopt s) (fpen s) (sigma s) (rate s) (dx s) (df s) (evals s) (iters s) (n_restart s)
        (if hard then rflag s else if more then any_key d else rflag s)
        (if hard then true else if more then stopped s else any_key d)
        d (seen s) (told s) (restarts s).

  (** 258-264  evaluate *)
  Definition evaluate (s : cst) (y : pt) : R * cst :=
    let fy := obj (evals s) y in
    (fy, mkS (x s) (xopt s) (fopt s) (fpen s) (sigma s) (rate s) (dx s) (df s) (S (evals s)) (iters s) (n_restart s)
             (rflag s) (stopped s) (keys s) (seen s ++ [(y, fy)]) (told s) (restarts s)).

  (** 206-221: assigning x evaluates the point and tells it. *)
  Definition set_x (k : nat) (s : cst) (y : pt) : option cst :=
    let s := mkS y (xopt s) (fopt s) (fpen s) (sigma s) (rate s) (dx s) (df s) (evals s) (iters s) (n_restart s)
                 (rflag s) (stopped s) (keys s) (seen s) (told s) (restarts s) in
    let '(fy, s) := evaluate s y in
    match penalize s y with None => None | Some p => Some (tell k s y fy p) end.

  (** 266-277 *)
  Definition restart (k : nat) (s : cst) : option cst :=
    if rflag s then
      match set_x (2 * k + 1) s (uniform k) with
      | None => None
      | Some s => Some (mkS (x s) (xopt s) (fopt s) (fpen s) (c_sigma0 c) (rate s) (c_xtol c * 200) (c_ftol c * 200)
                            (evals s) (iters s) (n_restart s - 1)%Z (rflag s) (stopped s) no_keys (seen s) (told s)
                            (S (restarts s)))
      end
    else Some s.

  (** 240-246 *)
  Definition step (k : nat) (s : cst) : option cst :=
    let y := ask k s in
    let '(fy, s) := evaluate s y in
    match penalize s y with
    | None => None
    | Some p => restart k (check_stop (tell (2 * k) s y fy p))
    end.

  (** 99-146 and the first call of tell (314-318): the constructor evaluates the initial point,
      which is given or uniform. *)
  Definition init (x0 : pt) : option cst :=
    let tol (t : R) := t / (9 / 10) ^ (5 * length (c_box c)) in
    let s := mkS x0 x0 0 0 (c_sigma0 c) (c_target_rate c) (tol (c_xtol c)) (tol (c_ftol c)) 0 0
                 (Z.max 0 (c_restart c)) false false no_keys [] [] 0 in
    let '(fy, s) := evaluate s x0 in
    match penalize s x0 with
    | None => None
    | Some p => Some (mkS x0 x0 fy (fy + p) (sigma s) (rate s) (dx s) (df s) (evals s) (iters s) (n_restart s) false
                          false no_keys (seen s) [(x0, fy, p)] 0)
    end.

  (** 235-238  run: n steps at most; [None]: an exception. *)
  Fixpoint run (n k : nat) (s : cst) : option cst :=
    if stopped s then Some s
    else match n with
         | 0 => Some s
         | S n' => match step k s with None => None | Some s' => run n' (S k) s' end
         end.
End CMA.

(** Seeding (133, 179-184): constructing the optimizer with random_seed (default 42) seeds the
    global generator; any other keyword, such as the seed passed by argmax_restart
    (optim/__init__.py:107), is collected in kwargs and not used. *)
Section Seed.
  Context {G : Type}.
  Variable seeded : Z -> G.
  Definition construct_rng (random_seed : Z) (g : G) : G := if Z.eqb random_seed 0 then g else seeded random_seed.
  (** optim/__init__.py:95-109: the i-th restart; [cma] is the deterministic run from a state of
      the generator with a budget, returning its result and the final state; [draw] is the use of
      the generator between restarts (75: x0, not used). *)
  Context {A : Type}.
  Variable cma : Z -> G -> A * G.
  Variable draw : G -> G.
  Variable seed_kwarg : nat -> Z.
  Definition inner (i : nat) (budget : Z) (g : G) : A * G :=
    let ignored := seed_kwarg i in cma budget (construct_rng 42 (draw g)).
End Seed.
