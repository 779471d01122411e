(** The mixed-integer evolution strategy: bayes_optim/acquisition/optim/mies.py.
    Numbers are exact rationals.  The self-adapted strategy parameters (sigma, eta, P) only decide
    how far and how often components move; the moves themselves are arbitrary arguments here, so
    the strategy parameters (mies.py:88-106, 161-173, 222-227, 242, 248-256, 262, 265-268) do not
    occur; Model_MiesPar adds them and the stopping criteria. *)
From Coq Require Import Bool Arith ZArith QArith List.
From Verif Require Import Model_Var Model_Grid Model_Pareto Model_Box Model_Ask Model_Sol.
Import ListNotations.
Open Scope nat_scope.

(** search_space.py:215-232  the positions of the variables of some type; categorical_id is
    discrete, ordinal, bool, subset in this order. *)
Definition ids (p : kind -> bool) (vs : list var) : list nat :=
  map fst (filter (fun iv => p (vkind (snd iv))) (indexed vs)).
(** search_space.py:215-232: the type Real. *)
Definition is_real (k : kind) := match k with KReal _ _ _ => true | _ => false end.
(** search_space.py:215-232: the type Integer. *)
Definition is_integer (k : kind) := match k with KInt _ _ _ => true | _ => false end.
(** search_space.py:215-232: the type Discrete. *)
Definition is_discrete (k : kind) := match k with KDiscrete _ => true | _ => false end.
(** search_space.py:215-232: the type Ordinal. *)
Definition is_ordinal (k : kind) := match k with KOrdinal _ => true | _ => false end.
(** search_space.py:215-232: the type Bool. *)
Definition is_boolean (k : kind) := match k with KBool => true | _ => false end.
(** search_space.py:215-232: the type Subset. *)
Definition is_subset (k : kind) := match k with KSubset _ => true | _ => false end.
(** mies.py:63 real_id. *)
Definition id_r := ids is_real.
(** mies.py:64 integer_id. *)
Definition id_i := ids is_integer.
(** mies.py:65 categorical_id. *)
Definition id_d (vs : list var) : list nat :=
  ids is_discrete vs ++ ids is_ordinal vs ++ ids is_boolean vs ++ ids is_subset vs.

(** The random numbers of one offspring: the parents (mies.py:324), the components taken from the
    second parent (183), the real moves sigma * R (230-232), the differences of the geometric
    numbers (257), which categorical components change (270) and to which level (274). *)
Record draws := mkDraws {
  d_p1 : nat; d_p2 : nat; d_mask : nat -> bool; d_real : nat -> Q; d_int : nat -> Z;
  d_cat : nat -> bool; d_level : nat -> nat }.

(** mies.py:175-185  recombine (the components of the solution only); [None]: IndexError. *)
Definition recombine (pop : list point) (d : draws) : option point :=
  match nth_error pop (d_p1 d) with
  | None => None
  | Some p1 =>
    if d_p1 d =? d_p2 d then Some p1
    else match nth_error pop (d_p2 d) with
         | None => None
         | Some p2 => let idx := filter (d_mask d) (seq 0 (length p1)) in
                      Some (puts p1 idx (pick p2 idx))
         end
  end.

(** mies.py:229-245 for the component i; [None]: the component is not a number. *)
Definition new_real (vs : list var) (x : point) (step : Q) (i : nat) : option val :=
  match nth_error vs i, nth_error x i with
  | Some v, Some a =>
    match vkind v, as_num a with
    | KReal lb ub prec, Some q => Some (VR (real_round lb ub prec (reflect (q + step) lb ub)))
    | _, _ => None
    end
  | _, _ => None
  end.
(** mies.py:229-245 for all real components. *)
Definition mutate_r (vs : list var) (d : draws) (x : point) : option point :=
  option_map (puts x (id_r vs))
    (sequence (map (fun ji => new_real vs x (d_real d (fst ji)) (snd ji)) (indexed (id_r vs)))).

(** mies.py:249, 257-261: astype int truncates towards zero. *)
Definition new_int (vs : list var) (x : point) (step : Z) (i : nat) : option val :=
  match nth_error vs i, nth_error x i with
  | Some v, Some a =>
    match vkind v, as_num a with
    | KInt lb ub _, Some q =>
      Some (VI (to_int (reflect (inject_Z (to_int q + step)) (inject_Z lb) (inject_Z ub))))
    | _, _ => None
    end
  | _, _ => None
  end.
(** mies.py:247-261 for all integer components. *)
Definition mutate_i (vs : list var) (d : draws) (x : point) : option point :=
  option_map (puts x (id_i vs))
    (sequence (map (fun ji => new_int vs x (d_int d (fst ji)) (snd ji)) (indexed (id_i vs)))).

(** mies.py:270-274: bounds_d[j] are the levels of the variable id_d[j]. *)
Definition mutate_d (vs : list var) (d : draws) (x : point) : option point :=
  fold_left (fun ox ji =>
    match ox with
    | None => None
    | Some x =>
      if d_cat d (fst ji) then
        match nth_error vs (snd ji) with
        | None => None
        | Some v => option_map (put x (snd ji)) (nth_error (levels (vkind v)) (d_level d (fst ji)))
        end
      else Some x
    end) (indexed (id_d vs)) (Some x).

(** mies.py:212-219 (the guards N_r, N_i, N_d only skip empty index lists). *)
Definition obind {A B} (o : option A) (f : A -> option B) : option B := match o with Some a => f a | None => None end.
(** mies.py:212-219. *)
Definition mutate (vs : list var) (d : draws) (x : point) : option point :=
  obind (mutate_r vs d x) (fun x => obind (mutate_i vs d x) (mutate_d vs d)).

(** The constructor arguments, mies.py:17-51. *)
Record mcfg := mkM { m_vs : list var; m_mu : nat; m_lambda : nat; m_min : bool; m_elitism : bool; m_max : option nat }.

(** [trace] records every individual whose objective was evaluated with the (penalised) fitness
    it got, in order; it is an observation, the program does not read it. *)
Record mst := mkMst { pop : list (point * Q); xopt : point; fopt : Q; evals : nat; iters : nat; trace : list (point * Q) }.

Section MIES.
  Variable c : mcfg.
  (** The penalised fitness of the i-th point evaluated after n evaluations (199-210): objective
      plus dynamic penalty, both arbitrary. *)
  Variable fit : nat -> nat -> point -> Q.
  Variable argsort : list Q -> list nat.
  (** The random numbers of the i-th offspring in generation g. *)
  Variable rnd : nat -> nat -> draws.
  (** The other stopping criteria (280-295: tolfun and flat fitness), evaluated before
      generation g. *)
  Variable other_stop : nat -> mst -> bool.

  Definition evaluate (n : nat) (X : list point) : list (point * Q) :=
    map (fun ix => (snd ix, fit n (fst ix) (snd ix))) (indexed X).

  (** mies.py:316-317 *)
  Definition better (f1 f2 : Q) : bool := if m_min c then Qltb f1 f2 else Qltb f2 f1.

  (** mies.py:126-144  the initial population [X] sampled from the space; the first best one is
      the incumbent (142-144).  [None]: ValueError of min([]). *)
  Definition first_best (l : list (point * Q)) : option (point * Q) :=
    match l with
    | [] => None
    | a :: t => Some (fold_left (fun b p => if better (snd p) (snd b) then p else b) t a)
    end.
  (** mies.py:126-144. *)
  Definition init (X : list point) : option mst :=
    let p := evaluate 0 X in
    match first_best p with
    | None => None
    | Some (x, f) => Some (mkMst p x f (length X) 0 p)
    end.

  (** mies.py:187-197 *)
  Definition select (s : mst) (off : list (point * Q)) : list (point * Q) :=
    let all := if m_elitism c then pop s ++ off else off in
    let rank := argsort (map snd all) in
    let rank := if m_min c then rank else rev rank in
    pick all (firstn (m_mu c) rank).

  (** mies.py:323-337  one generation. *)
  Definition offspring (g : nat) (s : mst) : option (list point) :=
    sequence (map (fun i => obind (recombine (map fst (pop s)) (rnd g i)) (mutate (m_vs c) (rnd g i)))
                  (seq 0 (m_lambda c))).
  (** mies.py:323-337. *)
  Definition generation (g : nat) (s : mst) : option mst :=
    match offspring g s with
    | None => None
    | Some X =>
      let off := evaluate (evals s) X in
      match select s off with
      | [] => None                                                            (* IndexError: pop[0] *)
      | ((x, f) :: _) as p =>
        let b := better f (fopt s) in
        Some (mkMst p (if b then x else xopt s) (if b then f else fopt s)
                    (evals s + length X) (S (iters s)) (trace s ++ off))
      end
    end.

  (** mies.py:276-314 *)
  Definition stop (g : nat) (s : mst) : bool :=
    (match m_max c with Some m => m <? evals s | None => false end) || other_stop g s.

  (** mies.py:320-344 *)
  Inductive outcome := Done (s : mst) | Raised (s : mst) | OutOfFuel (s : mst).
  (** mies.py:320-344: the loop, at most [fuel] generations. *)
  Fixpoint optimize (fuel g : nat) (s : mst) : outcome :=
    if stop g s then Done s
    else match fuel with
         | 0 => OutOfFuel s
         | S fuel' => match generation g s with
                      | None => Raised s
                      | Some s' => optimize fuel' (S g) s'
                      end
         end.
End MIES.

(** The state in which the run ends (for [OutOfFuel]: the state after that many generations). *)
Definition final (o : outcome) : mst := match o with Done s | Raised s | OutOfFuel s => s end.

(** mies.py:107-125 with an initial point: evaluate(self.pop[0]) indexes the one-dimensional row
    with two indices (200).  The fitness assignment that follows is not reached. *)
Definition evaluate_x0 (h : heap) (pop : sol) (id_var : list Z) : sres (item * heap) :=
  slet (row, h) := getitem h pop (Rows (SInt 0)) in
  match row with
  | Sub r => getitem h r (RowCol all_cols (SList id_var))
  | Elem _ => SErr SType
  end.
