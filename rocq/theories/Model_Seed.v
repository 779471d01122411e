(** Random seeds: the global NumPy generator as seen by BaseOptimizer (bayes_optim/_base.py),
    BaseBO (bayes_optim/base.py) and SearchSpace (bayes_optim/search_space/search_space.py). *)
From Coq Require Import List Bool Arith.
Import ListNotations.
Open Scope nat_scope.

(** A pseudo random generator: its state after seeding, and one draw. *)
Record generator := mkGen {
  rng : Type;
  drawn : Type;
  seeded : nat -> rng;
  draw1 : rng -> drawn * rng
}.

(** The process in which the program runs: the state of the global generator at start and the
    states it gets from the successive np.random.seed(None) calls (operating-system entropy). *)
Record process (G : generator) := mkProcess { start : rng G; entropy : nat -> rng G }.
Arguments start {G}. Arguments entropy {G}.

(** A space: its seed and, per variable type present, the number of variables of that type.
    [pure]: a RealSpace (or another single-type class), whose own _sample is used. *)
Record space := mkSpace { sp_seed : option nat; sp_pure : bool; sp_groups : list nat }.

Section Seed.
  Variable G : generator.
  Variable P : process G.
  (** Numbers drawn for N points of d variables of one type (the sampling method decides). *)
  Variable cost : nat -> nat -> nat.

  (** The global generator and the number of seed(None) calls so far. *)
  Definition world := (rng G * nat)%type.

  (** search_space.py:556-568: n numbers drawn one after the other. *)
  Fixpoint draws (n : nat) (w : world) : list (drawn G) * world :=
    match n with
    | 0 => ([], w)
    | S n' => let '(x, r) := draw1 G (fst w) in
              let '(xs, w') := draws n' (r, snd w) in (x :: xs, w')
    end.

  (** np.random.seed(s) *)
  Definition np_seed (s : option nat) (w : world) : world :=
    match s with
    | Some n => (seeded G n, snd w)
    | None => (entropy P (snd w), S (snd w))
    end.

  (** _base.py:150-155  BaseOptimizer.random_seed: 0 and None are ignored. *)
  Definition set_opt_seed (s : option nat) (w : world) : world :=
    match s with
    | Some (S n) => np_seed (Some (S n)) w
    | _ => w
    end.

  (** search_space.py:129-134  SearchSpace.random_seed: always seeds the global generator;
      every slice (263) and hence filter (421-437) constructs a space with the same seed. *)
  Definition set_space_seed (sp : space) (w : world) : world := np_seed (sp_seed sp) w.

  (** search_space.py:556-568 (one slice per type) and 742-754, 783-794 (single-type classes). *)
  Fixpoint sample_groups (sp : space) (N : nat) (gs : list nat) (w : world) : list (drawn G) * world :=
    match gs with
    | [] => ([], w)
    | g :: t => let '(xs, w1) := draws (cost N g) (set_space_seed sp w) in
                let '(ys, w2) := sample_groups sp N t w1 in (xs ++ ys, w2)
    end.
  (** search_space.py:500-568 sample without constraints; a space of one type has its own _sample. *)
  Definition sample (sp : space) (N : nat) (w : world) : list (drawn G) * world :=
    if sp_pure sp then draws (fold_right plus 0 (map (cost N) (sp_groups sp))) w
    else sample_groups sp N (sp_groups sp) w.

  (** base.py:375-400  create_DoE: one filter, then up to four samples; [accept xs] is the
      number of points of the sample that pass the duplicate check. *)
  Fixpoint doe (accept : list (drawn G) -> nat) (passes : nat) (sp : space) (n : nat) (w : world)
    : list (drawn G) * world :=
    match n, passes with
    | 0, _ | _, 0 => ([], w)
    | _, S p => let '(xs, w1) := sample sp n w in
                let '(ys, w2) := doe accept p sp (n - accept xs) w1 in (xs ++ ys, w2)
    end.

  (** The calls of a user.  [Ask n k]: ask for n points, where the acquisition optimisation
      draws k numbers (0 before the first tell) and the remaining points are sampled;
      [Tell k]: tell, where fitting the model draws k numbers.  n, k and the duplicate check
      depend on all numbers drawn so far, through the history argument. *)
  Inductive ucall := Ask (n k : list (drawn G) -> nat) (accept : list (drawn G) -> nat)
                   | Tell (k : list (drawn G) -> nat).

  (** _base.py and base.py 259-387: one call of the user. *)
  Definition do_call (sp : space) (c : ucall) (hist : list (drawn G)) (w : world) : list (drawn G) * world :=
    match c with
    | Ask n k accept =>
      (* base.py:231-243 filters for the acquisition optimizer, 376 filters for create_DoE *)
      let '(xs, w1) := draws (k hist) (set_space_seed sp w) in
      let '(ys, w2) := doe accept 4 sp (n hist) (set_space_seed sp w1) in
      (xs ++ ys, w2)
    | Tell k => draws (k hist) w
    end.

  Fixpoint drive (sp : space) (cs : list ucall) (hist : list (drawn G)) (w : world) : list (drawn G) :=
    match cs with
    | [] => hist
    | c :: t => let '(xs, w') := do_call sp c hist w in drive sp t (hist ++ xs) w'
    end.

  (** The space is built, then the optimizer with random_seed = s, then the calls are made;
      the result is the list of all numbers drawn. *)
  Definition session (sp : space) (s : option nat) (cs : list ucall) : list (drawn G) :=
    drive sp cs [] (set_opt_seed s (set_space_seed sp (start P, 0))).
End Seed.
Arguments Ask {G}. Arguments Tell {G}.
