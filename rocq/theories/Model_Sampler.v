(** Sampling under constraints: bayes_optim/search_space/search_space.py:500-554 (SearchSpace.sample)
    and bayes_optim/search_space/samplers.py (SCMC with sample_out_of_bound=False).
    The initial Latin hypercube sample, the random proposals and the accepted components are
    arbitrary (the acceptance probability, samplers.py:98-116 and 199-208, is not modelled);
    exceptions raised by the constraints inside the Metropolis-Hastings loop are not modelled, the
    same constraints are evaluated once more in the final filter. *)
From Coq Require Import List Bool Arith ZArith QArith Qabs String.
From Verif Require Import Model_Opt Model_Var Model_Grid Model_Ask.
Import ListNotations.
Open Scope nat_scope.

(** np.array(levels) (samplers.py:150): one type for all elements: with a string in it all become
    strings, else with a float in it all become floats, else with an int in it all become ints.
    Tuples (Subset) give an exception (ragged nested sequences; simplification: the one-element
    Subset, which gives a two-dimensional array, as well). *)
Section Array.
  Variable str : val -> string.
  Definition is_tuple (v : val) : bool := match v with VT _ => true | _ => false end.
  (** samplers.py:150: has the element type str? *)
  Definition is_str (v : val) : bool := match v with VS _ => true | _ => false end.
  (** samplers.py:150: has the element type float? *)
  Definition is_float (v : val) : bool := match v with VR _ => true | _ => false end.
  (** samplers.py:150: has the element type int? *)
  Definition is_int (v : val) : bool := match v with VI _ => true | _ => false end.
  (** samplers.py:150: the conversion of one element to str. *)
  Definition to_str (v : val) : val := match v with VS s => VS s | _ => VS (str v) end.
  (** samplers.py:150: the conversion of one element to float. *)
  Definition to_float (v : val) : val := match as_num v with Some q => VR q | None => v end.
  (** samplers.py:150: the conversion of one element to int. *)
  Definition to_integer (v : val) : val := match v with VB b => VI (if b then 1 else 0)%Z | _ => v end.
  (** samplers.py:150 np.array(levels); [None]: an exception. *)
  Definition np_array (l : list val) : option (list val) :=
    if existsb is_tuple l then None
    else if existsb is_str l then Some (map to_str l)
    else if existsb is_float l then Some (map to_float l)
    else if existsb is_int l then Some (map to_integer l)
    else Some l.
End Array.

(** The noise of one proposal for one component: the real move, the difference of the two geometric
    numbers, the drawn level (None: the component is not changed). *)
Record noise := mkN { d_real : Q; d_int : Z; d_level : option nat }.

Section Sampler.
  Variable str : val -> string.
  Variable ks : list kind.
  (** t: temperature, s: Metropolis-Hastings step, r: row, i: column *)
  Variable draw : nat -> nat -> nat -> nat -> noise.
  Variable accepted : nat -> nat -> nat -> nat -> bool.

  (** samplers.py:128-152 for one component *)
  Definition propose_val (k : kind) (d : noise) (v : val) : option val :=
    match k with
    | KReal lb ub _ => match as_num v with Some q => Some (VR (qclip (q + d_real d) lb ub)) | None => None end
    | KInt lb ub _ => match as_num v with Some q => Some (VI (Z.min (Z.max (to_int q + d_int d) lb) ub)) | None => None end
    | _ => match np_array str (levels k) with
           | None => None
           | Some l => match d_level d with None => Some v | Some i => nth_error l i end
           end
    end.
  (** samplers.py:118-126; [None]: an exception *)
  Fixpoint propose_row (t s r i : nat) (ks : list kind) (x : point) : option point :=
    match ks, x with
    | [], [] => Some []
    | k :: ks', v :: x' =>
      match propose_val k (draw t s r i) v, propose_row t s r (S i) ks' x' with
      | Some a, Some b => Some (a :: b)
      | _, _ => None
      end
    | _, _ => None
    end.
  (** No counterpart in the code: the rows of a sample with their numbers, which index the random draws. *)
  Definition rows {A} (X : list A) : list (nat * A) := combine (seq 0 (List.length X)) X.
  (** samplers.py:118-126 _rproposal on all rows. *)
  Definition propose (t s : nat) (X : list point) : option (list point) :=
    Model_Ask.sequence (map (fun p => propose_row t s (fst p) 0 ks (snd p)) (rows X)).

  (** samplers.py:186-198: column by column, a row takes the proposed component if it is accepted *)
  Definition take (i : nat) (x_ x : point) : point :=
    match nth_error x_ i with Some a => set_nth i a x | None => x end.
  (** samplers.py:186-198: one column. *)
  Definition mh_column (t s : nat) (X_ X : list point) (i : nat) : list point :=
    map (fun p => if accepted t s (fst p) i then take i (snd (snd p)) (fst (snd p)) else fst (snd p)) (rows (combine X X_)).
  (** samplers.py:184-199: one step of the chain, all columns. *)
  Definition mh_step (t s : nat) (X : list point) : option (list point) :=
    match propose t s X with
    | None => None
    | Some X_ => Some (fold_left (mh_column t s X_) (seq 0 (List.length ks)) X)
    end.
  (** samplers.py:184-199: [n] steps, numbered from [s]. *)
  Fixpoint mh_steps (t n s : nat) (X : list point) : option (list point) :=
    match n with
    | 0 => Some X
    | S n' => match mh_step t s X with None => None | Some X' => mh_steps t n' (S s) X' end
    end.
  (** samplers.py:78, 184, 201-248: the schedule has 20 values of nu, each with 17 steps *)
  Fixpoint schedule (m t n : nat) (X : list point) : option (list point) :=
    match m with
    | 0 => Some X
    | S m' => match mh_steps t n 0 X with None => None | Some X' => schedule m' (S t) n X' end
    end.
  (** samplers.py:201-248 sample. *)
  Definition scmc (X0 : list point) : option (list point) := schedule 20 0 17 X0.

  (** search_space.py:500-554 with a constraint.  [init n] is the Latin hypercube sample of n points,
      [choose m N] the N positions np.random.choice draws out of m. *)
  Variables h g : option (point -> option (list Q)).
  Variable tol : Q.
  Variable init : nat -> list point.
  Variable choose : nat -> nat -> list nat.

  Definition given (f : option (point -> option (list Q))) : bool := match f with Some _ => true | None => false end.
  (** np.isclose(|v|, 0, atol=tol) *)
  Definition ok_h (x : point) : option bool :=
    match h with None => Some true | Some f => option_map (forallb (fun v => Qle_bool (Qabs v) tol)) (f x) end.
  (** search_space.py:500-554: g(x) <= 0 in all components. *)
  Definition ok_g (x : point) : option bool :=
    match g with None => Some true | Some f => option_map (forallb (fun v => Qle_bool v 0)) (f x) end.
  (** search_space.py:500-554: both constraints. *)
  Definition ok (x : point) : option bool :=
    match ok_h x, ok_g x with Some a, Some b => Some (a && b) | _, _ => None end.
  (** search_space.py:500-554: S[idx, :]. *)
  Definition pick_rows {A} (l : list A) (idx : list nat) : list A :=
    flat_map (fun i => match nth_error l i with Some a => [a] | None => [] end) idx.
  (** [None]: an exception, in particular ConstraintEvaluationError *)
  Definition sample (N : nat) : option (list point) :=
    match ks with
    | [] => None
    | _ =>
      match (if given h || given g then scmc (init (Nat.max N 10)) else Some (init N)) with
      | None => None
      | Some S1 =>
        match Model_Ask.sequence (map ok S1) with
        | None => None
        | Some m =>
          let S2 := map fst (filter (fun p => snd p) (combine S1 m)) in
          Some (if Nat.ltb N (List.length S2) then pick_rows S2 (choose (List.length S2) N) else S2)
        end
      end
    end.
End Sampler.
