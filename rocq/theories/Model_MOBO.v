(** Multi-objective Bayesian optimisation: the bookkeeping of BaseMOBO (bayes_optim/mobo.py).
    Objective values are rationals, or NaN / infinite where the code tests for it.  Design points
    are abstract ([X]).  Surrogate, logging and the hypervolume written to the log are not
    modelled, except that fitting the surrogate may raise. *)
From Coq Require Import List Bool Arith ZArith QArith Qabs Qminmax.
From Verif Require Import Model_Pareto.
Import ListNotations.
Open Scope nat_scope.

(** sklearn.preprocessing.MinMaxScaler with feature range (0, 1), one column: a constant column
    has its range replaced by 1 (handle_zeros_in_scale; the replacement of ranges below ten times
    the machine epsilon is not modelled). *)
Definition column (j : nat) (F : list vec) : list Q := map (fun r => nth j r 0%Q) F.
(** The smallest value of a column. *)
Definition col_min (c : list Q) : Q := match c with [] => 0%Q | a :: l => fold_left Qmin l a end.
(** The largest value of a column. *)
Definition col_max (c : list Q) : Q := match c with [] => 0%Q | a :: l => fold_left Qmax l a end.
(** MinMaxScaler().fit_transform on one entry (mobo.py:65-75). *)
Definition minmax (c : list Q) (v : Q) : Q :=
  let r := (col_max c - col_min c)%Q in ((v - col_min c) / (if Qeq_bool r 0 then 1 else r))%Q.

(** mobo.py:65-75  the property y; [minimize] is the array self.minimize, (-1) ** minimize is -1
    for an objective to be minimised and 1 otherwise. *)
Definition orient (mn : bool) (v : Q) : Q := if mn then (v * -1)%Q else (v * 1)%Q.
(** mobo.py:65-75 the property y. *)
Definition y_of (minimize : list bool) (F : list vec) : list vec :=
  map (fun r => map (fun j => orient (nth j minimize true) (minmax (column j F) (nth j r 0%Q)))
                    (seq 0 (length minimize))) F.

(** mobo.py:59-63  ref_point: the column minima of y times 0.8. *)
Definition ref_point (minimize : list bool) (F : list vec) : vec :=
  map (fun j => (col_min (column j (y_of minimize F)) * (8 # 10))%Q) (seq 0 (length minimize)).

(** mobo.py:51-57  xopt.  [cast] is the conversion to single precision by torch.Tensor; the
    result is given as the positions in data (None: no data). *)
Section Xopt.
  Variable cast : Q -> Q.
  Definition positions (mask : list bool) : list nat :=
    map fst (filter (fun ib => snd ib) (indexed mask)).
  (** mobo.py:51-57. *)
  Definition xopt_index (minimize : list bool) (F : list vec) : list nat :=
    positions (is_non_dominated (map (map cast) (y_of minimize F)) true).
End Xopt.

(** Rounding to single precision (24 significant bits, ties to even; no underflow or overflow). *)
Definition round_half_even (q : Q) : Z :=
  let n := Qnum q in let d := Zpos (Qden q) in
  let k := (n / d)%Z in
  let r := (2 * (n - k * d))%Z in
  if (r <? d)%Z then k else if (d <? r)%Z then (k + 1)%Z else if Z.even k then k else (k + 1)%Z.
(** No counterpart in the code: two to an integer power. *)
Definition pow2 (e : Z) : Q := if (0 <=? e)%Z then inject_Z (2 ^ e) else / inject_Z (2 ^ (- e)).
(** the exponent of a positive rational: the largest e with 2^e <= q *)
Definition exponent (q : Q) : Z :=
  let e := (Z.log2 (Qnum q) - Z.log2 (Zpos (Qden q)))%Z in
  if Qle_bool (pow2 e) q then e else (e - 1)%Z.
(** torch.Tensor on one number (mobo.py:51-57). *)
Definition float32 (q : Q) : Q :=
  if Qeq_bool q 0 then 0%Q
  else let s := (exponent (Qabs q) - 23)%Z in
       Qred (inject_Z (round_half_even (q / pow2 s)) * pow2 s).

(** An objective value as the user's function returns it. *)
Inductive fval := Fin (q : Q) | NaN | Inf.
(** np.isfinite (base.py:413-421). *)
Definition is_fin (v : fval) : bool := match v with Fin _ => true | _ => false end.

Section Tell.
  Variable X : Type.

  (** mobo.py:77-93  evaluate: one list per objective, zipped into one row per point; the result
      is paired with the evaluations made, in order. *)
  Fixpoint zip_star (n : nat) (cols : list (list fval)) : list (list fval) :=
    match n with
    | 0 => []
    | S n' => map (fun c => nth 0 c NaN) cols :: zip_star n' (map (@tl fval) cols)
    end.
  (** zip stops with the shortest list (mobo.py:77-93). *)
  Definition shortest (cols : list (list fval)) : nat :=
    match cols with [] => 0 | c :: l => fold_left Nat.min (map (@length fval) l) (length c) end.
  (** mobo.py:77-93. *)
  Definition evaluate (fs : list (X -> fval)) (xs : list X) : list (list fval) * list (nat * X) :=
    let func_vals := map (fun f => map f xs) fs in
    (zip_star (shortest func_vals) func_vals,
     flat_map (fun k => map (pair k) xs) (seq 0 (length fs))).

  (** A row of self.data with its fitness. *)
  Record row := Row { r_x : X; r_fit : list fval }.
  (** The counters, self.data and the length of the history of the hypervolume. *)
  Record mstate := MState { eval_count : nat; iter_count : nat; data : list row; hist_len : nat }.

  (** How tell ends: it returns or raises, with the state reached. *)
  Inductive outcome := Done (s : mstate) | Raised (s : mstate).

  (** mobo.py:119-126  the loop over the points: sets fitness[k] and counts, objective by
      objective; [None] in the second component: IndexError.
      With n_obj = 0 nothing is read. *)
  Fixpoint tell_row (k n_obj : nat) (warm : bool) (f : list fval) (cnt : nat) : nat * option (list fval) :=
    match n_obj with
    | 0 => (cnt, Some [])
    | S m =>
      match nth_error f k with
      | None => (cnt, None)
      | Some v =>
        let '(c, r) := tell_row (S k) m warm f (if warm then cnt else S cnt) in
        (c, option_map (cons v) r)
      end
    end.
  (** mobo.py:119-126 for all points. *)
  Fixpoint tell_rows (n_obj : nat) (warm : bool) (xs : list X) (F : list (list fval)) (cnt : nat)
    : nat * option (list row) :=
    match xs with
    | [] => (cnt, Some [])
    | x :: xs' =>
      match F with
      | [] => (cnt, None)
      | f :: F' =>
        match tell_row 0 n_obj warm f cnt with
        | (c, None) => (c, None)
        | (c, Some v) =>
          let '(c', r) := tell_rows n_obj warm xs' F' c in
          (c', option_map (cons (Row x v)) r)
        end
      end
    end.

  (** mobo.py:96-153  tell.  post_eval_check (base.py:413-421) builds a mask of the shape of
      the fitness matrix; when some entry is set, indexing the points with that matrix and a
      slice raises IndexError.  [fits]: fitting the surrogate does not raise. *)
  Definition tell (n_obj : nat) (fits : bool) (s : mstate) (warm : bool) (xs : list X) (F : list (list fval)) : outcome :=
    match tell_rows n_obj warm xs F (eval_count s) with
    | (c, None) => Raised (MState c (iter_count s) (data s) (hist_len s))
    | (c, Some rows) =>
      if existsb (fun r => existsb (fun v => negb (is_fin v)) (r_fit r)) rows
      then Raised (MState c (iter_count s) (data s) (hist_len s))
      else
        let d := data s ++ rows in
        if fits
        then Done (if warm then MState c (iter_count s) d (hist_len s)
                   else MState c (S (iter_count s)) d (S (hist_len s)))
        else Raised (MState c (iter_count s) d (hist_len s))
    end.

  (** No counterpart in the code: the state after a call. *)
  Definition state_of (o : outcome) : mstate := match o with Done s => s | Raised s => s end.
  (** No counterpart in the code: the arguments of one call of tell. *)
  Record call := Call { c_warm : bool; c_xs : list X; c_F : list (list fval); c_fits : bool }.
  (** The state of a new optimizer. *)
  Definition mstart : mstate := MState 0 0 [] 0.
  (** A sequence of calls of tell; exceptions are caught by the caller. *)
  Definition run_calls (n_obj : nat) (cs : list call) : mstate :=
    fold_left (fun s c => state_of (tell n_obj (c_fits c) s (c_warm c) (c_xs c) (c_F c))) cs mstart.
End Tell.
Arguments Row {X}. Arguments r_x {X}. Arguments r_fit {X}.
Arguments MState {X}. Arguments eval_count {X}. Arguments iter_count {X}. Arguments data {X}. Arguments hist_len {X}.
Arguments Done {X}. Arguments Raised {X}. Arguments tell {X}. Arguments tell_rows {X}. Arguments evaluate {X}.
Arguments Call {X}. Arguments c_warm {X}. Arguments c_xs {X}. Arguments c_F {X}. Arguments c_fits {X}.
Arguments state_of {X}. Arguments run_calls {X}. Arguments mstart {X}.
