(** Decision variables: bayes_optim/search_space/variable.py.
    Numbers are exact rationals; the scale transformations over the reals are in Model_Scale.v. *)
From Coq Require Import List Bool Arith ZArith QArith Qround String.
Import ListNotations.
Open Scope nat_scope.

(** Component values of a point: a float, an int, a string, a bool or (Subset variables) a tuple. *)
Inductive val :=
| VR (q : Q) | VI (z : Z) | VS (s : string) | VB (b : bool) | VT (l : list val).

(** Python's == on component values: numbers compare by value across float/int/bool. *)
Definition as_num (v : val) : option Q :=
  match v with
  | VR q => Some q
  | VI z => Some (inject_Z z)
  | VB b => Some (if b then 1%Q else 0%Q)
  | _ => None
  end.

(** Python's == on component values. *)
Fixpoint val_eqb (a b : val) : bool :=
  match as_num a, as_num b with
  | Some p, Some q => Qeq_bool p q
  | _, _ =>
    match a, b with
    | VS s, VS t => String.eqb s t
    | VT l, VT m =>
      (fix go (l m : list val) : bool :=
         match l, m with
         | [], [] => true
         | x :: l', y :: m' => val_eqb x y && go l' m'
         | _, _ => false
         end) l m
    | _, _ => false
    end
  end.

(** The kinds of variables with their parameters after construction.
    [Real lb ub precision] (variable.py:171-257, bounds already clipped to the range of the
    scale), [Integer lb ub step] (299-334; simplification: integer bounds and step),
    [Discrete]/[Ordinal] with their levels (281-296), [Subset] with its base elements (285-296),
    [Bool] (345-354). *)
Inductive kind :=
| KReal (lb ub : Q) (prec : option Z)
| KInt (lb ub step : Z)
| KDiscrete (levels : list val)
| KOrdinal (levels : list val)
| KSubset (elems : list val)
| KBool.

(** variable.py:76-112: a variable with its name. *)
Record var := mkVar { vname : string; vkind : kind }.

(** np.rint: rounding to the nearest integer, ties to even. *)
Definition rint (q : Q) : Z :=
  let f := Qfloor q in
  let r := (q - inject_Z f)%Q in
  if negb (Qle_bool (1#2) r) then f
  else if negb (Qle_bool r (1#2)) then (f + 1)%Z
  else if Z.even f then f else (f + 1)%Z.

(** np.round(x, p) = rint(x * 10^p) / 10^p. *)
Definition np_round (x : Q) (p : Z) : Q := (inject_Z (rint (x * Qpower (10#1) p)) / Qpower (10#1) p)%Q.

(** np.clip *)
Definition qclip (x lb ub : Q) : Q :=
  let y := if Qle_bool lb x then x else lb in
  if Qle_bool y ub then y else ub.

(** variable.py:250-257  Real.round *)
Definition real_round (lb ub : Q) (prec : option Z) (x : Q) : Q :=
  match prec with
  | None => x
  | Some p => qclip (np_round x p) lb ub
  end.

(** search_space.py:570-578  SearchSpace.round on one component: only real variables are
    touched (astype(float) turns ints and bools into floats). *)
Definition round_val (k : kind) (v : val) : val :=
  match k with
  | KReal lb ub prec =>
    match as_num v with
    | Some q => VR (real_round lb ub prec q)
    | None => v
    end
  | _ => v
  end.

(** variable.py:265  dict.fromkeys(bounds): each level once, in first-occurrence order. *)
Fixpoint dedup_aux (seen l : list val) : list val :=
  match l with
  | [] => []
  | v :: t => if existsb (val_eqb v) seen then dedup_aux seen t else v :: dedup_aux (v :: seen) t
  end.
(** variable.py:265: the same for a whole list. *)
Definition dedup (l : list val) : list val := dedup_aux [] l.

(** itertools.combinations(l, r) *)
Fixpoint combinations {A} (l : list A) (r : nat) : list (list A) :=
  match r, l with
  | 0, _ => [[]]
  | S _, [] => []
  | S r', x :: t => map (cons x) (combinations t r') ++ combinations t r
  end.

(** variable.py:293-296  the levels of a Subset variable. *)
Definition subset_levels (elems : list val) : list val :=
  dedup (map VT (flat_map (combinations elems) (seq 1 (List.length elems)))).

(** variable.py:330-331  number of values of an Integer variable and its i-th value. *)
Definition int_size (lb ub step : Z) : Z := ((ub - lb) / step + 1)%Z.
(** variable.py:63-70: the i-th value. *)
Definition int_value (lb step : Z) (i : Z) : Z := (lb + i * step)%Z.

(** The levels from which a discrete variable is sampled (variable.py:277-278). *)
Definition levels (k : kind) : list val :=
  match k with
  | KDiscrete l | KOrdinal l => dedup l
  | KSubset e => subset_levels e
  | KBool => [VB false; VB true]
  | KInt lb ub step => map (fun i => VI (int_value lb step (Z.of_nat i))) (seq 0 (Z.to_nat (int_size lb ub step)))
  | KReal _ _ _ => []
  end.

(** variable.py:277-278  _Discrete.sample with the drawn index [i] < size. *)
Definition sample_discrete (k : kind) (i : nat) : option val := nth_error (levels k) i.

(** __contains__: variable.py:209-210 (Real), 271-272 (discrete kinds), 333-334 (Integer).
    [None] stands for the TypeError raised when a string is compared with a number. *)
Definition contains (k : kind) (v : val) : option bool :=
  match k with
  | KReal lb ub _ =>
    match as_num v with Some q => Some (Qle_bool lb q && Qle_bool q ub) | None => None end
  | KInt lb ub _ =>
    match as_num v with
    | Some q => Some (Qle_bool (inject_Z lb) q && Qle_bool q (inject_Z ub))
    | None => None
    end
  | _ => Some (existsb (val_eqb v) (levels k))
  end.
