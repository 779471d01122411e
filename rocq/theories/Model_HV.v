(** The hypervolume indicator (bayes_optim/utils/multi_objective/hypervolume.py).  Objective
    values are rationals: the arithmetic is exact. *)
From Coq Require Import List Bool Arith ZArith QArith.
From Verif Require Import Model_Pareto.
Import ListNotations.
Open Scope nat_scope.

(** Node fields (205-228) for all nodes at once, indexed by dimension and node; node numbers are
    positions in the filtered input, the sentinel is the number of nodes.  [bd] is the tensor
    bounds (None: -inf). *)
Record mlist := ML {
  nx : nat -> nat -> nat;      (* dimension, node *)
  pv : nat -> nat -> nat;
  ign : nat -> nat;
  ar : nat -> nat -> Q;        (* node, dimension *)
  vol : nat -> nat -> Q;
  bd : nat -> option Q }.

Definition upd {A} (f : nat -> A) (x : nat) (a : A) : nat -> A := fun y => if y =? x then a else f y.
(** No counterpart in the code: a function of two arguments changed at one place. *)
Definition upd2 {A} (f : nat -> nat -> A) (x y : nat) (a : A) : nat -> nat -> A := upd f x (upd (f x) y a).

(** node.next[k] = ... (259-264, 288, 307). *)
Definition set_nx st k x y := ML (upd2 (nx st) k x y) (pv st) (ign st) (ar st) (vol st) (bd st).
(** node.prev[k] = ... (259-264, 289, 308). *)
Definition set_pv st k x y := ML (nx st) (upd2 (pv st) k x y) (ign st) (ar st) (vol st) (bd st).
(** node.ignore = ... (130, 150, 165). *)
Definition set_ign st x v := ML (nx st) (pv st) (upd (ign st) x v) (ar st) (vol st) (bd st).
(** node.area[k] = ... (142-148, 161-163). *)
Definition set_ar st x k v := ML (nx st) (pv st) (ign st) (upd2 (ar st) x k v) (vol st) (bd st).
(** node.volume[k] = ... (144, 159). *)
Definition set_vol st x k v := ML (nx st) (pv st) (ign st) (ar st) (upd2 (vol st) x k v) (bd st).
(** bounds[k] = ... (154, 290, 309). *)
Definition set_bd st k v := ML (nx st) (pv st) (ign st) (ar st) (vol st) (upd (bd st) k v).

(** comparisons with a bound: q > b, q >= b *)
Definition gtb (q : Q) (b : option Q) : bool := match b with None => true | Some v => Qltb v q end.
(** The second of these. *)
Definition geb (q : Q) (b : option Q) : bool := match b with None => true | Some v => Qle_bool v q end.
(** The smaller of a bound and a coordinate (torch.min of 290 and 309). *)
Definition minb (b : option Q) (q : Q) : option Q := match b with None => None | Some v => if Qle_bool v q then Some v else Some q end.

Notation "'do' x <- e ; f" := (match e with Some x => f | None => None end) (at level 200, x pattern, e at level 100, f at level 200).

Section HV.
  Variable (n m : nat) (data : nat -> nat -> Q).   (* node, dimension *)
  Notation sentinel := n.

  (** node.data[k]; the sentinel has no data (TypeError) *)
  Definition get (x k : nat) : option Q := if x <? n then Some (data x k) else None.

  (** bounds.data = torch.min(bounds, node.data) *)
  Definition lower_bounds (st : mlist) (x : nat) : mlist :=
    ML (nx st) (pv st) (ign st) (ar st) (vol st) (fun k => if k <? m then minb (bd st k) (data x k) else bd st k).

  (** 277-291  remove *)
  Definition remove (st : mlist) (x i : nat) : mlist :=
    lower_bounds (fold_left (fun st k => let p := pv st k x in let s := nx st k x in set_pv (set_nx st k p s) k s p) (seq 0 i) st) x.
  (** 293-309  reinsert *)
  Definition reinsert (st : mlist) (x i : nat) : mlist :=
    lower_bounds (fold_left (fun st k => let st := set_nx st k (pv st k x) x in set_pv st k (nx st k x) x) (seq 0 i) st) x.

  (** 112-124  two objectives; one step per node, None: out of fuel *)
  Fixpoint sweep (fuel : nat) (st : mlist) (q p : nat) (h hvol : Q) : option Q :=
    match fuel with
    | 0 => None
    | S fuel =>
      if p =? sentinel then do q1 <- get q 1; Some (hvol + h * q1)%Q
      else
        do q1 <- get q 1; do p1 <- get p 1; do p0 <- get p 0;
        sweep fuel st p (nx st 1 p) (if Qltb p0 h then p0 else h) (hvol + h * (q1 - p1))%Q
    end.
  (** 112-124 from the first node on. *)
  Definition two (fuel : nat) (st : mlist) : option Q :=
    let q := nx st 1 sentinel in
    do h <- get q 0; sweep fuel st q (nx st 1 q) h 0%Q.

  (** 127-131  reset the ignore marks below i *)
  Fixpoint reset_ignore (fuel i : nat) (st : mlist) (q : nat) : option mlist :=
    match fuel with
    | 0 => None
    | S fuel =>
      if q =? sentinel then Some st
      else let st := if ign st q <? i then set_ign st q 0 else st in reset_ignore fuel i st (pv st i q)
    end.

  (** 133-137  take out the nodes whose cached values are not valid; returns p, q, n_pareto *)
  Fixpoint take_out (fuel i : nat) (st : mlist) (p q np : nat) : option (mlist * nat * nat * nat) :=
    match fuel with
    | 0 => None
    | S fuel =>
      if np <=? 1 then Some (st, p, q, np)
      else
        do qi <- get q i;
        do c <- (if gtb qi (bd st i) then Some true else do ri <- get (pv st i q) i; Some (geb ri (bd st i)));
        if c then let st := remove st q i in take_out fuel i st q (pv st i q) (np - 1)
        else Some (st, p, q, np)
    end.

  (** 142-143  q.area[0] = 1; q.area[1:i+1] = q.area[:i] * -(q.data[:i]) *)
  Definition init_area (st : mlist) (q i : nat) : mlist :=
    let a := upd (ar st q) 0 1%Q in
    ML (nx st) (pv st) (ign st)
       (upd (ar st) q (fun k => if (1 <=? k) && (k <=? i) then (a (k - 1)%nat * - data q (k - 1)%nat)%Q else a k)) (vol st) (bd st).

  Section Level.
    (** the call one dimension down *)
    Variable rec : nat -> mlist -> option (Q * mlist).

    (** 145-150 and 160-165  the area of q *)
    Definition area_of (i np : nat) (st : mlist) (q : nat) : option mlist :=
      if i <=? ign st q then Some (set_ar st q i (ar st (pv st i q) i))
      else
        do (a, st) <- rec np st;
        let st := set_ar st q i a in
        Some (if Qle_bool (ar st q i) (ar st (pv st i q) i) then set_ign st q i else st).

    (** 151-165  put the nodes back *)
    Fixpoint put_back (fuel i : nat) (st : mlist) (p q np : nat) (hvol : Q) : option (Q * nat * mlist) :=
      match fuel with
      | 0 => None
      | S fuel =>
        if p =? sentinel then Some (hvol, q, st)
        else
          do pd <- get p i; do qd <- get q i;
          let hvol := (hvol + ar st q i * (pd - qd))%Q in
          let st := set_bd st i (Some pd) in
          let st := reinsert st p i in
          let np := np + 1 in
          let q := p in
          let p := nx st i p in
          let st := set_vol st q i hvol in
          do st <- area_of i np st q;
          put_back fuel i st p q np hvol
      end.

    (** 126-167 *)
    Definition level (fuel i np : nat) (st : mlist) : option (Q * mlist) :=
      do st <- reset_ignore fuel i st (pv st i sentinel);
      do (st, p, q, np) <- take_out fuel i st sentinel (pv st i sentinel) np;
      let q_prev := pv st i q in
      do (hvol, st) <-
        (if 1 <? np
         then do qd <- get q i; do rd <- get q_prev i; Some ((vol st q_prev i + ar st q_prev i * (qd - rd))%Q, st)
         else Some (0%Q, init_area st q i));
      let st := set_vol st q i hvol in
      do st <- area_of i np st q;
      do (hvol, q, st) <- put_back fuel i st p q np hvol;
      do qd <- get q i;
      Some ((hvol - ar st q i * qd)%Q, st).
  End Level.

  (** 88-167  _hv_recursive *)
  Fixpoint hv (fuel i np : nat) (st : mlist) : option (Q * mlist) :=
    if np =? 0 then Some (0%Q, st)
    else match i with
    | 0 => do d <- get (nx st 0 sentinel) 0; Some ((- d)%Q, st)
    | S j => match j with
             | 0 => do v <- two fuel st; Some (v, st)
             | S _ => level (hv fuel j) fuel i np st
             end
    end.

  (** 252-275  append, extend *)
  Definition append (st : mlist) (x k : nat) : mlist :=
    let last := pv st k sentinel in
    let st := set_nx st k x sentinel in
    let st := set_pv st k x last in
    let st := set_pv st k sentinel x in
    set_nx st k last x.

  (** 189-202  a stable sort by one dimension *)
  Fixpoint insert (k x : nat) (l : list nat) : list nat :=
    match l with
    | [] => [x]
    | y :: l' => if Qltb (data x k) (data y k) then x :: l else y :: insert k x l'
    end.
  (** 189-202 for the whole list. *)
  Definition sort_by (k : nat) (l : list nat) : list nat := fold_left (fun acc x => insert k x acc) l [].

  (** 169-186  _initialize_multilist: before it all links of the sentinel point to itself, those
      of the nodes are None (here: to the sentinel, they are set before they are read). *)
  Definition initialize : mlist :=
    snd (fold_left (fun ls k => let nodes := sort_by k (fst ls) in (nodes, fold_left (fun st x => append st x k) nodes (snd ls)))
          (seq 0 m)
          (seq 0 n, ML (fun _ _ => sentinel) (fun _ _ => sentinel) (fun _ => 0) (fun _ _ => 0%Q) (fun _ _ => 0%Q) (fun _ => None))).
End HV.

(** 59-86  compute.  None: an exception (wrong number of columns), or out of fuel. *)
Definition hypervolume (ref : vec) (Y : list vec) : option Q :=
  let m := length ref in
  if forallb (fun y => length y =? m) Y
  then
    let P := filter (fun y => all2 (fun a r => Qle_bool r a) y ref) Y in
    let n := length P in
    let data := fun x k => (nth k ref 0 - nth k (nth x P []) 0)%Q in
    option_map fst (hv n m data (S (S n)) (m - 1) n (initialize n m data))
  else None.
