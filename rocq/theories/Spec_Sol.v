(** What a user observes of a solution set, and what selecting rows means.  Used to state C52-C56
    and C87-C89; nothing here follows the control flow of solution.py. *)
From Coq Require Import Bool Arith ZArith QArith String List Lia.
From Verif Require Import Model_Var Model_Sol.
Import ListNotations.
Open Scope nat_scope.

(** The four observable columns of a solution set, row by row: component values, objective
    values, evaluation counts and labels.  A single (1-d) solution is one row. *)
Definition values (h : heap) (s : sol) : list (list val) := row_list h s.
Definition fits (h : heap) (s : sol) : list (list (option Q)) :=
  match xa s, fa s with
  | A1 _, A1 ps => [read (buf (hf h) (fr s)) ps]
  | A2 _ _, A1 ps => map (fun p => read (buf (hf h) (fr s)) [p]) ps
  | _, A2 rs _ => map (read (buf (hf h) (fr s))) rs
  end.
Definition evals (h : heap) (s : sol) : list Z := n_list h s.
Definition labels (h : heap) (s : sol) : list string := i_list h s.

(** [out] lists the elements of [l] at the positions [ps]. *)
Definition selects {A} (l : list A) (ps : list nat) (out : list A) : Prop :=
  Forall2 (fun p x => nth_error l p = Some x) ps out.

(** All four columns of s' (in heap h') are the rows [ps] of s (in heap h). *)
Definition rows_of (h : heap) (s : sol) (ps : list nat) (h' : heap) (s' : sol) : Prop :=
  selects (values h s) ps (values h' s') /\ selects (fits h s) ps (fits h' s') /\
  selects (evals h s) ps (evals h' s') /\ selects (labels h s) ps (labels h' s').

(** Python's slice a:b:c of the positions 0..n-1, for c > 0 and for c < 0. *)
Definition resolve (n x : Z) : Z := (if x <? 0 then x + n else x)%Z.
Definition slice_spec (n : nat) (a b c : option Z) (ps : list nat) : Prop :=
  let k := match c with Some k => k | None => 1%Z end in
  let len := Z.of_nat n in
  ((0 < k)%Z /\
   let lo := match a with Some x => Z.max 0 (resolve len x) | None => 0%Z end in
   let hi := match b with Some x => resolve len x | None => len end in
   ps = filter (fun i => (lo <=? Z.of_nat i)%Z && (Z.of_nat i <? hi)%Z && ((Z.of_nat i - lo) mod k =? 0)%Z) (seq 0 n))
  \/
  ((k < 0)%Z /\
   let lo := match a with Some x => Z.min (len - 1) (resolve len x) | None => (len - 1)%Z end in
   let inside := fun i => match b with Some x => (resolve len x <? Z.of_nat i)%Z | None => true end in
   ps = rev (filter (fun i => (Z.of_nat i <=? lo)%Z && inside i && ((lo - Z.of_nat i) mod (- k) =? 0)%Z) (seq 0 n))).

(** Arrays whose elements are in range, not aliased, and of a rectangular shape. *)
Definition wf_arr {A} (h : list (list A)) (r : nat) (a : arr) : Prop :=
  r < List.length h /\ Forall (fun p => p < List.length (buf h r)) (positions a) /\ NoDup (positions a) /\
  match a with A1 _ => True | A2 rs c => Forall (fun x => List.length x = c) rs end.

(** Shape of the fitness array: a vector for one objective, a matrix for several; for a single
    solution the matrix may have been flattened. *)
Definition wf_fit (s : sol) : Prop :=
  match xa s with
  | A1 _ => match fa s with
            | A1 ps => List.length ps = nobj s
            | A2 rs c => 1 < nobj s /\ List.length rs = 1 /\ c = nobj s
            end
  | A2 rs _ => match fa s with
               | A1 ps => nobj s = 1 /\ List.length ps = List.length rs
               | A2 fs c => 1 < nobj s /\ List.length fs = List.length rs /\ c = nobj s
               end
  end.

(** A solution set with one fitness row, one n_eval and one label per row and one name per column
    and per objective. *)
Definition wf (h : heap) (s : sol) : Prop :=
  wf_arr (hx h) (xr s) (xa s) /\ wf_arr (hf h) (fr s) (fa s) /\ wf_arr (hn h) (nr s) (A1 (na s)) /\
  wf_arr (map snd (hi h)) (ir s) (A1 (ia s)) /\ wf_fit s /\ 1 <= nobj s /\
  List.length (na s) = sN s /\ List.length (ia s) = sN s /\ List.length (vn s) = sdim s /\
  List.length (fnm s) = nobj s.

Definition is_2d (s : sol) : Prop := match xa s with A1 _ => False | A2 _ _ => True end.

(** Writes to the attributes and to the components of a solution set. *)
Inductive write := WVal (w : wval val) | WFit (w : wval (option Q)) | WEval (w : wval Z) | WLabel (w : wval string) | WAddEval (z : Z).
Definition do_write (h : heap) (s : sol) (w : write) : sres heap :=
  match w with
  | WVal w => set_x h s w
  | WFit w => set_fitness h s w
  | WEval w => set_n_eval h s w
  | WLabel w => set_index h s w
  | WAddEval z => add_n_eval h s z
  end.
Fixpoint do_writes (h : heap) (s : sol) (ws : list write) : sres heap :=
  match ws with
  | [] => SOk h
  | w :: t => slet h' := do_write h s w in do_writes h' s t
  end.
