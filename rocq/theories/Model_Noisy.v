(** NoisyBO and SelfAdaptiveBO (bayes_optim/bayes_opt.py 147-194), as far as they differ from ParallelBO. *)
From Coq Require Import List Bool Arith ZArith QArith String.
From Verif Require Import Model_Opt Model_Var Model_Ask.
Import ListNotations.
Open Scope nat_scope.

Section Noisy.
  Variable vs : list var.
  (** See Model_Ask: the samples of the free sub-space and the results of the acquisition optimization. *)
  Variable samp : nat -> nat -> list point.
  Variable inner : nat -> point.

  (** bayes_opt.py:180-183  pre_eval_check: no check for duplicates.  The result is a Solution;
      constructing one from an empty list reads x[0] (solution.py:74), an IndexError. *)
  Definition noisy_check (X : list point) : res (list point) := match X with [] => Err EIndex | _ => Ok X end.

  (** base.py:378-400 with this check.  [DoE += X] extends the list by the rows of the Solution. *)
  Fixpoint noisy_doe_loop (fixed : fixed_t) (passes count todo : nat) (doe : list point) : res (list point) :=
    match todo with
    | 0 => Ok doe
    | _ =>
      match passes with
      | 0 => Ok doe
      | S passes' =>
        match fillin vs (Some fixed) (samp count todo) with
        | Err e => Err e
        | Ok [] => noisy_doe_loop fixed passes' (S count) todo doe
        | Ok X =>
          match noisy_check (map (round_point vs) X) with
          | Err e => Err e
          | Ok X' => noisy_doe_loop fixed passes' (S count) (todo - List.length X') (doe ++ X')
          end
        end
      end
    end.
  (** base.py:375-400 with this check. *)
  Definition noisy_create_doe (n : nat) (fixed : option fixed_t) : res (list point) :=
    noisy_doe_loop (match fixed with None => [] | Some f => f end) 4 0 n [].

  (** base.py:259-307  ask with this check: X is a Solution, so [X += list] calls Solution.__iadd__
      (solution.py:141-147), which asserts that the right operand is a Solution. *)
  Definition noisy_ask (fitted : bool) (n_default doe_size : nat) (n_point : option nat) (fixed : option fixed_t) : res (list point) :=
    let proposals :=
      if fitted then
        let n := match n_point with None => n_default | Some n => n end in
        match arg_max_acquisition vs inner true n fixed with
        | Err e => Err e
        | Ok C =>
          match noisy_check C with
          | Err e => Err e
          | Ok X =>
            if List.length X <? n
            then match noisy_create_doe (n - List.length X) fixed with
                 | Err e => Err e
                 | Ok D => Err EAssert
                 end
            else Ok X
          end
        end
      else noisy_create_doe (match n_point with None => doe_size | Some n => n end) fixed in
    match proposals with
    | Err e => Err e
    | Ok [] => Err EAskEmpty
    | Ok X => Ok X
    end.
End Noisy.

(** bayes_opt.py:171-174, the adaptation of SelfAdaptiveBO.  An element of a nested Python list: a number or
    a list. *)
Inductive item := Num (q : Q) | Row (l : point).
(** The exceptions of bayes_opt.py:171-174. *)
Inductive adapt_exn := AValue (* inhomogeneous shape *) | AType (* an array used as an index *) | AIndex.
Inductive adapted (A : Type) := Adapted (a : A) | Raised (e : adapt_exn).
Arguments Adapted {A}. Arguments Raised {A}.
(** argmax_restart returns a point and its value, or ([], []) (acquisition/optim/__init__.py:149-153). *)
Definition found := (point * option Q)%type.
(** The same as the elements of a list. *)
Definition as_items (r : found) : list item :=
  [Row (fst r); match snd r with Some q => Num q | None => Row [] end].
(** np.argsort of a list: all numbers give their order; lists of one length give a matrix, whose rows of
    indices are arrays; anything else has no array (ValueError since numpy 1.24; before, an array of
    objects that cannot be compared, a TypeError). *)
Inductive index := At (i : nat) | Array.
(** No counterpart in the code: a step of sorting. *)
Fixpoint insert_key (p : Q * nat) (l : list (Q * nat)) : list (Q * nat) :=
  match l with
  | [] => [p]
  | q :: t => if Qle_bool (fst p) (fst q) then p :: l else q :: insert_key p t
  end.
(** np.argsort of numbers. *)
Definition order (l : list Q) : list nat := map snd (fold_right insert_key [] (combine l (seq 0 (List.length l)))).
(** No counterpart in the code: a list of numbers only. *)
Definition numbers (l : list item) : option (list Q) :=
  fold_right (fun a r => match a, r with Num q, Some r => Some (q :: r) | _, _ => None end) (Some []) l.
(** No counterpart in the code: a list of lists only. *)
Definition rows (l : list item) : option (list point) :=
  fold_right (fun a r => match a, r with Row x, Some r => Some (x :: r) | _, _ => None end) (Some []) l.
(** np.argsort as described above. *)
Definition np_argsort (l : list item) : adapted (list index) :=
  match numbers l with
  | Some qs => Adapted (map At (order qs))
  | None =>
      match rows l with
      | Some (x :: xs) => if forallb (fun y => List.length y =? List.length x) xs then Adapted (map (fun _ => Array) (x :: xs)) else Raised AValue
      | _ => Raised AValue
      end
  end.
(** [_t_list[i] for i in idx] *)
Fixpoint pick (ts : list Q) (idx : list index) : adapted (list Q) :=
  match idx with
  | [] => Adapted []
  | Array :: _ => Raised AType
  | At i :: idx =>
      match nth_error ts i, pick ts idx with
      | Some t, Adapted r => Adapted (t :: r)
      | None, _ => Raised AIndex
      | _, Raised e => Raised e
      end
  end.
(** np.mean, bayes_opt.py:171-174. *)
Definition qmean (l : list Q) : Q := (fold_right Qplus 0 l / inject_Z (Z.of_nat (List.length l)))%Q.
(** 171-174: [__[1]] is the second result; [results] are those of all criteria and [ts] the sampled
    parameters (np.exp(...) of 158: numbers here).  The value is the new parameter and what the method returns. *)
Definition adapt (ts : list Q) (results : list found) : adapted (Q * (list point * list (option Q))) :=
  let N := List.length ts / 2 in
  match nth_error results 1 with
  | None => Raised AIndex
  | Some r =>
      match np_argsort (as_items r) with
      | Raised e => Raised e
      | Adapted idx =>
          match pick ts (firstn N (rev idx)) with
          | Raised e => Raised e
          | Adapted l => Adapted (qmean l, (map fst results, map snd results))
          end
      end
  end.
