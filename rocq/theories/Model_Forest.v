(** The forest and the aggregated surrogate of bayes_optim/surrogate/random_forest.py.  Real arithmetic
    (exact); [None] in place of a number is NaN.  The trees are arbitrary functions: growing them is
    scikit-learn's work.  The encoding of the points (104-109) is in Model_Features. *)
From Coq Require Import Reals List Arith Bool String.
Import ListNotations.
Open Scope R_scope.

Definition total (l : list R) : R := fold_right Rplus 0 l.
(** np.mean and np.std(ddof=1) of a non-empty row: with one entry the latter divides zero by zero. *)
Definition mean (l : list R) : R := total l / INR (List.length l).
(** np.std(ddof=1), 152-155. *)
Definition std1 (l : list R) : option R :=
  if (List.length l =? 1)%nat then None
  else Some (sqrt (total (map (fun v => Rabs (v - mean l) * Rabs (v - mean l)) l) / (INR (List.length l) - 1))).

Section Forest.
Context {P : Type}.

(** 141-145: y_hat_all, entry (point, tree).  (With several outputs a row is a pair of point and output.) *)
Definition buffer := nat -> nat -> R.
(** 145  np.zeros. *)
Definition zeros : buffer := fun _ _ => 0.
(** 56-60 and 147-149: the thread of tree j stores the prediction for point i. *)
Definition store (trees : list (P -> R)) (X : list P) (b : buffer) (ij : nat * nat) : buffer :=
  fun i j => if ((i =? fst ij) && (j =? snd ij))%nat%bool
             then match nth_error trees j, nth_error X i with Some t, Some x => t x | _, _ => b i j end
             else b i j.
(** The threads of the pool run at the same time: [schedule] is the order in which the entries are
    written, over all threads. *)
Definition run (trees : list (P -> R)) (X : list P) (schedule : list (nat * nat)) : buffer :=
  fold_left (store trees X) schedule zeros.
(** What the threads together have to do. *)
Definition tasks (trees : list (P -> R)) (X : list P) : list (nat * nat) :=
  list_prod (seq 0 (List.length X)) (seq 0 (List.length trees)).
(** 150-155: mean and MSE_hat for every point. *)
Definition predict (trees : list (P -> R)) (X : list P) (schedule : list (nat * nat)) : list (R * option R) :=
  let b := run trees X schedule in
  map (fun i => let row := map (b i) (seq 0 (List.length trees)) in
                (mean row, option_map (fun s => s * s) (std1 row))) (seq 0 (List.length X)).

(** 19-53  SurrogateAggregation: each surrogate gives mean and MSE at a point. *)
Inductive error := AssertionError | ValueError | UnboundLocalError.
(** No counterpart in the code: a value or an exception. *)
Inductive result (A : Type) := Ok (a : A) | Err (e : error).
Arguments Ok {A}. Arguments Err {A}.
(** The attributes of 22-27. *)
Record aggregation := Agg { models : list (P -> R * R); mode : string; weights : list R }.
(** 22-27 *)
Definition construct (ms : list (P -> R * R)) (how : string) (ws : list R) : result aggregation :=
  if existsb (String.eqb how) ["WS"; "Tchebycheff"]%string then Ok (Agg ms how ws) else Err AssertionError.
(** weights.dot(rows): one row per surrogate, one column per point. *)
Fixpoint dot (w col : list R) : R :=
  match w, col with a :: w, c :: col => a * c + dot w col | _, _ => 0 end.
(** 32-49 with eval_MSE=True.  Without surrogates [zip] of nothing cannot be unpacked (ValueError);
    another number of weights than rows is a ValueError of [dot]. *)
Definition agg_predict (a : aggregation) (X : list P) : result (list (R * R)) :=
  match models a with
  | [] => Err ValueError
  | _ =>
      if String.eqb (mode a) "WS" then
        if (List.length (weights a) =? List.length (models a))%nat then
          Ok (map (fun x => (dot (weights a) (map (fun m => fst (m x)) (models a)),
                             dot (map (fun w => w * w) (weights a)) (map (fun m => snd (m x)) (models a)))) X)
        else Err ValueError
      else Err UnboundLocalError
  end.
(** 32-49 with eval_MSE=False: the mean only.  Without surrogates the shapes (k,) and (1, 0) do not fit
    unless there is one weight, and then the result is empty; this case is not modelled. *)
Definition agg_predict_mean (a : aggregation) (X : list P) : result (list R) :=
  match models a with
  | [] => Err ValueError
  | _ =>
      if String.eqb (mode a) "WS" then
        if (List.length (weights a) =? List.length (models a))%nat then
          Ok (map (fun x => dot (weights a) (map (fun m => fst (m x)) (models a))) X)
        else Err ValueError
      else Err UnboundLocalError
  end.
End Forest.
Arguments Ok {A}. Arguments Err {A}.
