(** SurrogateAggregation: bayes_optim/surrogate/random_forest.py 19-53.  Real arithmetic. *)
From Coq Require Import Reals List String Arith Bool.
Import ListNotations.
Open Scope R_scope.

(** The exceptions. *)
Inductive aexn := AssertionE | KeyE | ValueE | UnboundLocalE.
(** The value of a call, or its exception. *)
Inductive ares (A : Type) := AOk (a : A) | AErr (e : aexn).
Arguments AOk {A}.
Arguments AErr {A}.

(** 22-27: the attributes aggregation and weights, the latter flat.  [None]: the argument weights is not given. *)
Record aggregation := Aggregation { agg_kind : string; agg_weights : list R }.
(** 22-27 __init__. *)
Definition aggregate (kind : string) (weights : option (list R)) : ares aggregation :=
  match weights with
  | None => AErr KeyE
  | Some w => if (String.eqb kind "WS" || String.eqb kind "Tchebycheff")%bool then AOk (Aggregation kind w) else AErr AssertionE
  end.
(** 43-45: weights.dot(M) for a matrix with one row per surrogate and n columns; another number of weights is a ValueError. *)
Definition dot (n : nat) (w : list R) (M : list (list R)) : ares (list R) :=
  if (List.length w =? List.length M)%nat
  then AOk (map (fun j => fold_right Rplus 0 (map (fun p => fst p * nth j (snd p) 0) (combine w M))) (seq 0 n))
  else AErr ValueE.
(** 32-49 predict with eval_MSE=True.  [answers]: the predictions and the mean squared errors of each surrogate at the n points.
    Without a surrogate the unpacking of zip fails (34). *)
Definition predict_mse (a : aggregation) (n : nat) (answers : list (list R * list R)) : ares (list R * list R) :=
  match answers with
  | [] => AErr ValueE
  | _ =>
    if String.eqb (agg_kind a) "WS" then
      match dot n (agg_weights a) (map fst answers) with
      | AErr e => AErr e
      | AOk y =>
        match dot n (map (fun w => w ^ 2) (agg_weights a)) (map snd answers) with
        | AErr e => AErr e
        | AOk m => AOk (y, m)
        end
      end
    else AErr UnboundLocalE
  end.
(** 32-49 predict with eval_MSE=False, for at least one surrogate. *)
Definition predict (a : aggregation) (n : nat) (answers : list (list R)) : ares (list R) :=
  if String.eqb (agg_kind a) "WS" then dot n (agg_weights a) answers else AErr UnboundLocalE.
