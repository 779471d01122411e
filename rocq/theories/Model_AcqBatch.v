(** Calling an acquisition function of bayes_optim/acquisition/acquisition_fun.py with several points, over the model of one call
    in Model_Acquisition. *)
From Coq Require Import Reals List Bool.
From Verif Require Import Lib_Normal Model_Acquisition.
Import ListNotations.
Open Scope R_scope.

(** Python's truth value of a numpy array of booleans: only that of a single entry is defined (that of an empty one is false
    with a warning). *)
Definition truth (l : list bool) : result bool :=
  match l with [] => Ok false | [b] => Ok b | _ => Err ValueError end.
(** What a call returns: a number, or an array with an entry for each point. *)
Inductive answer := Number (v : R) | Array (l : list (option R)).

(** Lines 52-64: the predictions and deviations at the rows of X.  Simplification: the surrogate predicts each row for itself
    (as gpr.py 425-535 and random_forest.py 126-150 do), and its arrays have one entry for each row. *)
Definition predict_rows (minimize : bool) (s : surrogate) (X : list (list R)) : list (R * R) := map (predict minimize s) X.

(** Lines 127-137 and 147.  The sum over a single entry (line 135) has that entry. *)
Definition UCB_rows (alpha : R) (minimize : bool) (s : surrogate) (X : list (list R)) : result answer :=
  Ok (Array (map (fun p => Some (fst p + alpha * snd p)) (predict_rows minimize s X))).
(** Lines 156-180 and 189: the conditions of lines 163 and 168 are arrays; without a plugin line 171 raises and the value is
    zero. *)
Definition EI_rows (plugin : option R) (minimize : bool) (s : surrogate) (X : list (list R)) : result answer :=
  let ps := predict_rows minimize s X in
  bind (truth (map (fun p => EI_small s (snd p)) ps)) (fun small =>
    if small then Ok (Number 0)
    else match plugin with
         | None => Ok (Number 0)
         | Some q => Ok (Array (map (fun p => EI_formula q (fst p) (snd p)) ps))
         end).
(** Lines 208-218 and 228: the condition of line 212 is an array, outside of the try block. *)
Definition PI_rows (eps : R) (plugin : option R) (minimize : bool) (s : surrogate) (X : list (list R)) : result answer :=
  let ps := predict_rows minimize s X in
  bind (truth (map (fun p => rltb 0 (fst p)) ps)) (fun positive =>
    match plugin with
    | None => Ok (Number 0)
    | Some q =>
        let coef := if positive then 1 - eps else 1 + eps in
        Ok (Array (map (fun p =>
          let xcr_ := q - coef * fst p in
          if reqb (snd p) 0 then (if rltb 0 xcr_ then Some 1 else if rltb xcr_ 0 then Some 0 else None)
          else Some (cdf (xcr_ / snd p))) ps))
    end).
(** Lines 265-290 and 310: the conditions of lines 274 and 289 are arrays, outside of the try block.  Simplification: an overflow
    at one point sets the values of all points to zero (line 287), which is left out because several points raise before. *)
Definition MGFI_rows (exp_max t : R) (plugin : option R) (minimize : bool) (s : surrogate) (X : list (list R)) : result answer :=
  let ps := predict_rows minimize s X in
  bind (truth (map (fun p => MGFI_small (snd p)) ps)) (fun small =>
    if small then Ok (Number 0)
    else match plugin with
         | None => Ok (Number 0)
         | Some q => Ok (Array (map (fun p => Some (MGFI_formula exp_max t q (fst p) (snd p))) ps))
         end).
(** Calling the object with the rows of X. *)
Definition call (exp_max : R) (a : acquisition) (minimize : bool) (s : surrogate) (X : list (list R)) : result answer :=
  match a with
  | AUCB al => UCB_rows al minimize s X
  | AEI p => EI_rows p minimize s X
  | AEpsilonPI e p => PI_rows e p minimize s X
  | AMGFI t p => MGFI_rows exp_max t p minimize s X
  end.
