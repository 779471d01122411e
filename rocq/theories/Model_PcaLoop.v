(** The PCA-assisted optimizer as a loop: bayes_optim/extension.py 89-200 (PCABO) with ask of base.py 259-307, over the real
    numbers, on top of Model_PCA.  Simplifications: no constraints are given, eval_type is "list", the search space is a RealSpace,
    and tell gets one value per point. *)
From Coq Require Import Bool Arith Reals List.
From Verif Require Import Model_PCA.
Import ListNotations.
Open Scope R_scope.

(** The mean of the rows (np.mean with axis=0) of a matrix with d columns. *)
Definition vmean (d : nat) (X : list (list R)) : list R := map (Rmult (/ INR (length X))) (fold_right vadd (repeat 0 d) X).

(** The attributes that ask and tell read and change. *)
Record pst := mkP {
  p_data : list (list R * R);           (* data and its fitness *)
  p_iter : nat;                         (* iter_count *)
  p_evals : nat;                        (* eval_count *)
  p_hist : list R;                      (* hist_f *)
  p_pca : option pca;                   (* _pca, None while it has no components_ *)
  p_space : option (list (R * R));      (* the bounds of the reduced _search_space, None for the original one *)
  p_model : bool                        (* model is not None and model.is_fitted *)
}.
Definition p_start : pst := mkP [] 0 0 [] None None false.

(** How ask ends: points, NotImplementedError (base.py 496-497), or the result of an empty search. *)
Inductive asked := Points (X : list (list R)) | NotImplemented | AskEmpty.

Section Loop.
  Variable bounds : list (R * R).
  Variable minimize : bool.
  Variables doe_size n_default : nat.
  (** sklearn's PCA.fit: the components for a matrix, None if it raises. *)
  Variable sk_fit : list (list R) -> option (list (list R)).
  (** Whether fitting the Gaussian process and predicting with it (extension.py 178-207) succeeds. *)
  Variable gp_fits : pst -> bool.
  (** The result of argmax_restart on the penalized acquisition function (None: no restart is feasible), and n rounded samples of
      the current search space. *)
  Variable inner : pst -> option (list R).
  Variable sample : pst -> nat -> list (list R).

  (** extension.py 26-47: LinearTransform.fit; None: the weights are nan and PCA.fit raises, or it raises for another reason. *)
  Definition linear_fit (X : list (list R)) (y : list R) : option pca :=
    let c := vmean (length bounds) X in
    match weights minimize y with
    | None => None
    | Some w => match sk_fit (scaled w X c) with
                | None => None
                | Some comps => Some (Pca (vmean (length bounds) (scaled w X c)) comps c)
                end
    end.

  (** extension.py 151-152 with base.py 259-307: the points in the current space, mapped back (56-59: as they are before the first
      fit).  pre_eval_check does not remove any point (extension.py 135-141), BO has no batch version (base.py 496-497), and so
      create_DoE ends after one pass. *)
  Definition back (s : pst) (x : list R) : list R := match p_pca s with Some p => inverse_transform p x | None => x end.
  (** extension.py 151-152. *)
  Definition ask (s : pst) (n_point : option nat) : asked :=
    let proposals :=
      if p_model s then
        let n := match n_point with Some n => n | None => n_default end in
        if (1 <? n)%nat then None
        else let X := match inner s with Some z => [z] | None => [] end in
             Some (if (length X <? n)%nat then X ++ sample s (n - length X) else X)
      else Some (sample s (match n_point with Some n => n | None => doe_size end)) in
    match proposals with
    | None => NotImplemented
    | Some [] => AskEmpty
    | Some X => Points (map (back s) X)
    end.

  (** base.py 413-421: post_eval_check; None is nan or an infinite value. *)
  Definition finite_rows (X : list (list R)) (y : list (option R)) : list (list R * R) :=
    flat_map (fun q => match snd q with Some v => [(fst q, v)] | None => [] end) (combine X y).
  (** extension.py 154-176: tell.  The boolean says whether it returns; the attributes assigned before an exception stay. *)
  Definition tell (s : pst) (X : list (list R)) (y : list (option R)) : pst * bool :=
    let data := p_data s ++ finite_rows X y in
    let it := S (p_iter s) in
    let ev := (p_evals s + length X)%nat in
    match linear_fit (map fst data) (map snd data) with
    | None => (mkP data it ev (p_hist s)
                 (option_map (fun p => Pca (mean_ p) (components_ p) (vmean (length bounds) (map fst data))) (p_pca s)) (p_space s) (p_model s), false)
    | Some p =>
      let s1 := mkP data it ev (p_hist s) (Some p) (Some (compute_bounds p bounds)) false in
      if gp_fits s1 then (mkP data it ev (p_hist s) (Some p) (Some (compute_bounds p bounds)) true, true) else (s1, false)
    end.

  (** extension.py 143-149: xopt, the first observation with the best value; None without a value (np.min raises if all are removed). *)
  Definition best_value (y : list R) : option R :=
    match y with [] => None | a :: l => Some (fold_left (if minimize then Rmin else Rmax) l a) end.
  (** extension.py 143-149. *)
  Definition xopt (s : pst) : option (list R * R) :=
    match best_value (map snd (p_data s)) with None => None | Some f => find (fun a => req (snd a) f) (p_data s) end.

  (** A sequence of calls of tell by the user, whether they return or not. *)
  Definition tells (l : list (list (list R) * list (option R))) : pst := fold_left (fun s a => fst (tell s (fst a) (snd a))) l p_start.

  (** base.py 252-256 and _base.py 133-136: n iterations of run; [f] is the objective function.  The points evaluated, and the
      state; an exception ends the run. *)
  Variable f : list R -> option R.
  Fixpoint run (n : nat) (s : pst) : list (list R) * pst :=
    match n with
    | 0%nat => ([], s)
    | S n => match ask s None with
             | Points X => let '(s', ok) := tell s X (map f X) in
                           if ok then let '(Y, t) := run n s' in (X ++ Y, t) else (X, s')
             | _ => ([], s)
             end
    end.
End Loop.
