(** Whole runs of ConditionalBO (bayes_optim/extension.py 211-306): ask, tell and run with one optimizer for each sub-space.  The
    proposals of these optimizers, the random choice of sub-spaces and the fitting of models are arbitrary. *)
From Coq Require Import Bool Arith ZArith QArith String List.
From Verif Require Import Model_Opt Model_Conditional.
Import ListNotations.
Open Scope nat_scope.

(** The exceptions that leave ask and tell: those of Model_Opt, and the KeyError of x.pop(key) (293). *)
Inductive cexn := Base (e : exn) | KeyError.

(** The state (212-218, _base.py 47-51): the optimizer itself, the optimizers of the sub-spaces (_bo), the position of the generator
    _init_gen and the sub-spaces of the last ask (_bo_idx).  Simplification: the observations of the optimizer itself are kept as the
    dictionaries that were told (the columns in which they are stored are the subject of C106). *)
Record cst := CSt { top : st dict; subs : list (st dict); gen : nat; bo_idx : list nat }.

Section CondRun.
  Variable names : list string.                       (* self.var_names *)
  Variable fixed : nat -> dict.                       (* self._fixed_vars *)
  Variable order : list string -> list string.        (* the order in which a set is enumerated (267) *)
  Variable n_sub : nat.                               (* self.n_subspace *)
  Variable n_point : nat.                             (* self.n_point *)
  Variable c : cfg.                                   (* minimize, max_FEs and ftarget; passed on to the optimizers of the sub-spaces (224-236) *)
  (** The point that the optimizer of a sub-space proposes (263) for the given place of the batch in the k-th call; it may raise. *)
  Variable propose : nat -> nat -> st dict -> res dict.
  (** np.random.choice (246) in the k-th call *)
  Variable choice : nat -> nat -> list nat.
  (** the answers of the model fits (Model_Opt.update_model) in the k-th call *)
  Variable fitk : nat -> nat -> bool * option exn.

  (** 212-218 without warm data. *)
  Definition cond_init : cst := CSt init (repeat init n_sub) 0 [].
  (** The optimizers of the sub-spaces are asked for dictionaries (230). *)
  Definition sub_cfg : cfg := mkCfg (minimize c) (max_fes c) (ftarget c) EDict.
  (** 263: self._bo[i] *)
  Definition sub (s : cst) (i : nat) : st dict := nth i (subs s) init.

  (** 262-263: one point from each chosen sub-space, up to the first exception. *)
  Fixpoint ask_subs (k p : nat) (s : cst) (idx : list nat) : res (list dict) :=
    match idx with
    | [] => Ok []
    | i :: idx' =>
      match propose k p (sub s i) with
      | Err e => Err e
      | Ok d => match ask_subs k (S p) s idx' with Err e => Err e | Ok X => Ok (d :: X) end
      end
    end.
  (** 248-269 ask.  The generator has advanced and _bo_idx is set when an optimizer of a sub-space raises. *)
  Definition cond_ask (k : nat) (n : option nat) (s : cst) : res (list dict) * cst :=
    let n := match n with None => n_point | Some n => n end in
    let (idx, g) := choose n_sub (gen s) n (choice k) in
    let s' := CSt (top s) (subs s) g idx in
    match ask_subs k 0 s idx with
    | Err e => (Err e, s')
    | Ok X => (Ok (map (fun p => complete names fixed order (fst p) (snd p)) (combine idx X)), s')
    end.

  (** self._bo[i] = ... *)
  Fixpoint set_sub (l : list (st dict)) (i : nat) (v : st dict) : list (st dict) :=
    match l, i with
    | [], _ => []
    | _ :: l, 0 => v :: l
    | a :: l, S i => a :: set_sub l i v
    end.
  (** 289-294: the loop that tells the optimizers of the sub-spaces, up to the first exception. *)
  Fixpoint tell_subs (k p : nat) (idx : list nat) (X : list dict) (fv : list fval) (l : list (st dict)) : option cexn * list (st dict) :=
    match idx, X with
    | i :: idx', d :: X' =>
      match told fixed i d with
      | None => (Some KeyError, l)
      | Some x =>
        match fv with
        | [] => (Some (Base EIndex), l)
        | f :: fv' =>
          match tell sub_cfg (nth i l init) (mkCall [x] [f] None false (fitk k p)) with
          | (Some e, s1) => (Some (Base e), set_sub l i s1)
          | (None, s1) => tell_subs k (S p) idx' X' fv' (set_sub l i s1)
          end
        end
      end
    | _, _ => (None, l)
    end.
  (** 296-306: the optimizer itself.  n_eval is left at the default 0 of from_dict; eval_count grows by the number of rows that are
      kept, with and without warm_start. *)
  Definition tell_top (X : list dict) (fv : list fval) (warm : bool) (s : st dict) : option exn * st dict :=
    match X with
    | [] => (Some EIndex, s)
    | _ =>
      if List.length fv =? List.length X then
        let R := map (fun p => mkRow (fst (fst p)) (snd (fst p)) 0 (snd p)) (combine (combine X fv) (map str_nat (seq 0 (List.length X)))) in
        let X2 := post_eval_check R in
        match data s, X2 with
        | Some [], [] => (Some EIndex, s)
        | _, _ =>
          let d := match data s with Some d0 => d0 ++ X2 | None => X2 end in
          let s1 := add_evals (set_data s d) (List.length X2) in
          match xopt c s1 with
          | Err e => (Some e, s1)
          | Ok None => (Some EAttribute, s1)
          | Ok (Some r) => (None, if warm then s1 else push_hist s1 (rf r))
          end
        end
      else (Some EAssert, s)
    end.
  (** 271-306 tell. *)
  Definition cond_tell (k : nat) (X : list dict) (fv : list fval) (warm : bool) (s : cst) : option cexn * cst :=
    if List.length (bo_idx s) =? List.length X then
      match tell_subs k 0 (bo_idx s) X fv (subs s) with
      | (Some e, l) => (Some e, CSt (top s) l (gen s) (bo_idx s))
      | (None, l) =>
        match tell_top X fv warm (top s) with
        | (Some e, t) => (Some (Base e), CSt t l (gen s) (bo_idx s))
        | (None, t) => (None, CSt t l (gen s) (bo_idx s))
        end
      end
    else (Some (Base EAssert), s).

  (** The objective function: the values of the k-th batch; it may be noisy and it may raise. *)
  Variable evaluate : nat -> list dict -> res (list fval).
  (** base.py 252-256 step. *)
  Definition cond_step (k : nat) (s : cst) : option cexn * cst :=
    match cond_ask k None s with
    | (Err e, s1) => (Some (Base e), s1)
    | (Ok X, s1) =>
      match evaluate k X with
      | Err e => (Some (Base e), s1)
      | Ok fv => cond_tell k X fv false s1
      end
    end.
  (** How a run ends. *)
  Inductive coutcome := CReturned (s : cst) (r : row dict) | CRaised (e : cexn) (s : cst) | COutOfFuel.
  (** _base.py 133-136 run; [fuel] bounds the number of iterations. *)
  Fixpoint cond_run (fuel k : nat) (s : cst) : coutcome :=
    match check_stop c (top s) with
    | Err e => CRaised (Base e) s
    | Ok (true, t) =>
      let s' := CSt t (subs s) (gen s) (bo_idx s) in
      match xopt c t with
      | Err e => CRaised (Base e) s'
      | Ok None => CRaised (Base EAttribute) s'
      | Ok (Some r) => CReturned s' r
      end
    | Ok (false, t) =>
      match fuel with
      | 0 => COutOfFuel
      | S fuel' =>
        match cond_step k (CSt t (subs s) (gen s) (bo_idx s)) with
        | (Some e, s2) => CRaised e s2
        | (None, s2) => cond_run fuel' (S k) s2
        end
      end
    end.
End CondRun.
