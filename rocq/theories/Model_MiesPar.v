(** The mixed-integer evolution strategy with its strategy parameters and its stopping criteria:
    bayes_optim/acquisition/optim/mies.py.  Extends Model_MIES, whose moves are computed here from the step sizes sigma (real
    variables), eta (integer variables) and the probability P (categorical variables).
    Simplification: numbers are rationals; the factors exp(...) are arbitrary positive rationals. *)
From Coq Require Import Bool Arith ZArith QArith Qabs Qround Qminmax List Reals Qreals.
From Verif Require Import Model_Var Model_Grid Model_Pareto Model_Box Model_Ask Model_Sol Model_MIES.
Import ListNotations.
Open Scope nat_scope.

(** A row of the population: the solution and its strategy parameters (mies.py 101-106); [i_prob] has one entry if there are
    categorical variables (72), otherwise none. *)
Record ind := mkInd { i_x : point; i_sigma : list Q; i_eta : list Q; i_prob : list Q }.

(** The random numbers for one offspring: the parents (324), the components taken from the second parent (183), the factors
    exp(tau * randn() + ...) of sigma (224-227), the normal numbers R (230), the factors of eta (250-253), the two geometric
    numbers (257), the factor exp(-tau * randn()) (267), the uniform numbers (270) and the levels (274). *)
Record noise := mkNoise {
  n_p1 : nat; n_p2 : nat; n_mask : nat -> bool;
  n_sigma : nat -> Q; n_R : nat -> Q; n_eta : nat -> Q; n_geo1 : nat -> Z; n_geo2 : nat -> Z;
  n_prob : Q; n_u : nat -> Q; n_level : nat -> nat }.

(** 222-227: the mutated step sizes. *)
Definition sigma' (d : noise) (a : ind) : list Q := map (fun p => (snd p * n_sigma d (fst p))%Q) (indexed (i_sigma a)).
(** 248-254: the mutated step sizes, at most 1. *)
Definition eta' (d : noise) (a : ind) : list Q := map (fun p => Qmin (snd p * n_eta d (fst p)) 1) (indexed (i_eta a)).
(** 256: the arguments of the geometric distribution; numpy raises ValueError unless they are in (0, 1]. *)
Definition geometric_p (N : nat) (eta : Q) : R :=
  let t := (Q2R eta / INR N)%R in (1 - t / (1 + sqrt (1 + t ^ 2)))%R.
(** 256 for all integer components. *)
Definition geometric_args (vs : list var) (d : noise) (a : ind) : list R := map (geometric_p (List.length (id_i vs))) (eta' d a).
(** 265-267: the mutated probability; at P = 0 the quotient is inf. *)
Definition prob' (d : noise) (p : Q) : Q := if Qeq_bool p 0 then 0 else (/ (1 + (1 - p) / p * n_prob d))%Q.

(** The moves made with these parameters, for Model_MIES.  [i_sigma] and [i_prob] have the lengths of the index lists. *)
Definition moves (d : noise) (a : ind) : draws :=
  mkDraws (n_p1 d) (n_p2 d) (n_mask d)
    (fun j => match nth_error (sigma' d a) j with Some s => (s * n_R d j)%Q | None => 0%Q end)
    (fun j => (n_geo1 d j - n_geo2 d j)%Z)
    (fun j => match i_prob a with p :: _ => negb (Qle_bool (prob' d p) (n_u d j)) | [] => false end)
    (n_level d).

(** 241-242: abs((x_ - x) / R), x before and x_ after the repair and the rounding.  [None]: not a finite number (R = 0). *)
Definition corrected (x x_ : point) (d : noise) (ji : nat * nat) : option Q :=
  match nth_error x (snd ji), nth_error x_ (snd ji) with
  | Some u, Some v =>
      match as_num u, as_num v with
      | Some u, Some v => if Qeq_bool (n_R d (fst ji)) 0 then None else Some (Qabs ((v - u) / n_R d (fst ji)))
      | _, _ => None
      end
  | _, _ => None
  end.

(** 212-274  mutate: reals, integers, categorical variables in turn; 268: P is repaired to [1 / (3 N_d), 1/2]. *)
Definition mutate_par (vs : list var) (d : noise) (a : ind) : option ind :=
  let m := moves d a in
  obind (mutate_r vs m (i_x a)) (fun x1 =>
  obind (sequence (map (corrected (i_x a) x1 d) (indexed (id_r vs)))) (fun sig =>
  obind (mutate_i vs m x1) (fun x2 =>
  obind (mutate_d vs m x2) (fun x3 =>
  let n := inject_Z (Z.of_nat (List.length (id_d vs))) in
  Some (mkInd x3 sig (eta' d a) (map (fun p => reflect (prob' d p) (1 / (3 * n)) (1 # 2)) (i_prob a))))))).

(** 175-185  recombine: intermediate for the strategy parameters. *)
Definition means (l1 l2 : list Q) : list Q := map (fun p => ((fst p + snd p) / 2)%Q) (combine l1 l2).
(** 175-185. *)
Definition recombine_par (pop : list ind) (d : noise) : option ind :=
  match nth_error pop (n_p1 d), nth_error pop (n_p2 d) with
  | Some p1, Some p2 =>
      if n_p1 d =? n_p2 d then Some p1
      else let idx := filter (n_mask d) (seq 0 (List.length (i_x p1))) in
           Some (mkInd (puts (i_x p1) idx (pick (i_x p2) idx)) (means (i_sigma p1) (i_sigma p2)) (means (i_eta p1) (i_eta p2)) (means (i_prob p1) (i_prob p2)))
  | Some p1, None => if n_p1 d =? n_p2 d then Some p1 else None
  | None, _ => None
  end.

(** 87-98 and 126-139: the default parameters. *)
Definition default_sigma (vs : list var) : list Q :=
  flat_map (fun v => match vkind v with KReal lb ub _ => [((1 # 20) * (ub - lb))%Q] | _ => [] end) vs.
(** 93-94. *)
Definition default_eta (vs : list var) : list Q :=
  flat_map (fun v => match vkind v with KInt lb ub _ => [((1 # 20) * inject_Z (ub - lb))%Q] | _ => [] end) vs.
(** 96-97. *)
Definition default_prob (vs : list var) : list Q :=
  match id_d vs with [] => [] | l => [(1 / inject_Z (Z.of_nat (List.length l)))%Q] end.

(** 86-98: the names of the columns of the strategy parameters are added only for those that are not given ([true]: given).
    solution.py 114: one name for each column. *)
Definition par_names (vs : list var) (sigma0 eta0 P0 : option (list Q)) : nat :=
  (match sigma0 with None => List.length (id_r vs) | Some _ => 0 end) +
  (match eta0 with None => List.length (id_i vs) | Some _ => 0 end) +
  (match P0 with None => Nat.min (List.length (id_d vs)) 1 | Some _ => 0 end).
(** 107-115 and 129-138: the columns that are added. *)
Definition par_columns (vs : list var) (sigma0 eta0 P0 : option (list Q)) : list (list Q) :=
  [match id_r vs with [] => [] | _ => match sigma0 with Some l => l | None => default_sigma vs end end;
   match id_i vs with [] => [] | _ => match eta0 with Some l => l | None => default_eta vs end end;
   match id_d vs with [] => [] | _ => match P0 with Some l => l | None => default_prob vs end end].

Section Run.
  Variable c : mcfg.
  Variable fit : nat -> nat -> point -> Q.
  Variable argsort : list Q -> list nat.
  Variable rnd : nat -> nat -> noise.

  (** 278, 291, 295: the entries of stop_dict. *)
  Inductive reason := MaxEval | TolFun | FlatFitness.
  (** The state; [p_off] is f_offspring, [p_hist] is histfunval, [p_stop] is stop_dict. *)
  Record pst := mkP { p_pop : list (ind * Q); p_off : list Q; p_xopt : point; p_fopt : Q; p_evals : nat; p_iters : nat;
                      p_hist : list Q; p_stop : list reason; p_trace : list (ind * Q) }.

  (** 151-153 *)
  Definition tolfun : Q := 1 # 100000.
  (** No counterpart in the code: a / b on ints. *)
  Definition ratio (a b : nat) : Q := (inject_Z (Z.of_nat a) / inject_Z (Z.of_nat b))%Q.
  (** 152. *)
  Definition nbin : nat := Z.to_nat (3 + Qceiling (ratio (30 * List.length (m_vs c)) (m_lambda c))).

  (** 199-210 for a population; the values are penalized. *)
  Definition evaluate_par (n : nat) (X : list ind) : list (ind * Q) :=
    map (fun ia => (snd ia, fit n (fst ia) (i_x (snd ia)))) (indexed X).

  (** 126-154: the initial state from a sample; the assertion of Solution on the names; [None]: AssertionError, or ValueError of
      min([]). *)
  Definition construct (sigma0 eta0 P0 : option (list Q)) (X : list point) : option pst :=
    match par_columns (m_vs c) sigma0 eta0 P0 with
    | [sig; et; pr] =>
        if List.length sig + List.length et + List.length pr =? par_names (m_vs c) sigma0 eta0 P0 then
          let p := evaluate_par 0 (map (fun x => mkInd x sig et pr) X) in
          match first_best c (map (fun a => (i_x (fst a), snd a)) p) with
          | None => None
          | Some (x, f) => Some (mkP p (repeat (hd 0%Q (map snd p)) (m_lambda c)) x f (List.length X) 0 (repeat 0%Q nbin) [] p)
          end
        else None
    | _ => None
    end.

  (** np.mod on rationals *)
  Definition qmod (q : Q) (n : nat) : Q := (q - inject_Z (Z.of_nat n) * inject_Z (Qfloor (q / inject_Z (Z.of_nat n))))%Q.
  (** l[i] = a. *)
  Fixpoint set_nth (l : list Q) (i : nat) (a : Q) : list Q :=
    match l, i with [], _ => [] | _ :: t, 0 => a :: t | b :: t, S i => b :: set_nth t i a end.
  (** max of a list. *)
  Definition qmax (l : list Q) : Q := match l with [] => 0 | a :: t => fold_left Qmax t a end.
  (** min of a list. *)
  Definition qmin (l : list Q) : Q := match l with [] => 0 | a :: t => fold_left Qmin t a end.

  (** 276-314  stop: the new state, whose [p_stop] is not empty if the loop ends.  [None]: IndexError. *)
  Definition stop_par (s : pst) : option pst :=
    let st := p_stop s ++ (match m_max c with Some m => if m <? p_evals s then [MaxEval] else [] | None => [] end) in
    if (p_evals s =? 0) || (p_iters s =? 0) then Some (mkP (p_pop s) (p_off s) (p_xopt s) (p_fopt s) (p_evals s) (p_iters s) (p_hist s) st (p_trace s))
    else
      match p_off s with
      | [] => None
      | f0 :: _ =>
          let q := ratio (p_evals s) (m_lambda c) in
          let hist := set_nth (p_hist s) (Z.to_nat (to_int (qmod (q - 1) nbin))) f0 in
          let st := if Qeq_bool (qmod q nbin) 0 && negb (Qle_bool tolfun (qmax hist - qmin hist)) then st ++ [TolFun] else st in
          let k := to_int (Qmin (inject_Z (Qceiling ((1 # 10) + ratio (m_lambda c) 4))) (inject_Z (Z.of_nat (m_mu c) - 1))) in
          match nth_error (p_off s) (Z.to_nat k) with
          | None => None
          | Some fk =>
              let st := if Qeq_bool f0 fk then st ++ [FlatFitness] else st in
              Some (mkP (p_pop s) (p_off s) (p_xopt s) (p_fopt s) (p_evals s) (p_iters s) hist st (p_trace s))
          end
      end.

  (** 323-337  one generation. *)
  Definition offspring_par (g : nat) (s : pst) : option (list ind) :=
    sequence (map (fun i => obind (recombine_par (map fst (p_pop s)) (rnd g i)) (mutate_par (m_vs c) (rnd g i))) (seq 0 (m_lambda c))).
  (** 187-197 select. *)
  Definition select_par (s : pst) (off : list (ind * Q)) : list (ind * Q) :=
    let all := if m_elitism c then p_pop s ++ off else off in
    let rank := argsort (map snd all) in
    let rank := if m_min c then rank else rev rank in
    pick all (firstn (m_mu c) rank).
  (** 323-337. *)
  Definition generation_par (g : nat) (s : pst) : option pst :=
    match offspring_par g s with
    | None => None
    | Some X =>
      let off := evaluate_par (p_evals s) X in
      match select_par s off with
      | [] => None                                                            (* IndexError: pop[0] *)
      | ((a, f) :: _) as p =>
        let b := better c f (p_fopt s) in
        Some (mkP p (map snd off) (if b then i_x a else p_xopt s) (if b then f else p_fopt s)
                  (p_evals s + List.length X) (S (p_iters s)) (p_hist s) (p_stop s) (p_trace s ++ off))
      end
    end.

  (** 320-344 *)
  Inductive outcome_par := Done_par (s : pst) | Raised_par (s : pst) | OutOfFuel_par (s : pst).
  (** 320-344: the loop, at most [fuel] generations. *)
  Fixpoint optimize_par (fuel g : nat) (s : pst) : outcome_par :=
    match stop_par s with
    | None => Raised_par s
    | Some s1 =>
        match p_stop s1 with
        | _ :: _ => Done_par s1
        | [] => match fuel with
                | 0 => OutOfFuel_par s1
                | S fuel' => match generation_par g s1 with
                             | None => Raised_par s1
                             | Some s2 => optimize_par fuel' (S g) s2
                             end
                end
        end
    end.
End Run.
(** No counterpart in the code: the state reached. *)
Definition final_par (o : outcome_par) : pst := match o with Done_par s | Raised_par s | OutOfFuel_par s => s end.
