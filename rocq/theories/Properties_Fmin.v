(** C190-C195: fmin.  The objective function is any function of the point (with a value, NaN, an infinity or an exception); the
    samples, the results of the acquisition optimization and the answers of the surrogate are arbitrary. *)
From Coq Require Import List Bool Arith ZArith QArith String Lia FinFun.
From Verif Require Import Model_Opt Spec_Opt Proofs_Opt Model_Var Model_Ask Spec_Ask Proofs_Ask Model_Conditional Model_Fmin Proofs_Fmin.
Import ListNotations.
Open Scope nat_scope.

(** The points passed as x0. *)
Definition passed (x0 : start) : list point := match x0 with XIter X => X | _ => [] end.
(** The box spanned by the bounds. *)
Definition box (lower upper : bound) : list (Q * Q) :=
  match lower, upper with BFloat l, BFloat u => [(l, u)] | BList ls, BList us => combine ls us | _, _ => [] end.
Definition in_box (bs : list (Q * Q)) (x : point) : Prop :=
  Forall2 (fun b v => exists q, as_num v = Some q /\ (fst b <= q)%Q /\ (q <= snd b)%Q) bs x.

Section Fmin.
Variable func : point -> res fval.
Variable samp : nat -> nat -> nat -> list point.
Variable inner : nat -> nat -> point.
Variable fitk : nat -> bool * option exn.
Variable warm_fit : bool * option exn.
Notation fmin := (fmin func samp inner fitk warm_fit).

(** ** C190: the returned point is a best one.  If y0 is given it has to be right. *)
Theorem C190_returned_best fuel lower upper x0 y0 n_point max_FEs R calls :
  fmin fuel lower upper x0 y0 n_point max_FEs = (FReturned R, calls) ->
  (forall y, y0 = Some y -> Forall2 (fun x v => func x = Ok v) (passed x0) y \/ passed x0 = []) ->
  exists q, r_f R = FNum q /\ func (r_x R) = Ok (FNum q) /\ In (r_x R) (passed x0 ++ calls) /\
    forall x p, In x (passed x0 ++ calls) -> func x = Ok (FNum p) -> (q <= p)%Q.
Proof.
  intros H HY. destruct (fmin_inv _ _ _ _ _ _ _ _ _ _ _ _ _ _ H) as (vs & Y & ks & s & EV & _ & LY & _ & EY & EX & FK & EC & RE & _).
  set (c := mkCfg true (cfg_max_FEs max_FEs) None EList) in *.
  assert (FA : Forall (fun q => Forall2 (fun x v => func x = Ok v) (c_X q) (c_f q)) (warm_calls warm_fit x0 Y ++ ks)).
  { apply Forall_app. split.
    - destruct x0 as [k|X|]; cbn [warm_calls]; constructor; [|constructor]. cbn [c_X c_f]. destruct y0 as [y|].
      + subst Y. destruct (HY y eq_refl) as [A|A]; [exact A|]. cbn in A. subst X. destruct y; [constructor|discriminate].
      + exact (proj2 (eval_all_called _ _ _ EY)).
    - revert FK. apply Forall_impl. intros q (_ & E & _). exact (proj2 (eval_all_called _ _ _ E)). }
  assert (IN : forall x, In x (flat_map c_X (warm_calls warm_fit x0 Y ++ ks)) <-> In x (passed x0 ++ calls)).
  { intro x. rewrite flat_map_app, EC. destruct x0 as [k|X|]; cbn [warm_calls given passed flat_map app c_X]; rewrite ?app_nil_r; destruct y0; rewrite ?in_app_iff; cbn [In]; tauto. }
  assert (NE : observed (warm_calls warm_fit x0 Y ++ ks) <> []).
  { destruct (accounting_gen _ _ _ _ EX) as (_ & A). cbn in A. intro E. rewrite E in A. unfold recommend, xopt in RE. unfold rows in A. destruct (data s) as [d|]; [|discriminate].
    destruct d; [discriminate|discriminate]. }
  destruct (recommend_spec _ _ _ EX NE) as (l1 & x & q & l2 & r & EO & ER & Ex & Ef & B1 & B2). rewrite ER in RE. injection RE as RE.
  assert (E1 : rx r = r_x R) by (rewrite RE; reflexivity). assert (E2 : rf r = r_f R) by (rewrite RE; reflexivity).
  assert (M : In (x, q) (observed (warm_calls warm_fit x0 Y ++ ks))) by (rewrite EO; apply in_elt).
  apply (observed_func func warm_fit _ FA) in M as (M1 & M2). exists q. split; [congruence|]. replace (r_x R) with x by congruence. split; [exact M2|]. split; [now apply IN|].
  intros z p Hz Ez. assert (O : In (z, p) (observed (warm_calls warm_fit x0 Y ++ ks))) by (apply (observed_func func warm_fit _ FA); split; [now apply IN|exact Ez]).
  rewrite EO in O. apply in_app_or in O as [O|[O|O]].
  - apply Qlt_le_weak. exact (B1 p (in_map snd _ _ O)).
  - injection O as -> ->. apply Qle_refl.
  - apply Qnot_lt_le. exact (B2 p (in_map snd _ _ O)).
Qed.

(** ** C191: the counts.  The returned number of evaluations leaves out the calls for x0, and exceeds the budget by less than
    the last batch. *)
Theorem C191_count_partial fuel lower upper x0 y0 n_point max_FEs R calls :
  fmin fuel lower upper x0 y0 n_point max_FEs = (FReturned R, calls) ->
  List.length calls = r_evaluations R + match y0 with None => List.length (passed x0) | Some _ => 0 end /\
  exists b, max_FEs = Some b /\ 0 < b <= r_evaluations R /\
    ((forall k count j, List.length (samp k count j) <= j) ->
     r_evaluations R < b + Nat.max n_point (match x0 with XInt (S k) => S k | _ => 5 * List.length (box lower upper) end)).
Proof.
  intros H. destruct (fmin_inv _ _ _ _ _ _ _ _ _ _ _ _ _ _ H) as (vs & Y & ks & s & EV & Hn & LY & _ & EY & EX & FK & EC & RE & EE & _ & _ & (b & Eb & Lb) & BU).
  set (c := mkCfg true (cfg_max_FEs max_FEs) None EList) in *.
  destruct (accounting_gen _ _ _ _ EX) as (A & _). cbn in A.
  assert (P : points_told (warm_calls warm_fit x0 Y ++ ks) = List.length (flat_map c_X ks)).
  { assert (Q : forall l : list (call point), Forall (step_call func samp inner vs n_point (fmin_doe (List.length vs) x0)) l -> points_told l = List.length (flat_map c_X l)).
    { induction 1 as [|q l (_ & _ & _ & W) _ IH]; [reflexivity|]. cbn. rewrite W, IH, app_length. reflexivity. }
    destruct x0; cbn; apply Q; exact FK. }
  split.
  - rewrite EC, app_length, EE, A, P. destruct x0, y0; cbn; lia.
  - exists b. destruct max_FEs as [[|m]|]; cbn in Eb; try discriminate. injection Eb as <-. split; [reflexivity|]. split; [lia|]. intro HS. rewrite EE.
    assert (LV : List.length vs = List.length (box lower upper) /\ List.length vs <> 0).
    { revert EV. clear. unfold fmin_space, real_space, box. destruct lower, upper; try discriminate.
      - destruct (forallb _ _); [|discriminate]. intros [= <-]. split; [reflexivity|discriminate].
      - destruct (_ =? _); [|discriminate]. destruct (combine l l0) as [|b bs] eqn:E; [discriminate|]. destruct (forallb _ _); [|discriminate]. intros [= <-].
        cbn [map combine seq List.length]. rewrite map_length, combine_length, seq_length, Nat.min_id. split; [reflexivity|discriminate]. }
    specialize (BU (Nat.max n_point (fmin_doe (List.length vs) x0)) (S m) eq_refl).
    replace (match x0 with XInt (S k) => S k | _ => 5 * List.length (box lower upper) end) with (fmin_doe (List.length vs) x0) by (destruct LV as (<- & _); unfold fmin_doe; destruct x0 as [[|k]|X|]; lia).
    apply BU. apply propose_length; auto. unfold fmin_doe. destruct x0 as [[|k]|X|]; lia.
Qed.

(** The third value returned is the number of batches evaluated after x0, in order. *)
Theorem C191_iterations_partial fuel lower upper x0 y0 n_point max_FEs R calls :
  fmin fuel lower upper x0 y0 n_point max_FEs = (FReturned R, calls) ->
  exists batches, List.length batches = r_iterations R /\ calls = (match y0 with None => passed x0 | Some _ => [] end) ++ List.concat batches.
Proof.
  intros H. destruct (fmin_inv _ _ _ _ _ _ _ _ _ _ _ _ _ _ H) as (vs & Y & ks & s & EV & _ & LY & _ & EY & EX & FK & EC & _ & _ & RI & _).
  exists (map c_X ks). split; [|rewrite EC, flat_map_concat_map; destruct x0; reflexivity].
  assert (F0 : Forall finrow (rows (@init point))) by constructor. destruct (exec_hist _ _ _ _ F0 EX) as (_ & _ & _ & E). rewrite RI, E, map_length. cbn [iters init]. unfold paid_calls. rewrite filter_app, app_length.
  replace (filter _ (warm_calls warm_fit x0 Y)) with (@nil (call point)) by (destruct x0; reflexivity).
  assert (A : forall l : list (call point), Forall (fun q => c_warm q = false) l -> filter (fun k => negb (c_warm k)) l = l).
  { clear. induction 1 as [|q l Q F IH]; [reflexivity|]. cbn. rewrite Q. cbn. now rewrite IH. }
  rewrite A; [reflexivity|]. revert FK. apply Forall_impl. intros q (_ & _ & _ & W). exact W.
Qed.
(** C72 for fmin: the history is computed (see C72) from the points with a finite value, x0 first, in the order of evaluation. *)
Theorem C72_fmin_partial fuel lower upper x0 y0 n_point max_FEs R calls :
  fmin fuel lower upper x0 y0 n_point max_FEs = (FReturned R, calls) ->
  (forall y, y0 = Some y -> Forall2 (fun x v => func x = Ok v) (passed x0) y \/ passed x0 = []) ->
  r_history R = data_per_iteration (match x0 with XInt (S k) => S k | _ => 5 * List.length (box lower upper) end) n_point (r_iterations R)
    (filter (fun x => match func x with Ok (FNum _) => true | _ => false end) (match y0 with None => calls | Some _ => passed x0 ++ calls end)).
Proof.
  intros H HY. destruct (fmin_inv _ _ _ _ _ _ _ _ _ _ _ _ _ _ H) as (vs & Y & ks & s & EV & _ & LY & _ & EY & EX & FK & EC & _ & _ & RI & RH & _).
  assert (FA : Forall (fun q => Forall2 (fun x v => func x = Ok v) (c_X q) (c_f q)) (warm_calls warm_fit x0 Y ++ ks)).
  { apply Forall_app. split.
    - destruct x0 as [k|X|]; cbn [warm_calls]; constructor; [|constructor]. cbn [c_X c_f]. destruct y0 as [y|].
      + subst Y. destruct (HY y eq_refl) as [A|A]; [exact A|]. cbn in A. subst X. destruct y; [constructor|discriminate].
      + exact (proj2 (eval_all_called _ _ _ EY)).
    - revert FK. apply Forall_impl. intros q (_ & E & _). exact (proj2 (eval_all_called _ _ _ E)). }
  rewrite RH, RI. f_equal.
  - assert (LV : List.length vs = List.length (box lower upper)).
    { unfold fmin_space in EV. destruct lower as [l|ls|], upper as [u|us|]; try discriminate; [exact (proj1 (real_space_kinds _ _ EV))|]. destruct (_ =? _); [|discriminate].
      cbn [box]. destruct (combine ls us) as [|b bs]; [discriminate|]. exact (proj1 (real_space_kinds _ _ EV)). }
    unfold fmin_doe. destruct x0 as [[|k]|X|]; lia.
  - destruct (accounting_gen _ _ _ _ EX) as (_ & A). cbn in A. apply (f_equal (map fst)) in A. rewrite (observed_points func _ FA), map_map in A. cbn in A.
    replace (map rx (rows s)) with (map (fun r : row point => rx r) (rows s)) by reflexivity. rewrite A. f_equal. rewrite flat_map_app, EC.
    destruct x0 as [k|X|]; cbn [warm_calls given passed flat_map app c_X]; rewrite ?app_nil_r; destruct y0; reflexivity.
Qed.

(** ** C192: the function is evaluated only inside the box, except for the points passed as x0, also if fmin raises or never
    ends.  The samplers and the acquisition optimizers stay in the box (C41-C43, C27, C29, C31, C94). *)
Theorem C192_inside fuel lower upper x0 y0 n_point max_FEs :
  (forall k count j x, In x (samp k count j) -> in_box (box lower upper) x) ->
  (forall k i, inner k i <> [] -> in_box (box lower upper) (inner k i)) ->
  forall x, In x (snd (fmin fuel lower upper x0 y0 n_point max_FEs)) -> In x (passed x0) \/ in_box (box lower upper) x.
Proof.
  intros HS HI x. unfold Model_Fmin.fmin. destruct (fmin_space lower upper) as [vs|] eqn:EV; [|intros []].
  assert (SP : (forall v lb ub p, In v vs -> vkind v = KReal lb ub p -> (lb <= ub)%Q) /\ (forall z, in_space vs z <-> in_box (box lower upper) z)).
  { assert (G : forall bs i, forallb proper_bounds bs = true -> forall f, let w := map (fun p : nat * (Q * Q) => mkVar (f p) (KReal (fst (snd p)) (snd (snd p)) None)) (combine (seq i (List.length bs)) bs) in
      (forall v lb ub p, In v w -> vkind v = KReal lb ub p -> (lb <= ub)%Q) /\ (forall z, in_space w z <-> in_box bs z)).
    { induction bs as [|[l u] bs IH]; intros i HB f; cbn zeta; cbn [List.length seq combine map].
      - split; [intros v ? ? ? []|]. intro z. split; intro A; inversion A; constructor.
      - cbn [forallb] in HB. apply andb_true_iff in HB as (B1 & B2). destruct (IH (S i) B2 f) as (I1 & I2). split.
        + intros v lb ub p [<-|Hv] E; [|exact (I1 v lb ub p Hv E)]. cbn in E. injection E as <- <- _. unfold proper_bounds in B1. cbn in B1.
          apply negb_true_iff in B1. apply Qlt_le_weak. apply Qnot_le_lt. intro N. apply Qle_bool_iff in N. congruence.
        + intro z. split; intro A; inversion A as [|? ? ? ? A1 A2]; subst; constructor; auto; now apply I2. }
    revert EV. unfold fmin_space, real_space, box. destruct lower, upper; try discriminate.
    - destruct (forallb _ _) eqn:E; [|discriminate]. intros [= <-]. exact (G [(q, q0)] 0 E (fun _ => "real"%string)).
    - destruct (_ =? _); [|discriminate]. destruct (combine l l0) as [|b bs] eqn:E; [discriminate|]. destruct (forallb proper_bounds (b :: bs)) eqn:F; [|discriminate]. intros [= <-].
      exact (G (b :: bs) 0 F (fun p => if List.length (b :: bs) =? 1 then "real"%string else ("real" ++ str_nat (fst p))%string)). }
  destruct SP as (S1 & S2).
  assert (RC : forall c s, In x (run_calls func samp inner fitk vs n_point (fmin_doe (List.length vs) x0) c fuel 0 s) -> in_box (box lower upper) x).
  { intros c s Hx. destruct (run_calls_in _ _ _ _ _ _ _ _ _ _ _ _ Hx) as (k & t & X & EX & HX). apply S2. unfold fmin_propose in EX.
    refine (ask_in_space vs (samp k) (inner k) _ _ _ _ _ _ X S1 _ _ EX x HX).
    - intros count j z Hz. apply S2. eauto.
    - intros i Hi. apply S2. eauto. }
  assert (O : forall c w t calls, (forall z, In z calls -> In z (passed x0)) ->
    In x (snd match set_warm c init w t warm_fit with
      | (Some e, _) => (FRaised e, calls)
      | (None, s) => if n_point =? 0 then (FRaised EAssert, calls) else
          match run (fmin_propose samp inner vs n_point (fmin_doe (List.length vs) x0)) (fmin_evaluate func) fitk c fuel 0 s with
          | Raised e _ => (FRaised e, calls ++ run_calls func samp inner fitk vs n_point (fmin_doe (List.length vs) x0) c fuel 0 s)
          | OutOfFuel => (FRunning, calls ++ run_calls func samp inner fitk vs n_point (fmin_doe (List.length vs) x0) c fuel 0 s)
          | Returned s' r => (FReturned (Result (rx r) (rf r) (iters s') (evals s') (data_per_iteration (fmin_doe (List.length vs) x0) n_point (iters s') (rows_of s'))),
              calls ++ run_calls func samp inner fitk vs n_point (fmin_doe (List.length vs) x0) c fuel 0 s)
          end
      end) -> In x (passed x0) \/ in_box (box lower upper) x).
  { intros c w t calls HC. destruct (set_warm c init w t warm_fit) as [[e|] s]; cbn [snd]; [auto|]. destruct (n_point =? 0); cbn [snd]; [auto|].
    destruct (run _ _ fitk c fuel 0 s); cbn [snd]; rewrite in_app_iff; intros [A|A]; auto; right; eapply RC; eauto. }
  destruct x0 as [k|X|]; [apply O; intros z []| |apply O; intros z []].
  destruct y0 as [y|]; [apply O; intros z []|]. destruct (eval_all func X); [apply O|cbn [snd]; left]; eauto using called_in.
Qed.

(** ** C193: the forms of the bounds *)
(** Two floats and two lists of the same length are accepted if each lower bound is less than the upper bound, and give one
    variable per pair, in order; everything else raises. *)
Theorem C193_bounds_partial lower upper :
  match lower, upper with
  | BFloat _, BFloat _ | BList _, BList _ =>
      (exists vs, fmin_space lower upper = Ok vs) <->
      box lower upper <> [] /\ (forall l u, In (l, u) (box lower upper) -> (l < u)%Q) /\
        match lower, upper with BList ls, BList us => List.length ls = List.length us | _, _ => True end
  | _, _ => forall fuel x0 y0 n_point max_FEs, fmin fuel lower upper x0 y0 n_point max_FEs = (FRaised EUnbound, [])
  end /\
  (forall vs, fmin_space lower upper = Ok vs -> map vkind vs = map (fun b => KReal (fst b) (snd b) None) (box lower upper) /\ NoDup (map vname vs)).
Proof.
  assert (PB : forall bs, forallb proper_bounds bs = true <-> forall l u, In (l, u) bs -> (l < u)%Q).
  { intro bs. rewrite forallb_forall. split.
    - intros F l u H. specialize (F _ H). unfold proper_bounds in F. cbn in F. apply negb_true_iff in F. apply Qnot_le_lt. intro N. apply Qle_bool_iff in N. congruence.
    - intros F [l u] H. specialize (F l u H). unfold proper_bounds. cbn. apply negb_true_iff. destruct (Qle_bool u l) eqn:E; auto. apply Qle_bool_iff in E. exfalso. exact (Qlt_irrefl l (Qlt_le_trans _ _ _ F E)). }
  assert (RS : forall bs, (exists vs, real_space bs = Ok vs) <-> (forall l u, In (l, u) bs -> (l < u)%Q)).
  { intro bs. rewrite <- PB. unfold real_space. destruct (forallb proper_bounds bs); split; eauto; [intros [? [=]]|discriminate]. }
  assert (RK : forall bs vs, real_space bs = Ok vs -> map vkind vs = map (fun b => KReal (fst b) (snd b) None) bs /\ NoDup (map vname vs)).
  { intros bs vs. unfold real_space. destruct (forallb proper_bounds bs); [|discriminate]. intros [= <-]. rewrite !map_map. cbn [vkind vname]. split.
    - generalize 0. induction bs as [|b bs IH]; intro i; [reflexivity|]. cbn [List.length seq combine map snd]. f_equal. apply IH.
    - destruct (List.length bs =? 1) eqn:E.
      + apply Nat.eqb_eq in E. destruct bs as [|b [|b' bs]]; try discriminate. cbn. constructor; [intros []|constructor].
      + clear E. assert (ND : NoDup (map (fun p : nat * (Q * Q) => fst p) (combine (seq 0 (List.length bs)) bs))).
        { replace (map _ _) with (seq 0 (List.length bs)); [apply seq_NoDup|]. generalize 0. induction bs as [|b bs IH]; intro i; [reflexivity|]. cbn. f_equal. apply IH. }
        rewrite <- (map_map (fun p : nat * (Q * Q) => fst p) (fun i => ("real" ++ str_nat i)%string)). apply FinFun.Injective_map_NoDup; [|exact ND].
        intros a b EQ. cbn in EQ. injection EQ as EQ. now apply str_nat_inj. }
  split.
  - destruct lower as [l|ls|], upper as [u|us|]; try (intros; reflexivity).
    + cbn [fmin_space box]. rewrite RS. split; [intro A; split; [discriminate|auto]|intros (_ & A & _); exact A].
    + cbn [fmin_space box]. destruct (Nat.eqb_spec (List.length ls) (List.length us)) as [L|L].
      * destruct (combine ls us) as [|b bs]; [split; [intros [? [=]]|intros (A & _); congruence]|]. rewrite RS. split; [intro A; split; [discriminate|auto]|intros (_ & A & _); exact A].
      * split; [intros [? [=]]|intros (_ & _ & A); contradiction].
  - intros vs. destruct lower as [l|ls|], upper as [u|us|]; cbn [fmin_space box]; try discriminate; [apply RK|].
    destruct (_ =? _); [|discriminate]. destruct (combine ls us) as [|b bs]; [discriminate|]. apply RK.
Qed.
(** A float on one side and a list on the other, or bounds that are ints, tuples or arrays: UnboundLocalError. *)
Theorem C193_mixed_refuted fuel l us x0 y0 n_point max_FEs :
  fmin fuel (BFloat l) (BList us) x0 y0 n_point max_FEs = (FRaised EUnbound, []) /\ fmin fuel BOther BOther x0 y0 n_point max_FEs = (FRaised EUnbound, []).
Proof. split; reflexivity. Qed.

(** ** C194: termination *)
(** With a positive budget b there are at most b iterations. *)
Theorem C194_terminates_partial b fuel lower upper x0 y0 n_point : 0 < b <= fuel ->
  fst (fmin fuel lower upper x0 y0 n_point (Some b)) <> FRunning.
Proof.
  intros (Hb & HF). unfold Model_Fmin.fmin. destruct (fmin_space lower upper) as [vs|]; [|discriminate]. destruct b as [|b]; [lia|]. cbn [cfg_max_FEs].
  set (c := mkCfg true (Some (S b)) None EList).
  assert (T : forall s, run (fmin_propose samp inner vs n_point (fmin_doe (List.length vs) x0)) (fmin_evaluate func) fitk c fuel 0 s <> OutOfFuel) by (intro s; apply (run_terminates _ _ _ c (S b)); [reflexivity|lia]).
  destruct x0 as [k|X|]; [| |]; try destruct y0 as [y|]; try (destruct (eval_all func X); [|discriminate]);
    destruct (set_warm c init _ _ warm_fit) as [[e|] s]; try discriminate; destruct (n_point =? 0); try discriminate; specialize (T s); destruct (run _ _ fitk c fuel 0 s); try discriminate; congruence.
Qed.
(** With the default max_FEs=None (and with 0) fmin never returns, whatever the function and however long it runs. *)
Theorem C194_default_refuted fuel lower upper x0 y0 n_point max_FEs R : max_FEs = None \/ max_FEs = Some 0 ->
  fst (fmin fuel lower upper x0 y0 n_point max_FEs) <> FReturned R.
Proof.
  intros HM E. destruct (fmin fuel lower upper x0 y0 n_point max_FEs) as [o calls] eqn:H. cbn in E. subst o.
  destruct (C191_count_partial _ _ _ _ _ _ _ _ _ H) as (_ & b & Eb & B & _). destruct HM; subst; [discriminate|]. injection Eb as <-. lia.
Qed.

(** ** C195: an integer x0 is the size of the initial design *)
(** A positive x0 = n: if the first sample has n points of floats none of which is close to another one, and the function does
    not raise, these are the first n calls. *)
Theorem C195_initial_design_partial fuel lower upper vs n y0 n_point max_FEs : fmin_space lower upper = Ok vs -> 0 < n -> 0 < n_point -> 0 < fuel ->
  List.length (samp 0 0 n) = n ->
  (forall x, In x (samp 0 0 n) -> List.length x = List.length vs /\ Forall (fun v => exists q, v = VR q) x /\ exists v, func x = Ok v) ->
  (forall i j x y, i <> j -> nth_error (samp 0 0 n) i = Some x -> nth_error (samp 0 0 n) j = Some y -> ~ near_duplicate vs x y) ->
  exists later, snd (fmin fuel lower upper (XInt n) y0 n_point max_FEs) = samp 0 0 n ++ later.
Proof. exact (first_design func samp inner fitk warm_fit fuel lower upper vs n y0 n_point max_FEs). Qed.

(** ** C261: the starting points are checked *)
Lemma row_ok_spec n x : row_ok n x = true <-> List.length x = n /\ Forall (fun v => exists q, v = VR q) x.
Proof.
  unfold row_ok. rewrite andb_true_iff, Nat.eqb_eq, forallb_forall, Forall_forall. split; intros (A & B); split; auto; intros v I; specialize (B v I).
  - destruct v; try discriminate. eauto.
  - destruct B as (q & ->). reflexivity.
Qed.
Theorem C261_points_checked fuel lower upper x0 y0 n_point max_FEs R calls :
  fmin fuel lower upper x0 y0 n_point max_FEs = (FReturned R, calls) ->
  forall x, In x (passed x0) -> List.length x = List.length (box lower upper) /\ Forall (fun v => exists q, v = VR q) x.
Proof.
  intros H x I. destruct (fmin_inv _ _ _ _ _ _ _ _ _ _ _ _ _ _ H) as (vs & Y & ks & s & EV & _ & _ & F & _).
  replace (List.length (box lower upper)) with (List.length vs).
  - apply row_ok_spec. rewrite Forall_forall in F. apply F. destruct x0; cbn in *; auto.
  - destruct (C193_bounds_partial lower upper) as [_ B]. destruct (B vs EV) as [B' _]. apply (f_equal (@List.length _)) in B'. now rewrite !map_length in B'.
Qed.
(** With y0 given nothing is evaluated before the check. *)
Theorem C261_points_refused fuel lower upper X y n_point max_FEs x : In x X ->
  List.length x <> List.length (box lower upper) \/ ~ Forall (fun v => exists q, v = VR q) x ->
  exists e, fmin fuel lower upper (XIter X) (Some y) n_point max_FEs = (FRaised e, []).
Proof.
  intros I B. unfold Model_Fmin.fmin. destruct (fmin_space lower upper) as [vs|e] eqn:EV; [|eauto].
  assert (L : List.length (box lower upper) = List.length vs). { destruct (C193_bounds_partial lower upper) as [_ C]. destruct (C vs EV) as [C' _]. apply (f_equal (@List.length _)) in C'. now rewrite !map_length in C'. }
  assert (N : forallb (row_ok (List.length vs)) X = false).
  { apply not_true_iff_false. intros F. rewrite forallb_forall in F. specialize (F x I). apply row_ok_spec in F as [F1 F2]. rewrite L in B. tauto. }
  rewrite N. unfold set_warm. cbn [iters init Nat.eqb negb]. destruct (negb (List.length X =? List.length y)); [eauto|]. destruct (to_geno _ X None); eauto.
Qed.
End Fmin.

(** ** Cases *)
(** One variable between 0 and 1, the square; samples 1/(k+2), 1/(k+3), ...; a surrogate that is always fitted. *)
Definition square (x : point) : res fval := match x with [VR q] => Ok (FNum (q * q)) | _ => Err EUser end.
Definition ex_samp (k count n : nat) : list point := map (fun i => [VR (1 # Pos.of_succ_nat (10 * k + count + i))]) (seq 1 n).
Definition ex_inner (k i : nat) : point := [VR (2 # Pos.of_succ_nat (10 * k + i + 2))].
Definition ex_fmin := fmin square ex_samp ex_inner (fun _ => (true, None)) (true, None).

Example C190_case : exists R calls, ex_fmin 10 (BFloat 0) (BFloat 1) (XIter [[VR (1 # 2)]; [VR (9 # 10)]]) None 1 (Some 3) = (FReturned R, calls) /\ List.length calls = 5 /\ r_evaluations R = 3.
Proof. do 2 eexists. split; [vm_compute; reflexivity|]. split; reflexivity. Qed.
(** The calls for x0 are not counted: five calls, three reported with max_FEs=3. *)
Theorem C191_count_refuted : exists func samp inner fitk wf x0 R calls,
  fmin func samp inner fitk wf 10 (BFloat 0) (BFloat 1) x0 None 1 (Some 3) = (FReturned R, calls) /\ List.length calls = 5 /\ r_evaluations R = 3.
Proof. exists square, ex_samp, ex_inner, (fun _ => (true, None)), (true, None), (XIter [[VR (1 # 2)]; [VR (9 # 10)]]). do 2 eexists. split; [vm_compute; reflexivity|]. split; reflexivity. Qed.
(** The default initial design does not respect the budget: five calls with max_FEs=2. *)
Theorem C191_budget_refuted : exists func samp inner fitk wf R calls,
  (forall k count j, List.length (samp k count j) <= j) /\
  fmin func samp inner fitk wf 10 (BFloat 0) (BFloat 1) XOther None 1 (Some 2) = (FReturned R, calls) /\ List.length calls = 5 /\ r_evaluations R = 5.
Proof.
  exists square, ex_samp, ex_inner, (fun _ => (true, None)), (true, None). do 2 eexists. split; [intros; unfold ex_samp; rewrite map_length, seq_length; auto|].
  split; [vm_compute; reflexivity|]. split; reflexivity.
Qed.
Example C192_case : (forall k count j x, In x (ex_samp k count j) -> in_box (box (BFloat 0) (BFloat 1)) x) /\ (forall k i, ex_inner k i <> [] -> in_box (box (BFloat 0) (BFloat 1)) (ex_inner k i)) /\
  exists x, In x (snd (ex_fmin 10 (BFloat 0) (BFloat 1) (XIter [[VR (5 # 1)]]) None 1 (Some 3))) /\ x = [VR (5 # 1)].
Proof.
  split; [|split].
  - intros k count j x H. apply in_map_iff in H as (i & <- & _). constructor; [|constructor]. eexists. split; [reflexivity|]. cbn. unfold Qle. cbn. lia.
  - intros k i _. constructor; [|constructor]. eexists. split; [reflexivity|]. cbn. unfold Qle. cbn. lia.
  - exists [VR (5 # 1)]. split; [|reflexivity]. vm_compute. left. reflexivity.
Qed.
Example C193_case : exists vs, fmin_space (BList [0; -(5 # 1)]%Q) (BList [1; 5 # 1]%Q) = Ok vs /\ map vname vs = ["real0"; "real1"]%string.
Proof. eexists. split; reflexivity. Qed.
Example C194_case : fst (ex_fmin 8 (BFloat 0) (BFloat 1) XOther None 1 None) = FRunning /\ exists R, fst (ex_fmin 9 (BFloat 0) (BFloat 1) XOther None 1 (Some 9)) = FReturned R.
Proof. split; [vm_compute; reflexivity|]. eexists. vm_compute. reflexivity. Qed.
Example C195_case : exists vs, fmin_space (BFloat 0) (BFloat 1) = Ok vs /\ List.length (ex_samp 0 0 3) = 3 /\
  (forall x, In x (ex_samp 0 0 3) -> List.length x = List.length vs /\ Forall (fun v => exists q, v = VR q) x /\ exists v, square x = Ok v) /\
  (forall i j x y, i <> j -> nth_error (ex_samp 0 0 3) i = Some x -> nth_error (ex_samp 0 0 3) j = Some y -> ~ near_duplicate vs x y).
Proof.
  eexists. split; [reflexivity|]. split; [reflexivity|]. split.
  - intros x [<-|[<-|[<-|[]]]]; (split; [reflexivity|split; [repeat constructor; eexists; reflexivity|eexists; reflexivity]]).
  - intros i j x y N Hi Hj D. apply near_iff in D. revert D. destruct i as [|[|[|i]]], j as [|[|[|j]]]; cbn in Hi, Hj; try congruence; try (destruct i; discriminate); try (destruct j; discriminate); injection Hi as <-; injection Hj as <-; vm_compute; discriminate.
Qed.
(** x0 = 0 is taken as the default of five points per variable: five calls although no initial sample was asked for and
    max_FEs is 1. *)
Theorem C195_zero_refuted : exists func samp inner fitk wf R calls,
  (forall k count j, List.length (samp k count j) <= j) /\
  fmin func samp inner fitk wf 9 (BFloat 0) (BFloat 1) (XInt 0) None 1 (Some 1) = (FReturned R, calls) /\ List.length calls = 5.
Proof.
  exists square, ex_samp, ex_inner, (fun _ => (true, None)), (true, None). do 2 eexists. split; [intros; unfold ex_samp; rewrite map_length, seq_length; auto|].
  split; [vm_compute; reflexivity|]. reflexivity.
Qed.
Print Assumptions C190_returned_best.
Print Assumptions C191_count_partial.
Print Assumptions C191_iterations_partial.
Print Assumptions C72_fmin_partial.
Print Assumptions C191_count_refuted.
Print Assumptions C191_budget_refuted.
Print Assumptions C192_inside.
Print Assumptions C193_bounds_partial.
Print Assumptions C193_mixed_refuted.
Print Assumptions C194_terminates_partial.
Print Assumptions C194_default_refuted.
Print Assumptions C195_initial_design_partial.
Print Assumptions C195_zero_refuted.
Print Assumptions C261_points_checked.
Print Assumptions C261_points_refused.
(** A point of floats is taken; an integer coordinate is refused. *)
Example C261_case : (exists R, fst (ex_fmin 10 (BFloat 0) (BFloat 1) (XIter [[VR (1 # 2)]]) (Some [FNum (1 # 4)]) 1 (Some 3)) = FReturned R) /\
  exists e, ex_fmin 10 (BFloat 0) (BFloat 1) (XIter [[VR (1 # 2)]; [VI 1]]) (Some [FNum (1 # 4); FNum 1]) 1 (Some 3) = (FRaised e, []).
Proof. split; [eexists; vm_compute; reflexivity|]. eexists. vm_compute. reflexivity. Qed.
