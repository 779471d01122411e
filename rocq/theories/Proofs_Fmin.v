(** Proofs about Model_Fmin: a run of fmin as a history of tell calls. *)
From Coq Require Import List Bool Arith ZArith QArith String Lia.
From Verif Require Import Model_Opt Spec_Opt Proofs_Opt Model_Var Model_Ask Spec_Ask Proofs_Ask Model_Conditional Model_Fmin.
Import ListNotations.
Open Scope nat_scope.

Section P.
  Variable func : point -> res fval.
  Variable samp : nat -> nat -> nat -> list point.
  Variable inner : nat -> nat -> point.
  Variable fitk : nat -> bool * option exn.
  Variable warm_fit : bool * option exn.

  Lemma eval_all_called X Y : eval_all func X = Ok Y -> called func X = X /\ Forall2 (fun x y => func x = Ok y) X Y.
  Proof.
    revert Y; induction X as [|x X IH]; intros Y H; cbn in *; [injection H as <-; auto|].
    destruct (func x) as [v|] eqn:E; [|discriminate]. destruct (eval_all func X) as [V|]; [|discriminate]. injection H as <-.
    destruct (IH V eq_refl) as (A & B). split; [now rewrite A|]. constructor; auto.
  Qed.

  Lemma check_stop_false (xv : Type) c (s s' : st xv) : ftarget c = None -> stop_max s = None -> stop_tgt s = None -> check_stop c s = Ok (false, s') -> s' = s.
  Proof.
    intros T A B H. unfold check_stop in H. rewrite T, A, B in H. destruct s as [d e i h m t f]. cbn in *. subst.
    destruct (max_fes c) as [b|]; [destruct (b <=? e)|]; injection H; auto; discriminate.
  Qed.
  Lemma check_stop_true (xv : Type) c (s s' : st xv) : ftarget c = None -> stop_max s = None -> stop_tgt s = None -> check_stop c s = Ok (true, s') -> exists m, max_fes c = Some m /\ m <= evals s.
  Proof.
    intros T A B H. unfold check_stop in H. rewrite T, A, B in H.
    destruct (max_fes c) as [b|]; [|discriminate]. destruct (Nat.leb_spec b (evals s)); [eauto|discriminate].
  Qed.

  Section Run.
    Variable vs : list var.
    Variable n_point doe : nat.
    Variable c : cfg.
    Hypothesis NT : ftarget c = None.
    Notation propose := (fmin_propose samp inner vs n_point doe).
    Notation run := (run propose (fmin_evaluate func) fitk c).
    Notation calls := (run_calls func samp inner fitk vs n_point doe c).

    Definition step_call (q : call point) : Prop :=
      (exists k s, propose k s = Ok (c_X q)) /\ eval_all func (c_X q) = Ok (c_f q) /\ c_idx q = None /\ c_warm q = false.

    Lemma run_exec : forall fuel k s s' r, stop_max s = None -> stop_tgt s = None -> run fuel k s = Returned s' r ->
      exists ks s1, exec c s ks = Some s1 /\ Forall step_call ks /\ calls fuel k s = flat_map c_X ks /\
        data s' = data s1 /\ evals s' = evals s1 /\ iters s' = iters s1 /\ xopt c s1 = Ok (Some r) /\
        (exists m, max_fes c = Some m /\ m <= evals s1) /\
        (forall B m, max_fes c = Some m -> (forall k s X, propose k s = Ok X -> List.length X <= B) -> evals s < m -> evals s1 < m + B).
    Proof.
      intros fuel k s s' r A B H.
      assert (BU : forall B m, max_fes c = Some m -> (forall k s X, propose k s = Ok X -> List.length X <= B) -> evals s < m -> evals s' < m + B).
      { intros B0 m Hm HB Hs. destruct (Nat.le_gt_cases m (evals s')); [|lia]. destruct (run_budget _ _ _ _ _ Hm _ _ _ _ _ Hs H ltac:(auto)) as (k1 & t & X & P & L & E). specialize (HB _ _ _ P). lia. }
      cut (exists ks s1, exec c s ks = Some s1 /\ Forall step_call ks /\ calls fuel k s = flat_map c_X ks /\
        data s' = data s1 /\ evals s' = evals s1 /\ iters s' = iters s1 /\ xopt c s1 = Ok (Some r) /\
        exists m, max_fes c = Some m /\ m <= evals s1).
      { intros (ks & s1 & Q1 & Q2 & Q3 & Q4 & Q5 & Q6 & Q7 & Q8). exists ks, s1. do 8 (split; [auto|]). intros B0 m. rewrite <- Q5. apply BU. }
      clear BU. revert k s s' r A B H. induction fuel as [|fuel IH]; intros k s s' r A B H; cbn [Model_Opt.run run_calls] in *.
      - destruct (check_stop c s) as [[[|] s1]|] eqn:E; try discriminate. destruct (xopt c s1) as [[r1|]|] eqn:EX; try discriminate. injection H as <- <-.
        destruct (check_stop_evals _ _ _ _ E) as (E1 & E2 & _ & E4 & _). exists [], s. cbn. do 3 (split; [auto|]). split; [auto|]. do 2 (split; [auto|]). split; [|exact (check_stop_true _ _ _ _ NT A B E)].
        unfold xopt in *. now rewrite <- E2.
      - destruct (check_stop c s) as [[[|] s1]|] eqn:E; try discriminate.
        + destruct (xopt c s1) as [[r1|]|] eqn:EX; try discriminate. injection H as <- <-.
          destruct (check_stop_evals _ _ _ _ E) as (E1 & E2 & _ & E4 & _). exists [], s. cbn. do 3 (split; [auto|]). split; [auto|]. do 2 (split; [auto|]). split; [|exact (check_stop_true _ _ _ _ NT A B E)].
          unfold xopt in *. now rewrite <- E2.
        + assert (s1 = s) by (eapply check_stop_false; eauto). subst s1. destruct (step _ _ _ c k s) as [[e|] s2] eqn:ES; [discriminate|].
          unfold step in ES. destruct (propose k s) as [X|] eqn:EP; [|discriminate]. destruct (fmin_evaluate func k X) as [fv|] eqn:EV; [|discriminate].
          destruct (tell_stop c s (mkCall X fv None false (fitk k))) as (T1 & T2). rewrite ES in T1, T2. cbn [snd] in T1, T2.
          destruct (IH (S k) s2 s' r ltac:(congruence) ltac:(congruence) H) as (ks & s3 & H1 & H2 & H3 & H4).
          exists (mkCall X fv None false (fitk k) :: ks), s3. split; [cbn [exec]; rewrite ES; exact H1|]. split.
          { constructor; auto. split; [exists k, s; exact EP|]. split; [exact EV|]. split; reflexivity. }
          split; [|exact H4]. cbn [flat_map c_X]. destruct (eval_all_called X fv EV) as (-> & _). now rewrite H3.
    Qed.
  End Run.

  (** The points and values given in advance, as a call of tell. *)
  Definition warm_calls (x0 : start) (Y : list fval) : list (call point) :=
    match x0 with XIter X => [mkCall X Y None true warm_fit] | _ => [] end.
  Definition given (x0 : start) : list point := match x0 with XIter X => X | _ => [] end.

  Lemma set_warm_tell c (X : list point) (Y : list fval) t s : emode c = EList -> set_warm c init (Some (X, Y)) t warm_fit = (None, s) ->
    tell c init (mkCall X Y None true warm_fit) = (None, s) /\ List.length X = List.length Y /\ t = true.
  Proof.
    intros M H. unfold set_warm in H. cbn [iters init Nat.eqb negb] in H. destruct (Nat.eqb_spec (List.length X) (List.length Y)); [|discriminate]. cbn [negb] in H.
    rewrite M in H. destruct (to_geno EList X None); [|discriminate]. destruct t; [|discriminate]. auto.
  Qed.

  (** A run of fmin that returns. *)
  Lemma fmin_inv fuel lower upper x0 y0 n m R calls : fmin func samp inner fitk warm_fit fuel lower upper x0 y0 n m = (FReturned R, calls) ->
    let c := mkCfg true (cfg_max_FEs m) None EList in
    exists vs Y ks s, fmin_space lower upper = Ok vs /\ n <> 0 /\
      List.length Y = List.length (given x0) /\ Forall (fun x => row_ok (List.length vs) x = true) (given x0) /\
      match x0, y0 with XIter _, Some y => Y = y | XIter X, None => eval_all func X = Ok Y | _, _ => Y = [] end /\
      exec c init (warm_calls x0 Y ++ ks) = Some s /\ Forall (step_call vs n (fmin_doe (List.length vs) x0)) ks /\
      calls = (match y0 with None => given x0 | Some _ => [] end) ++ flat_map c_X ks /\
      recommend c s = Ok (mkRow (r_x R) (r_f R) (match recommend c s with Ok r => rn r | _ => 0 end) (match recommend c s with Ok r => rl r | _ => ""%string end)) /\
      r_evaluations R = evals s /\ r_iterations R = iters s /\
      r_history R = data_per_iteration (fmin_doe (List.length vs) x0) n (iters s) (map rx (rows s)) /\
      (exists b, cfg_max_FEs m = Some b /\ b <= evals s) /\
      (forall B b, cfg_max_FEs m = Some b -> (forall k s X, fmin_propose samp inner vs n (fmin_doe (List.length vs) x0) k s = Ok X -> List.length X <= B) -> evals s < b + B).
  Proof.
    intros H c. unfold fmin in H. destruct (fmin_space lower upper) as [vs|] eqn:EV; [|discriminate]. fold c in H.
    assert (G : forall w calls0 Y, (match w with Some (X, y) => x0 = XIter X /\ y = Y | None => given x0 = [] /\ warm_calls x0 Y = [] /\ Y = [] end) ->
      match set_warm c init w (match w with Some (X, _) => forallb (row_ok (List.length vs)) X | None => true end) warm_fit with
      | (Some e, _) => (FRaised e, calls0)
      | (None, s) => if n =? 0 then (FRaised EAssert, calls0) else
          match run (fmin_propose samp inner vs n (fmin_doe (List.length vs) x0)) (fmin_evaluate func) fitk c fuel 0 s with
          | Raised e _ => (FRaised e, calls0 ++ run_calls func samp inner fitk vs n (fmin_doe (List.length vs) x0) c fuel 0 s)
          | OutOfFuel => (FRunning, calls0 ++ run_calls func samp inner fitk vs n (fmin_doe (List.length vs) x0) c fuel 0 s)
          | Returned s' r => (FReturned (Result (rx r) (rf r) (iters s') (evals s') (data_per_iteration (fmin_doe (List.length vs) x0) n (iters s') (rows_of s'))),
              calls0 ++ run_calls func samp inner fitk vs n (fmin_doe (List.length vs) x0) c fuel 0 s)
          end
      end = (FReturned R, calls) ->
      exists ks s, n <> 0 /\ List.length Y = List.length (given x0) /\ Forall (fun x => row_ok (List.length vs) x = true) (given x0) /\
        exec c init (warm_calls x0 Y ++ ks) = Some s /\ Forall (step_call vs n (fmin_doe (List.length vs) x0)) ks /\
        calls = calls0 ++ flat_map c_X ks /\
        recommend c s = Ok (mkRow (r_x R) (r_f R) (match recommend c s with Ok r => rn r | _ => 0 end) (match recommend c s with Ok r => rl r | _ => ""%string end)) /\
        r_evaluations R = evals s /\ r_iterations R = iters s /\
        r_history R = data_per_iteration (fmin_doe (List.length vs) x0) n (iters s) (map rx (rows s)) /\
        (exists b, cfg_max_FEs m = Some b /\ b <= evals s) /\
        (forall B b, cfg_max_FEs m = Some b -> (forall k s X, fmin_propose samp inner vs n (fmin_doe (List.length vs) x0) k s = Ok X -> List.length X <= B) -> evals s < b + B)).
    { intros w calls0 Y HW HH. destruct (set_warm c init w _ warm_fit) as [[e|] s0] eqn:ES; [discriminate|]. destruct (Nat.eqb_spec n 0); [discriminate|].
      destruct (run _ _ fitk c fuel 0 s0) as [s' r| |] eqn:ER; try discriminate.
      assert (W : exec c init (warm_calls x0 Y) = Some s0 /\ List.length Y = List.length (given x0) /\ Forall (fun x => row_ok (List.length vs) x = true) (given x0) /\ stop_max s0 = None /\ stop_tgt s0 = None /\ evals s0 = 0).
      { destruct w as [[X y]|].
        - destruct HW as (-> & ->). destruct (set_warm_tell c X Y _ s0 eq_refl ES) as (T & L & F). cbn [warm_calls exec given]. rewrite T. split; [reflexivity|]. split; [auto|]. split; [now apply Forall_forall, forallb_forall|].
          destruct (tell_stop c init (mkCall X Y None true warm_fit)) as (A & B). rewrite T in A, B. cbn in A, B. split; [auto|]. split; [auto|]. destruct (accounting_gen c init [mkCall X Y None true warm_fit] s0 ltac:(cbn [exec]; rewrite T; reflexivity)) as (EE & _). exact EE.
        - destruct HW as (-> & -> & ->). unfold set_warm in ES. cbn in ES. injection ES as <-. cbn. repeat split; auto. }
      destruct W as (W1 & W2 & W3 & W4 & W5 & W6). destruct (run_exec vs n _ c eq_refl fuel 0 s0 s' r W4 W5 ER) as (ks & s & H1 & H2 & H3 & H4 & H5 & H6 & H7 & H8 & H9).
      exists ks, s. split; [auto|]. split; [auto|]. split; [auto|]. split.
      { assert (EA : forall (a b : list (call point)) (t : st point), exec c t (a ++ b) = match exec c t a with Some u => exec c u b | None => None end).
        { clear. induction a as [|q a IH]; intros b t; [reflexivity|]. cbn [app exec]. destruct (tell c t q) as [[e|] u]; auto. }
        rewrite EA, W1. exact H1. }
      split; [exact H2|]. injection HH as <- <-. cbn [r_x r_f r_evaluations r_iterations r_history]. split; [now rewrite H3|]. split.
      { unfold recommend. rewrite H7. now destruct r. }
      split; [auto|]. split; [auto|]. split; [unfold rows_of, rows; rewrite H4, H6; now destruct (data s)|]. split; [exact H8|]. intros B b Hb HB. apply H9; auto. rewrite W6. destruct m as [[|m']|]; cbn in Hb; try discriminate. injection Hb as <-. lia. }
    destruct x0 as [k|X|].
    - destruct (G None [] [] ltac:(cbn; auto) H) as (ks & s & K). exists vs, [], ks, s. split; [reflexivity|]. cbn [given]. destruct K as (K1 & K2 & K3 & K4). split; [exact K1|]. split; [exact K2|]. split; [exact K3|]. split; [destruct y0; reflexivity|]. destruct y0; exact K4.
    - destruct y0 as [y|].
      + destruct (G (Some (X, y)) [] y (conj eq_refl eq_refl) H) as (ks & s & K). exists vs, y, ks, s. split; [reflexivity|]. destruct K as (K1 & K2 & K3 & K4). auto.
      + destruct (eval_all func X) as [Y|] eqn:EA; [|discriminate]. destruct (eval_all_called _ _ EA) as (EC & _). rewrite EC in H. destruct (G (Some (X, Y)) X Y (conj eq_refl eq_refl) H) as (ks & s & K). exists vs, Y, ks, s. split; [reflexivity|]. destruct K as (K1 & K2 & K3 & K4). auto.
    - destruct (G None [] [] ltac:(cbn; auto) H) as (ks & s & K). exists vs, [], ks, s. split; [reflexivity|]. cbn [given]. destruct K as (K1 & K2 & K3 & K4). split; [exact K1|]. split; [exact K2|]. split; [exact K3|]. split; [destruct y0; reflexivity|]. destruct y0; exact K4.
  Qed.

  (** All proposals of a run have at most max(n_point, DoE_size) points. *)
  Lemma propose_length vs n doe : (forall k count j, List.length (samp k count j) <= j) -> n <> 0 -> doe <> 0 ->
    forall k s X, fmin_propose samp inner vs n doe k s = Ok X -> List.length X <= Nat.max n doe.
  Proof.
    intros HS Hn Hd k s X H. unfold fmin_propose in H. assert (L := ask_count vs (samp k) (inner k) (negb (n =? 1)) (fitted s) (rows_of s) n doe None None X (HS k)). cbn zeta in L. specialize (L ltac:(destruct (fitted s); lia) H). destruct (fitted s); lia.
  Qed.
  Lemma called_in X x : In x (called func X) -> In x X.
  Proof. induction X as [|y X IH]; cbn; [auto|]. intros [->|H]; [auto|]. destruct (func y); [auto|destruct H]. Qed.
  Lemma run_calls_in vs n doe c : forall fuel k s x, In x (run_calls func samp inner fitk vs n doe c fuel k s) ->
    exists k1 s1 X, fmin_propose samp inner vs n doe k1 s1 = Ok X /\ In x X.
  Proof.
    induction fuel as [|fuel IH]; intros k s x H; cbn [run_calls] in H; destruct (check_stop c s) as [[[|] s']|]; try destruct H.
    destruct (fmin_propose samp inner vs n doe k s') as [X|] eqn:E; [|destruct H]. apply in_app_or in H as [H|H].
    - exists k, s', X. split; auto. now apply called_in.
    - destruct (step _ _ _ c k s') as [[e|] s2]; [destruct H|eauto].
  Qed.

  (** Observations of calls whose values are those of the function. *)
  Lemma observed_func (ks : list (call point)) : Forall (fun q => Forall2 (fun x v => func x = Ok v) (c_X q) (c_f q)) ks ->
    (forall x q, In (x, q) (observed ks) <-> In x (flat_map c_X ks) /\ func x = Ok (FNum q)).
  Proof.
    assert (F : forall X Y, Forall2 (fun x v => func x = Ok v) X Y -> forall x q, In (x, q) (finite_obs (combine X Y)) <-> In x X /\ func x = Ok (FNum q)).
    { induction 1 as [|a v X Y E H IH]; intros x q; cbn; [tauto|].
      destruct v as [p| |b]; cbn [In]; rewrite ?IH.
      - split; [intros [[= <- <-]|[A B]]; auto|]. intros [[<-|A] B]; [left; congruence|auto].
      - split; [tauto|]. intros [[<-|A] B]; [congruence|auto].
      - split; [tauto|]. intros [[<-|A] B]; [congruence|auto]. }
    intros H x q. unfold observed. induction H as [|k ks Hk H IH]; [cbn; tauto|]. cbn [flat_map]. rewrite finite_obs_app, !in_app_iff, IH. unfold told1. rewrite (F _ _ Hk). tauto.
  Qed.

  Lemma observed_points (ks : list (call point)) : Forall (fun q => Forall2 (fun x v => func x = Ok v) (c_X q) (c_f q)) ks ->
    map fst (observed ks) = filter (fun x => match func x with Ok (FNum _) => true | _ => false end) (flat_map c_X ks).
  Proof.
    assert (F : forall X Y, Forall2 (fun x v => func x = Ok v) X Y -> map fst (finite_obs (combine X Y)) = filter (fun x => match func x with Ok (FNum _) => true | _ => false end) X).
    { induction 1 as [|a v X Y E H IH]; [reflexivity|]. cbn. rewrite E. destruct v as [p| |b]; cbn; rewrite IH; reflexivity. }
    intros H. unfold observed. induction H as [|k ks Hk H IH]; [reflexivity|]. cbn [flat_map]. rewrite finite_obs_app, map_app, filter_app, IH. unfold told1. rewrite (F _ _ Hk). reflexivity.
  Qed.

  (** The first design of a run. *)
  Lemma fill_none vs x : List.length x = List.length vs -> fill vs [] x = Some x.
  Proof. revert x; induction vs as [|v vs IH]; intros [|a x] L; try discriminate; [reflexivity|]. cbn in *. rewrite IH; auto. Qed.
  Lemma sequence_all {A B} (f : A -> option B) (g : A -> B) l : (forall x, In x l -> f x = Some (g x)) -> sequence (map f l) = Some (map g l).
  Proof. induction l as [|x l IH]; intro H; [reflexivity|]. cbn. rewrite (H x) by (now left). rewrite IH by (intros; apply H; now right). reflexivity. Qed.
  Lemma check_all vs X : (forall i j x y, i <> j -> nth_error X i = Some x -> nth_error X j = Some y -> ~ near_duplicate vs x y) -> pre_eval_check vs [] X = X.
  Proof.
    intro H. unfold pre_eval_check. rewrite app_nil_r.
    assert (F : forall P l, (forall p : nat * point, In p l -> P p = true) -> filter P l = l).
    { clear. intros P l. induction l as [|a l IH]; intro H; [reflexivity|]. cbn. rewrite (H a) by (now left). f_equal. apply IH. intros; apply H; now right. }
    rewrite F.
    - generalize 0. clear. induction X as [|x X IH]; intro i; [reflexivity|]. cbn. f_equal. apply IH.
    - intros [i x] Hp. apply combine_seq_in in Hp as (_ & Hi). rewrite Nat.sub_0_r in Hi. cbn [fst snd]. apply negb_true_iff. destruct (existsb _ _) eqn:E; auto.
      apply existsb_exists in E as (y & Hy & N). apply others_nth in Hy as (j & Hj & Nj). apply near_iff in N. exfalso. exact (H j i y x Nj Hj Hi N).
  Qed.
  Lemma real_round_id vs x : List.length x = List.length vs -> (forall v, In v vs -> exists l u, vkind v = KReal l u None) -> Forall (fun v => exists q, v = VR q) x -> round_point vs x = x.
  Proof.
    revert x; induction vs as [|v vs IH]; intros [|a x] L HV HX; try discriminate; [reflexivity|]. cbn [round_point]. inversion HX as [|? ? [q ->] HX']; subst. destruct (HV v ltac:(now left)) as (l & u & ->). cbn [round_val as_num real_round]. f_equal. apply IH; auto. intros; apply HV; now right.
  Qed.
  Lemma called_all X : (forall x, In x X -> exists v, func x = Ok v) -> called func X = X.
  Proof. induction X as [|x X IH]; intro H; [reflexivity|]. cbn. destruct (H x ltac:(now left)) as (v & ->). f_equal. apply IH. intros; apply H; now right. Qed.
  Lemma real_space_kinds bs vs : real_space bs = Ok vs -> List.length vs = List.length bs /\ forall v, In v vs -> exists l u, vkind v = KReal l u None.
  Proof.
    unfold real_space. destruct (forallb proper_bounds bs); [|discriminate]. intro E. assert (EV : vs = map (fun p => mkVar (if List.length bs =? 1 then "real"%string else ("real" ++ str_nat (fst p))%string) (KReal (fst (snd p)) (snd (snd p)) None)) (combine (seq 0 (List.length bs)) bs)) by congruence. subst vs. split.
    - rewrite map_length, combine_length, seq_length. apply Nat.min_id.
    - intros v Hv. apply in_map_iff in Hv as (p & <- & _). cbn. eauto.
  Qed.
  Lemma fmin_space_kinds lower upper vs : fmin_space lower upper = Ok vs -> forall v, In v vs -> exists l u, vkind v = KReal l u None.
  Proof.
    unfold fmin_space. destruct lower, upper; try discriminate; [apply real_space_kinds|]. destruct (_ =? _); [|discriminate]. destruct (combine l l0); [discriminate|]. apply real_space_kinds.
  Qed.
  Lemma first_design fuel lower upper vs n y0 n_point max_FEs : fmin_space lower upper = Ok vs -> 0 < n -> 0 < n_point -> 0 < fuel ->
    List.length (samp 0 0 n) = n ->
    (forall x, In x (samp 0 0 n) -> List.length x = List.length vs /\ Forall (fun v => exists q, v = VR q) x /\ exists v, func x = Ok v) ->
    (forall i j x y, i <> j -> nth_error (samp 0 0 n) i = Some x -> nth_error (samp 0 0 n) j = Some y -> ~ near_duplicate vs x y) ->
    exists later, snd (fmin func samp inner fitk warm_fit fuel lower upper (XInt n) y0 n_point max_FEs) = samp 0 0 n ++ later.
  Proof.
    intros EV Hn Hp Hf LS HX ND. unfold fmin. rewrite EV. set (c := mkCfg true (cfg_max_FEs max_FEs) None EList).
    unfold set_warm. cbn [iters init Nat.eqb negb]. destruct (Nat.eqb_spec n_point 0) as [E|_]; [lia|]. cbn [app].
    assert (G : exists later, run_calls func samp inner fitk vs n_point (fmin_doe (List.length vs) (XInt n)) c fuel 0 init = samp 0 0 n ++ later).
    { destruct fuel as [|fuel]; [lia|]. cbn [run_calls]. assert (CS : check_stop c (@init point) = Ok (false, init)) by (unfold check_stop, c; destruct max_FEs as [[|b]|]; reflexivity). rewrite CS.
      assert (PR : fmin_propose samp inner vs n_point (fmin_doe (List.length vs) (XInt n)) 0 init = Ok (samp 0 0 n)).
      { unfold fmin_propose, ask, create_doe. cbn [fitted init rows_of data]. replace (fmin_doe (List.length vs) (XInt n)) with n by (destruct n; [lia|reflexivity]).
        destruct n as [|n']; [lia|]. remember (S n') as n eqn:En. unfold doe_loop. rewrite En. rewrite <- En. cbn [fillin].
        rewrite (sequence_all (fill vs []) (fun x => x)) by (intros x Hx; apply fill_none, HX, Hx). rewrite map_id.
        assert (RI : map (round_point vs) (samp 0 0 n) = samp 0 0 n).
        { rewrite <- (map_id (samp 0 0 n)) at 2. apply map_ext_in. intros x Hx. destruct (HX x Hx) as (A & B & _). apply real_round_id; auto. exact (fmin_space_kinds _ _ _ EV). }
        rewrite RI, (check_all _ _ ND), LS, Nat.sub_diag. cbn [app]. destruct (samp 0 0 n) as [|x X]; [cbn in LS; lia|reflexivity]. }
      rewrite PR. rewrite (called_all (samp 0 0 n)) by (intros x Hx; apply HX, Hx). eauto. }
    destruct G as (later & G). exists later. destruct (run _ _ fitk c fuel 0 init); cbn [snd]; exact G.
  Qed.
End P.
