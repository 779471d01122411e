(** Proofs about Model_MoRun. *)
From Coq Require Import List Bool Arith ZArith QArith Qabs String Lia.
From Verif Require Import Model_Opt Model_Var Model_Ask Spec_Ask Proofs_Ask Spec_Pareto Spec_MIES Model_MiesPar Spec_MiesPar.
From Verif Require Import Properties_Box Model_Propose Spec_Propose Proofs_Propose Properties_Propose Model_Run Spec_Run Proofs_Run Model_MoRun Spec_MoRun.
From Verif Require Model_MOBO Proofs_MOBO.
Import ListNotations.
Open Scope nat_scope.

Lemma made_app j a b : made j (a ++ b) = made j a ++ made j b.
Proof. unfold made. now rewrite filter_app, map_app. Qed.
Lemma observations_app n a b oa ob : observations n a oa -> observations n b ob -> observations n (a ++ b) (oa ++ ob).
Proof.
  intros (A1 & A2 & A3) (B1 & B2 & B3). split; [|split].
  - intros j x r I. apply in_app_or in I. destruct I; eauto.
  - intros x q I. apply in_app_or in I. destruct I; eauto.
  - intros j Hj. now rewrite made_app, map_app, A3, B3.
Qed.
Lemma observations_nil n : observations n [] [].
Proof. split; [intros j x r []|]. split; [intros x q []|]. reflexivity. Qed.

(** The rows of zip( * columns ). *)
Lemma zip_length m cs : List.length (Model_MOBO.zip_star m cs) = m.
Proof. revert cs. induction m as [|m IH]; intro cs; cbn; auto. Qed.
Lemma zip_row m : forall cs f, In f (Model_MOBO.zip_star m cs) -> List.length f = List.length cs.
Proof. induction m as [|m IH]; intros cs f I; cbn in I; [destruct I|]. destruct I as [<-|I]; [apply map_length|]. rewrite (IH _ _ I). apply map_length. Qed.
Lemma zip_col m : forall cs j c, Forall (fun c => List.length c = m) cs -> nth_error cs j = Some c ->
  map (fun f => nth j f Model_MOBO.NaN) (Model_MOBO.zip_star m cs) = c.
Proof.
  induction m as [|m IH]; intros cs j c F E; cbn [Model_MOBO.zip_star map].
  - rewrite Forall_forall in F. specialize (F c (nth_error_In _ _ E)). now destruct c.
  - rewrite (IH (map (@tl mval) cs) j (tl c)).
    + rewrite Forall_forall in F. specialize (F c (nth_error_In _ _ E)). destruct c as [|v c]; [discriminate|]. f_equal. 
      rewrite (nth_indep _ _ (nth 0 (@nil mval) Model_MOBO.NaN)) by (rewrite map_length; apply nth_error_Some; congruence).
      rewrite (map_nth (fun c => nth 0 c Model_MOBO.NaN)). rewrite (nth_error_nth cs j _ E). reflexivity.
    + rewrite Forall_forall in *. intros d I. apply in_map_iff in I. destruct I as (e & <- & I). specialize (F e I). destruct e; cbn in *; lia.
    + now rewrite nth_error_map, E.
Qed.
Lemma shortest_all m cs : cs <> [] -> Forall (fun c => List.length c = m) cs -> Model_MOBO.shortest cs = m.
Proof.
  intros NE F. destruct cs as [|c cs]; [congruence|]. cbn. inversion F as [|? ? L F']; subst. clear NE F. induction cs as [|d cs IH]; cbn; [reflexivity|].
  inversion F' as [|? ? L F'']; subst. rewrite L, Nat.min_id. apply IH, F''.
Qed.

Section L.
  Variable P : problem.
  Variable minimize : list bool.
  Variable cast : Q -> Q.
  Variable W : world.
  Variable func : nat -> nat -> nat -> point -> res mval.
  Notation n := (n_obj minimize).
  Notation propose := (mo_propose P W).
  Notation step := (mo_step P minimize W func).
  Notation loop := (mo_loop P minimize cast W func).
  Notation log := (mo_log P minimize cast W func).
  Notation calls k X := (mo_calls func k 0 n X).

  Lemma column_ok : forall X k j i c, mo_column (mo_calls1 func k j i X) = Ok c ->
    List.length c = List.length X /\ mo_calls1 func k j i X = map (fun xv => (j, fst xv, Ok (snd xv))) (combine X c).
  Proof.
    induction X as [|x X IH]; intros k j i c H; cbn [mo_calls1 mo_column] in *; [injection H as <-; auto|].
    destruct (func k j i x) as [v|e]; [|discriminate]. destruct (mo_column (mo_calls1 func k j (S i) X)) as [vs|] eqn:E; [|discriminate]. injection H as <-.
    destruct (IH _ _ _ _ E) as (A & B). cbn. rewrite A, B. auto.
  Qed.
  Lemma made_same j X (c : list mval) : List.length c = List.length X -> made j (map (fun xv => (j, fst xv, Ok (snd xv))) (combine X c)) = combine X (map Ok c).
  Proof.
    revert c. induction X as [|x X IH]; intros [|v c] L; try discriminate; [reflexivity|]. unfold made in *. cbn in *. rewrite Nat.eqb_refl. cbn. rewrite IH by lia. reflexivity.
  Qed.
  Lemma made_none j l : (forall i x r, In (i, x, r) l -> i <> j) -> made j l = [].
  Proof.
    intro H. unfold made. induction l as [|[[i x] r] l IH]; cbn; [reflexivity|]. destruct (Nat.eqb_spec i j) as [E|_]; [exfalso; exact (H i x r (or_introl eq_refl) E)|].
    apply IH. intros i' x' r' I. apply (H i' x' r'). right; exact I.
  Qed.
  Lemma calls1_obj : forall X k j i j' x r, In (j', x, r) (mo_calls1 func k j i X) -> j' = j /\ In x X.
  Proof.
    induction X as [|y X IH]; intros k j i j' x r I; cbn in I; [destruct I|]. destruct I as [I|I]; [split; [congruence|left; congruence]|].
    destruct (func k j i y); [|destruct I]. apply IH in I. destruct I. split; [assumption|right; assumption].
  Qed.
  Lemma calls_obj : forall m k j X j' x r, In (j', x, r) (mo_calls func k j m X) -> (j <= j' < j + m) /\ In x X.
  Proof.
    induction m as [|m IH]; intros k j X j' x r I; cbn in I; [destruct I|]. apply in_app_or in I. destruct I as [I|I].
    - apply calls1_obj in I. destruct I as (-> & I). split; [lia|exact I].
    - destruct (mo_column _); [|destruct I]. apply IH in I. destruct I. split; [lia|assumption].
  Qed.
  Lemma columns_ok : forall m k j X cs, mo_columns func k j m X = Ok cs ->
    List.length cs = m /\ Forall (fun c => List.length c = List.length X) cs /\ List.length (mo_calls func k j m X) = m * List.length X /\
    forall i c, nth_error cs i = Some c -> made (j + i) (mo_calls func k j m X) = combine X (map Ok c).
  Proof.
    induction m as [|m IH]; intros k j X cs H; cbn [mo_columns mo_calls] in *.
    - injection H as <-. split; [reflexivity|]. split; [constructor|]. split; [reflexivity|]. intros [|i] c E; discriminate.
    - destruct (mo_column (mo_calls1 func k j 0 X)) as [c0|] eqn:E0; [|discriminate]. destruct (mo_columns func k (S j) m X) as [cs'|] eqn:E1; [|discriminate].
      injection H as <-. destruct (column_ok _ _ _ _ _ E0) as (L0 & C0). destruct (IH _ _ _ _ E1) as (A & B & C & D). rewrite C0.
      split; [cbn; lia|]. split; [constructor; assumption|]. split; [rewrite app_length, map_length, combine_length, C, L0; cbn; lia|].
      intros [|i] c E; cbn [nth_error] in E; rewrite made_app.
      + injection E as <-. rewrite Nat.add_0_r, made_same by exact L0. rewrite (made_none j (mo_calls func k (S j) m X)), app_nil_r; [reflexivity|].
        intros i x r I. apply calls_obj in I. lia.
      + rewrite made_none; [cbn [app]; replace (j + S i) with (S j + i) by lia; apply D, E|].
        intros i' x r I. apply in_map_iff in I. destruct I as (xv & E' & _). assert (i' = j) by congruence. lia.
  Qed.

  Lemma fin_rows (F : list (list mval)) : forallb (forallb Model_MOBO.is_fin) F = true -> map (map (fun v => Model_MOBO.Fin (fin_of v))) F = F.
  Proof.
    intro H. rewrite forallb_forall in H. erewrite map_ext_in; [apply map_id|]. intros f I. specialize (H f I). rewrite forallb_forall in H.
    erewrite map_ext_in; [apply map_id|]. intros v J. specialize (H v J). destruct v; try discriminate. reflexivity.
  Qed.
  (** A step that does not raise. *)
  Lemma mo_step_ok k s s2 X : 1 <= n -> propose k s = Ok X -> step k s = (None, s2) ->
    exists obs, observations n (calls k X) obs /\ map fst obs = X /\
      map (fun r => (Model_MOBO.r_x r, Model_MOBO.r_fit r)) (Model_MOBO.data s2) = map (fun r => (Model_MOBO.r_x r, Model_MOBO.r_fit r)) (Model_MOBO.data s) ++ map (fun o => (fst o, map Model_MOBO.Fin (snd o))) obs /\
      Model_MOBO.eval_count s2 = Model_MOBO.eval_count s + List.length (calls k X) /\ Model_MOBO.iter_count s2 = S (Model_MOBO.iter_count s).
  Proof.
    intros Hn EP ES. unfold mo_step in ES. rewrite EP in ES. unfold mo_evaluate in ES. destruct (mo_columns func k 0 n X) as [cs|] eqn:EC; [|discriminate].
    destruct (columns_ok _ _ _ _ _ EC) as (LC & FC & LL & MD).
    rewrite (shortest_all (List.length X) cs) in ES; [|intros ->; cbn in LC; lia|exact FC].
    set (F := Model_MOBO.zip_star (List.length X) cs) in *. unfold Model_MOBO.tell in ES.
    assert (LF : List.length F = List.length X) by apply zip_length. assert (RF : forall f, In f F -> List.length f = n) by (intros f I; rewrite <- LC; eapply zip_row; exact I).
    rewrite Proofs_MOBO.tell_rows_ok in ES by assumption.
    set (rows := map (fun xf => Model_MOBO.Row (fst xf) (snd xf)) (combine X F)) in *.
    destruct (existsb _ rows) eqn:EX; [discriminate|]. destruct (fits W k); [|discriminate]. injection ES as <-.
    assert (FF : forallb (forallb Model_MOBO.is_fin) F = true).
    { apply forallb_forall. intros f I. destruct (forallb Model_MOBO.is_fin f) eqn:E; [reflexivity|]. exfalso.
      destruct (In_nth_error _ _ I) as (i & Hi). assert (Li : i < List.length X) by (rewrite <- LF; apply nth_error_Some; congruence).
      destruct (nth_error X i) as [x|] eqn:Hx; [|apply nth_error_None in Hx; lia].
      assert (J : In (Model_MOBO.Row x f) rows).
      { subst rows. apply in_map_iff. exists (x, f). split; [reflexivity|]. apply nth_error_In with i. clearbody F. clear -Hx Hi. revert X F Hx Hi.
        induction i as [|i IH]; intros [|a X] [|b F] Hx Hi; try discriminate; cbn in *; [congruence|auto]. }
      assert (T : existsb (fun r : mrow => existsb (fun v => negb (Model_MOBO.is_fin v)) (Model_MOBO.r_fit r)) rows = true).
      { apply existsb_exists. exists (Model_MOBO.Row x f). split; [exact J|]. cbn. clear -E. induction f as [|v f IH]; cbn in *; [discriminate|]. destruct (Model_MOBO.is_fin v); cbn in *; auto. }
      congruence. }
    exists (combine X (map (map fin_of) F)). split; [|split; [|split; [|split]]].
    - split; [intros j x r I; apply calls_obj in I; lia|]. split.
      + intros x q I. apply in_combine_r in I. apply in_map_iff in I. destruct I as (f & <- & I). rewrite map_length. auto.
      + intros j Hj. destruct (nth_error cs j) as [c|] eqn:Ec; [|apply nth_error_None in Ec; lia]. pose proof (MD j c Ec) as M. cbn [Nat.add] in M. rewrite M.
        pose proof (zip_col _ cs j c FC Ec) as ZC. fold F in ZC. rewrite <- ZC. clearbody F. clear - LF FF RF Hj.
        revert X LF FF RF. induction F as [|f F IH]; intros [|x X] LF FF RF; try discriminate; [reflexivity|]. cbn in FF. apply andb_true_iff in FF. destruct FF as (F1 & F2). cbn [map combine fst snd].
        f_equal; [|apply IH; [cbn in LF; lia|exact F2|intros g I; apply RF; right; exact I]]. f_equal. f_equal.
        specialize (RF f (or_introl eq_refl)). rewrite forallb_forall in F1.
        assert (I : In (nth j f Model_MOBO.NaN) f) by (apply nth_In; lia). specialize (F1 _ I).
        change 0%Q with (fin_of Model_MOBO.NaN). rewrite map_nth. destruct (nth j f Model_MOBO.NaN); [reflexivity|discriminate|discriminate].
    - assert (LF' : List.length (map (map fin_of) F) = List.length X) by (rewrite map_length; exact LF). revert LF'. generalize (map (map fin_of) F). clear. intro G. revert G.
      induction X as [|x X IH]; intros [|g G] L; try discriminate; [reflexivity|]. cbn in *. rewrite IH by lia. reflexivity.
    - cbn [Model_MOBO.data]. rewrite map_app. f_equal. unfold rows. rewrite map_map. cbn [Model_MOBO.r_x Model_MOBO.r_fit].
      rewrite <- (fin_rows F FF) at 1. clearbody F. clear - LF. revert X LF. induction F as [|f F IH]; intros [|x X] LF; try discriminate; [reflexivity|].
      cbn in *. rewrite IH by lia. rewrite map_map. reflexivity.
    - cbn [Model_MOBO.eval_count]. rewrite LL. reflexivity.
    - reflexivity.
  Qed.

  (** What is known when the i-th batch is proposed. *)
  Lemma mo_log_nth : forall target fuel k s i B, 1 <= n -> nth_error (log target fuel k s) i = Some B ->
    exists si X obs, propose (k + i) si = Ok X /\ B = calls (k + i) X /\
      observations n (List.concat (firstn i (log target fuel k s))) obs /\
      map (fun r => (Model_MOBO.r_x r, Model_MOBO.r_fit r)) (Model_MOBO.data si) = map (fun r => (Model_MOBO.r_x r, Model_MOBO.r_fit r)) (Model_MOBO.data s) ++ map (fun o => (fst o, map Model_MOBO.Fin (snd o))) obs /\
      Model_MOBO.eval_count si = Model_MOBO.eval_count s + List.length (List.concat (firstn i (log target fuel k s))) /\
      (forall m, p_max_FEs P = Some m -> Model_MOBO.eval_count si < m).
  Proof.
    induction fuel as [|fuel IH]; intros k s i B Hn H; cbn [mo_log] in H |- *.
    { destruct (mo_check_stop _ _ _ _ _) as [[|]|]; destruct i; discriminate. }
    destruct (mo_check_stop P minimize cast target s) as [[|]|] eqn:EC; try (destruct i; discriminate).
    destruct (propose k s) as [X|] eqn:EP; [|destruct i; discriminate].
    assert (LT : forall m, p_max_FEs P = Some m -> Model_MOBO.eval_count s < m).
    { intros m Hm. unfold mo_check_stop in EC. rewrite Hm in EC. destruct (Nat.leb_spec m (Model_MOBO.eval_count s)); [|assumption].
      repeat match type of EC with context [match ?x with _ => _ end] => destruct x; try discriminate end. }
    destruct i as [|i].
    - cbn in H. injection H as <-. exists s, X, []. rewrite Nat.add_0_r. split; [exact EP|]. split; [reflexivity|]. cbn [firstn List.concat map].
      split; [apply observations_nil|]. rewrite app_nil_r. split; [reflexivity|]. split; [cbn; lia|exact LT].
    - cbn [nth_error firstn] in H |- *. destruct (step k s) as [[e|] s2] eqn:ES; [destruct i; discriminate|].
      destruct (mo_step_ok _ _ _ _ Hn EP ES) as (o1 & O1 & _ & D1 & E1 & _).
      destruct (IH (S k) s2 i B Hn H) as (si & X' & obs & A1 & A2 & A3 & A4 & A5 & A6). exists si, X', (o1 ++ obs). replace (k + S i) with (S k + i) by lia.
      split; [exact A1|]. split; [exact A2|]. cbn [List.concat]. rewrite app_length. split; [apply observations_app; assumption|]. split; [|split; [lia|exact A6]].
      rewrite A4, D1, map_app. now rewrite app_assoc.
  Qed.

  Lemma tell_raised_data f (s : mst) w X F s' : Model_MOBO.tell n f s w X F = Model_MOBO.Raised s' ->
    exists new, Model_MOBO.data s' = Model_MOBO.data s ++ new /\ (new <> [] -> f = false /\ forall r v, In r new -> In v (Model_MOBO.r_fit r) -> exists q, v = Model_MOBO.Fin q).
  Proof.
    intro H. unfold Model_MOBO.tell in H. destruct (Model_MOBO.tell_rows n w X F (Model_MOBO.eval_count s)) as (c & [rows|]); [|injection H as <-; exists []; rewrite app_nil_r; split; [reflexivity|congruence]].
    destruct (existsb _ rows) eqn:EX; [injection H as <-; exists []; rewrite app_nil_r; split; [reflexivity|congruence]|].
    destruct f; [destruct w; discriminate|]. injection H as <-. exists rows. split; [reflexivity|]. intros _. split; [reflexivity|]. intros r v I J.
    destruct (Model_MOBO.is_fin v) eqn:E; [destruct v; try discriminate; eauto|]. exfalso.
    assert (T : existsb (fun r : mrow => existsb (fun v => negb (Model_MOBO.is_fin v)) (Model_MOBO.r_fit r)) rows = true).
    { apply existsb_exists. exists r. split; [exact I|]. apply existsb_exists. exists v. split; [exact J|]. now rewrite E. }
    congruence.
  Qed.

  Lemma mo_end : forall target fuel k s, 1 <= n -> match loop target fuel k s with
    | MReturned s' front => mo_xopt minimize cast s' = Some front /\ mo_check_stop P minimize cast target s' = Ok true /\
        exists obs, observations n (List.concat (log target fuel k s)) obs /\
          map (fun r => (Model_MOBO.r_x r, Model_MOBO.r_fit r)) (Model_MOBO.data s') = map (fun r => (Model_MOBO.r_x r, Model_MOBO.r_fit r)) (Model_MOBO.data s) ++ map (fun o => (fst o, map Model_MOBO.Fin (snd o))) obs /\
          Model_MOBO.eval_count s' = Model_MOBO.eval_count s + List.length (List.concat (log target fuel k s))
    | MRaised e s' => exists done last obs new, log target fuel k s = done ++ last /\ List.length last <= 1 /\ observations n (List.concat done) obs /\
          map (fun r => (Model_MOBO.r_x r, Model_MOBO.r_fit r)) (Model_MOBO.data s') = map (fun r => (Model_MOBO.r_x r, Model_MOBO.r_fit r)) (Model_MOBO.data s) ++ map (fun o => (fst o, map Model_MOBO.Fin (snd o))) obs ++ new /\
          (new <> [] -> exists k', fits W k' = false)
    | MOutOfFuel => exists obs, observations n (List.concat (log target fuel k s)) obs
    end.
  Proof.
    assert (Z : forall s : mst, exists done last obs new, @nil (list mcall) = done ++ last /\ List.length last <= 1 /\ observations n (List.concat done) obs /\
          map (fun r => (Model_MOBO.r_x r, Model_MOBO.r_fit r)) (Model_MOBO.data s) = map (fun r => (Model_MOBO.r_x r, Model_MOBO.r_fit r)) (Model_MOBO.data s) ++ map (fun o => (fst o, map Model_MOBO.Fin (snd o))) obs ++ new /\
          (new <> [] -> exists k', fits W k' = false)).
    { intro s. exists [], [], [], []. split; [reflexivity|]. split; [cbn; lia|]. split; [apply observations_nil|]. cbn. rewrite app_nil_r. split; [reflexivity|congruence]. }
    assert (T : forall target s, mo_check_stop P minimize cast target s = Ok true -> match match mo_xopt minimize cast s with Some front => MReturned s front | None => MRaised EAttribute s end with
      | MReturned s' front => mo_xopt minimize cast s' = Some front /\ mo_check_stop P minimize cast target s' = Ok true /\
        exists obs, observations n (List.concat []) obs /\
          map (fun r => (Model_MOBO.r_x r, Model_MOBO.r_fit r)) (Model_MOBO.data s') = map (fun r => (Model_MOBO.r_x r, Model_MOBO.r_fit r)) (Model_MOBO.data s) ++ map (fun o => (fst o, map Model_MOBO.Fin (snd o))) obs /\
          Model_MOBO.eval_count s' = Model_MOBO.eval_count s + List.length (List.concat (@nil (list mcall)))
      | MRaised e s' => exists done last obs new, @nil (list mcall) = done ++ last /\ List.length last <= 1 /\ observations n (List.concat done) obs /\
          map (fun r => (Model_MOBO.r_x r, Model_MOBO.r_fit r)) (Model_MOBO.data s') = map (fun r => (Model_MOBO.r_x r, Model_MOBO.r_fit r)) (Model_MOBO.data s) ++ map (fun o => (fst o, map Model_MOBO.Fin (snd o))) obs ++ new /\
          (new <> [] -> exists k', fits W k' = false)
      | MOutOfFuel => exists obs, observations n (List.concat (@nil (list mcall))) obs end).
    { intros target s E. destruct (mo_xopt minimize cast s) as [front|] eqn:EX; [|apply Z]. split; [exact EX|]. split; [exact E|]. exists []. cbn. rewrite app_nil_r, Nat.add_0_r. split; [apply observations_nil|]. auto. }
    induction fuel as [|fuel IH]; intros k s Hn; cbn [mo_loop mo_log].
    - destruct (mo_check_stop P minimize cast target s) as [[|]|] eqn:E; [apply T, E| |apply Z]. exists []. apply observations_nil.
    - destruct (mo_check_stop P minimize cast target s) as [[|]|] eqn:E; [apply T, E| |apply Z].
      destruct (propose k s) as [X|e] eqn:EP.
      2:{ unfold mo_step. rewrite EP. apply Z. }
      destruct (step k s) as [[e|] s2] eqn:ES.
      + exists [], [calls k X], []. pose proof ES as ES'. unfold mo_step in ES. rewrite EP in ES. destruct (mo_evaluate minimize func k X) as [F|].
        2:{ injection ES as _ <-. exists []. split; [reflexivity|]. split; [cbn; lia|]. split; [apply observations_nil|]. cbn. rewrite app_nil_r. split; [reflexivity|congruence]. }
        destruct (Model_MOBO.tell n (fits W k) s false X F) as [s'|s'] eqn:ET; [discriminate|]. injection ES as _ <-.
        destruct (tell_raised_data _ _ _ _ _ _ ET) as (new & D & N). exists (map (fun r => (Model_MOBO.r_x r, Model_MOBO.r_fit r)) new).
        split; [reflexivity|]. split; [cbn; lia|]. split; [apply observations_nil|]. cbn. rewrite D, map_app. split; [reflexivity|].
        intro NE. exists k. apply N. intros ->. now apply NE.
      + destruct (mo_step_ok _ _ _ _ Hn EP ES) as (o1 & O1 & _ & D1 & E1 & _). specialize (IH (S k) s2 Hn). destruct (loop target fuel (S k) s2) as [s' front|e s'|].
        * destruct IH as (A & B & obs & C & D & F). split; [exact A|]. split; [exact B|]. exists (o1 ++ obs). cbn [List.concat]. rewrite app_length. split; [apply observations_app; assumption|].
          split; [rewrite D, D1, map_app; now rewrite app_assoc|lia].
        * destruct IH as (dn & last & obs & new & A & B & C & D & F). exists (calls k X :: dn), last, (o1 ++ obs), new. rewrite A. split; [reflexivity|]. split; [exact B|]. cbn [List.concat].
          split; [apply observations_app; assumption|]. split; [rewrite D, D1, map_app; now rewrite <- !app_assoc|exact F].
        * destruct IH as (obs & C). exists (o1 ++ obs). cbn [List.concat]. apply observations_app; assumption.
  Qed.
  Lemma mo_propose_length k s X : good_space P -> good_world P W -> 1 <= p_n_point P -> 1 <= p_DoE_size P -> propose k s = Ok X -> List.length X <= Nat.max (p_n_point P) (p_DoE_size P).
  Proof.
    intros GS GW N D H. unfold mo_propose, ask_mies in H.
    assert (Q : 1 <= List.length X <= (if 0 <? Model_MOBO.iter_count s then p_n_point P else p_DoE_size P)).
    { eapply ask_count with (np := None); [|destruct (0 <? _); auto|exact H].
      intros count m. apply (run_samp_spec P W GS GW k count m). }
    destruct (0 <? Model_MOBO.iter_count s); lia.
  Qed.
  Lemma calls1_length : forall X k j i, List.length (mo_calls1 func k j i X) <= List.length X.
  Proof. induction X as [|y X IH]; intros k j i; cbn; auto. destruct (func k j i y); [specialize (IH k j (S i)); lia|cbn; lia]. Qed.
  Lemma calls_length : forall m k j X, List.length (mo_calls func k j m X) <= m * List.length X.
  Proof.
    induction m as [|m IH]; intros k j X; cbn; auto. rewrite app_length. pose proof (calls1_length X k j 0). destruct (mo_column _); [specialize (IH k (S j) X); lia|cbn; lia].
  Qed.
End L.
