(** C270-C274: whole histories and runs of the conditional optimizer. *)
From Coq Require Import Bool Arith ZArith QArith String List Lia Permutation.
From Verif Require Import Lib_List Model_Opt Spec_Opt Proofs_Opt Model_Conditional Spec_Conditional Properties_Conditional Model_CondRun Spec_CondRun Proofs_CondRun.
Import ListNotations.
Open Scope nat_scope.

(** The observations as an optimizer keeps them. *)
Definition kept (l : list (dict * Q)) : list (dict * fval) := map (fun p => (fst p, FNum (snd p))) l.

Lemma holds_kept (s : st dict) l : Forall finrow (rows s) -> map qpair (rows s) = l -> holds s = kept l.
Proof.
  intros F <-. unfold holds, kept. rewrite map_map. apply map_ext_in. intros r Hr. rewrite Forall_forall in F. cbn. rewrite (finrow_rq _ (F r Hr)). reflexivity.
Qed.
Lemma qpair_holds (s : st dict) : map (fun p => (fst p, match snd p with FNum q => q | _ => 0%Q end)) (holds s) = map qpair (rows s).
Proof. unfold holds. rewrite map_map. apply map_ext. intros r. reflexivity. Qed.

Section Histories.
  Variable names : list string.
  Variable fixed : nat -> dict.
  Variable order : list string -> list string.
  Variable n_sub n_point : nat.
  Variable c : cfg.
  Variable propose : nat -> nat -> st dict -> res dict.
  Variable choice : nat -> nat -> list nat.
  Variable fitk : nat -> nat -> bool * option exn.
  Notation hist_of := (history names fixed order n_sub n_point c propose choice fitk).
  Notation ask := (cond_ask names fixed order n_sub n_point propose choice).
  Notation ctell := (cond_tell fixed c fitk).

  (** ** C270 *)
  Lemma points_finite ops : forall k s s', hist_of k s ops = Some s' -> (forall X fv w, In (OTell X fv w) ops -> w = false /\ forall f, In f fv -> is_finite f = true) ->
    List.length (finite_obs (told_in ops)) = points_in ops.
  Proof.
    induction ops as [|[n|X fv w] ops IH]; intros k s s' H F; cbn [history] in H; [reflexivity| |].
    - destruct (ask k n s) as [[X|e] s1]; [|discriminate]. apply (IH _ _ _ H). intros X' fv w Hi. apply (F X' fv w). now right.
    - destruct (ctell k X fv w s) as [[e|] s1] eqn:E; [discriminate|]. apply tell_none in E as (_ & l & t & _ & ET & ->). apply tell_top_effect in ET as (LF & _).
      destruct (F X fv w (or_introl eq_refl)) as [-> FF]. change (told_in (OTell X fv false :: ops)) with (combine X fv ++ told_in ops). cbn [points_in].
      rewrite finite_obs_app, app_length, (IH _ _ _ H) by (intros X' fv' w' Hi; apply (F X' fv' w'); now right). f_equal.
      rewrite finite_all; [rewrite combine_length; lia|]. intros [x f] Hp. apply in_combine_r in Hp. apply FF, Hp.
  Qed.
  (** The data are the finite observations told so far, in their order, and the counter is their number: the number of points told, when
      every value is finite and no call is a warm start. *)
  Theorem C270_counts_finite_partial :
    forall ops s, hist_of 0 (cond_init n_sub) ops = Some s ->
      holds (top s) = kept (finite_obs (told_in ops)) /\ evals (top s) = List.length (finite_obs (told_in ops)) /\
      ((forall X fv w, In (OTell X fv w) ops -> w = false /\ forall f, In f fv -> is_finite f = true) -> evals (top s) = points_in ops).
  Proof.
    intros ops s H. destruct (history_top _ _ _ _ _ _ _ _ _ _ _ _ _ H) as (A & B & C & _); [constructor|].
    split; [now apply holds_kept|]. split; [exact C|]. intros F. etransitivity; [exact C|]. exact (points_finite _ _ _ _ H F).
  Qed.

  (** ** C273 *)
  (** After any history the recommendation is the first of the best observations told, and hist_f has one entry for each call of tell
      that was no warm start: a best value of everything told until then. *)
  Theorem C273_recommendation :
    forall ops s, hist_of 0 (cond_init n_sub) ops = Some s -> (exists X fv w, In (OTell X fv w) ops) ->
      exists o1 x q o2 r, finite_obs (told_in ops) = o1 ++ (x, q) :: o2 /\ xopt c (top s) = Ok (Some r) /\ rx r = x /\ rf r = FNum q /\
        (forall p, In p o1 -> better (minimize c) q (snd p)) /\ (forall p, In p o2 -> ~ better (minimize c) (snd p) q).
  Proof.
    intros ops s H (X & fv & w & Hi). destruct (history_top _ _ _ _ _ _ _ _ _ _ _ _ _ H) as (A & B & _); [constructor|]. cbn in B.
    assert (D : exists d, data (top s) = Some d /\ d <> []).
    { clear A B. revert H. generalize 0 (cond_init n_sub). revert s Hi.
      assert (KEEP : forall ops k s0 s, hist_of k s0 ops = Some s -> (exists d, data (top s0) = Some d /\ d <> []) -> exists d, data (top s) = Some d /\ d <> []).
      { clear. induction ops as [|[n|X fv w] ops IH]; intros k s0 s H D; cbn [history] in H; [injection H as <-; exact D| |].
        - destruct (ask k n s0) as [[X|e] s1] eqn:E; [|discriminate]. apply ask_top in E as [E _]. apply (IH _ _ _ H). rewrite E. exact D.
        - destruct (ctell k X fv w s0) as [[e|] s1] eqn:E; [discriminate|]. apply tell_none in E as (_ & l & t & _ & ET & ->). apply tell_top_effect in ET as (_ & _ & X2 & DT & _ & _ & _ & _ & NE & _).
          apply (IH _ _ _ H). cbn [top]. eauto. }
      induction ops as [|o ops IH]; intros s Hi k s0 H; [destruct Hi|]. destruct Hi as [->|Hi].
      - cbn [history] in H. destruct (ctell k X fv w s0) as [[e|] s1] eqn:E; [discriminate|]. apply tell_none in E as (_ & l & t & _ & ET & ->).
        apply tell_top_effect in ET as (_ & _ & X2 & DT & _ & _ & _ & _ & NE & _). apply (KEEP _ _ _ _ H). cbn [top]. eauto.
      - cbn [history] in H. destruct o as [n|X' fv' w'].
        + destruct (ask k n s0) as [[X'|e] s1]; [|discriminate]. exact (IH _ Hi _ _ H).
        + destruct (ctell k X' fv' w' s0) as [[e|] s1]; [discriminate|]. exact (IH _ Hi _ _ H). }
    destruct D as (d & D & NE). assert (RD : rows (top s) = d) by (unfold rows; rewrite D; reflexivity). rewrite RD in *.
    destruct (xopt_first_best c (top s) d D A NE) as (d1 & r & d2 & -> & XO & G1 & G2).
    exists (map qpair d1), (rx r), (rq r), (map qpair d2), r. rewrite <- B, map_app. split; [reflexivity|]. split; [exact XO|]. split; [reflexivity|].
    split; [apply finrow_rq; rewrite Forall_forall in A; apply A, in_elt|].
    split; intros p Hp; apply in_map_iff in Hp as (r' & <- & Hr'); [apply G1|apply G2]; exact Hr'.
  Qed.
  Theorem C273_progress :
    forall ops s, hist_of 0 (cond_init n_sub) ops = Some s ->
      List.length (hist (top s)) = List.length (filter paid ops) /\ iters (top s) = List.length (filter paid ops) /\
      forall ops1 X fv ops2, ops = ops1 ++ OTell X fv false :: ops2 ->
        exists q, nth_error (hist (top s)) (List.length (filter paid ops1)) = Some (FNum q) /\
          best_of (minimize c) q (map snd (finite_obs (told_in (ops1 ++ [OTell X fv false])))).
  Proof.
    intros ops s H. destruct (history_hist _ _ _ _ _ _ _ _ _ _ _ _ _ H) as (A & B & _ & C); [constructor|]. cbn in A, B. split; [exact A|]. split; [exact B|].
    intros ops1 X fv ops2 E. destruct (C _ _ _ _ E) as (q & C1 & C2). exists q. split; [exact C1|exact C2].
  Qed.

  (** ** C274 *)
  (** Every observation is stored with the evaluation counter 0. *)
  Theorem C274_never_counted_refuted :
    forall ops s, hist_of 0 (cond_init n_sub) ops = Some s -> forall r, In r (rows (top s)) -> rn r = 0.
  Proof.
    intros ops s H. destruct (history_top _ _ _ _ _ _ _ _ _ _ _ _ _ H) as (_ & _ & _ & G); [constructor|]. apply G. intros r [].
  Qed.

  (** ** C272 *)
  Hypothesis HC : forall k m, List.length (choice k m) = m /\ forall i, In i (choice k m) -> i < n_sub.
  Hypothesis order_perm : forall l, Permutation (order l) l.   (* a set is enumerated in some order *)
  (** When the points of an ask are told back before the next ask, the optimizer of each sub-space gets exactly the finite observations of
      the points that it proposed, as it proposed them, and nothing else.  The proposals must not contain the conditioning variables, and
      there must be no falsy values (compare C105). *)
  Theorem C272_routing_partial :
    forall ops s k k' n X s1 fv w s2, hist_of 0 (cond_init n_sub) ops = Some s -> ask k n s = (Ok X, s1) -> ctell k' X fv w s1 = (None, s2) ->
      (forall i, NoDup (map fst (fixed i)) /\ forall p, In p (fixed i) -> ~ falsy (snd p)) ->
      (forall j i d, nth_error (bo_idx s1) j = Some i -> propose k j (sub s i) = Ok d ->
        (forall v, In v (map fst (fixed i)) -> ~ In v (map fst d)) /\ forall p, In p d -> ~ falsy (snd p)) ->
      exists ds, List.length ds = List.length (bo_idx s1) /\
        (forall j i, nth_error (bo_idx s1) j = Some i -> exists d, nth_error ds j = Some d /\ propose k j (sub s i) = Ok d) /\
        forall i, holds (sub s2 i) = holds (sub s i) ++ kept (share i (bo_idx s1) ds fv).
  Proof.
    intros ops s k k' n X s1 fv w s2 H EA ET HF HP.
    assert (SO : sound n_sub s) by (eapply sound_history; eauto using sound_init).
    destruct (ask_effect _ _ _ _ _ _ _ HC _ _ _ _ _ EA (proj1 (proj2 SO))) as (_ & _ & IB & ds & LD & PD & EX).
    destruct (ask_top _ _ _ _ _ _ _ _ _ _ _ _ EA) as [_ TU].
    exists ds. split; [exact LD|]. split; [exact PD|].
    apply tell_none in ET as (_ & l & t & E1 & _ & ->). rewrite EX in E1. unfold sub. cbn [subs].
    destruct SO as (SL & _ & _ & SF).
    apply tell_subs_effect in E1 as [_ E1].
    - intros i. destruct (E1 i) as [F Q1]. rewrite TU in Q1. rewrite (holds_kept _ _ F eq_refl), Q1. unfold kept. rewrite map_app. f_equal. symmetry. apply holds_kept; [apply SF|reflexivity].
    - exact LD.
    - intros i Hi. rewrite TU, SL. apply IB, Hi.
    - intros i d Hi. apply In_nth_error in Hi as (j & Hj).
      assert (Hj2 : nth_error (bo_idx s1) j = Some i /\ nth_error ds j = Some d).
      { clear - Hj. revert ds j Hj. induction (bo_idx s1) as [|a l IH]; intros [|b ds] [|j] Hj; cbn in Hj; try discriminate; [injection Hj as -> ->; auto|exact (IH _ _ Hj)]. }
      destruct Hj2 as [J1 J2]. destruct (PD _ _ J1) as (d' & D1 & D2). assert (d' = d) by congruence. subst d'. destruct (HP _ _ _ J1 D2) as [P1 P2]. destruct (HF i) as [N1 N2].
      eapply C105_told_back_partial; auto. intros p [Hp|Hp]; auto.
    - intros i. rewrite TU. apply SF.
  Qed.

  (** ** C271 *)
  Variable evaluate : nat -> list dict -> res (list fval).
  Hypothesis HE : forall k X fv, evaluate k X = Ok fv -> forall f, In f fv -> is_finite f = true.
  (** With a budget and an objective function whose values are finite (or that raises) every run ends within as many iterations as the
      budget, and what it has counted exceeds the budget by less than one batch. *)
  Theorem C271_ends_partial :
    forall m fuel, max_fes c = Some m -> m <= fuel ->
      cond_run names fixed order n_sub n_point c propose choice fitk evaluate fuel 0 (cond_init n_sub) <> COutOfFuel /\
      forall s r, cond_run names fixed order n_sub n_point c propose choice fitk evaluate fuel 0 (cond_init n_sub) = CReturned s r -> evals (top s) <= m - 1 + n_point.
  Proof.
    intros m fuel HM L. destruct (run_ends names fixed order n_sub n_point c propose choice fitk HC evaluate HE m fuel HM 0 (cond_init n_sub)) as [A B]; [apply sound_init|cbn; lia|].
    split; [exact A|]. intros s r R. specialize (B s r R). cbn in B. lia.
  Qed.
End Histories.
Print Assumptions C270_counts_finite_partial.
Print Assumptions C273_recommendation.
Print Assumptions C273_progress.
Print Assumptions C274_never_counted_refuted.
Print Assumptions C272_routing_partial.
Print Assumptions C271_ends_partial.

(** A small instance: one condition "c" with the values 1 and 2, and a variable "x" in both sub-spaces. *)
Definition ex_fixed (i : nat) : dict := [("c"%string, PInt (Z.of_nat (S i)))].
Definition ex_propose (k p : nat) (_ : st dict) : res dict := Ok [("x"%string, PInt (Z.of_nat (S (k + p))))].
Definition ex_choice (k m : nat) : list nat := repeat 0 m.
Definition ex_fit (_ _ : nat) : bool * option exn := (true, None).
Definition ex_cfg (m : nat) : cfg := mkCfg true (Some m) None EDict.
Notation ex_hist n_point := (history ["c"%string; "x"%string] ex_fixed id 2 n_point (ex_cfg 3) ex_propose ex_choice ex_fit 0 (cond_init 2)).
Definition pt (c x : Z) : dict := [("x"%string, PInt x); ("c"%string, PInt c)].

(** Points whose value is NaN are not counted. *)
Theorem C270_failed_refuted :
  exists ops s, ex_hist 2 ops = Some s /\ (forall X fv w, In (OTell X fv w) ops -> w = false) /\ points_in ops = 4 /\ evals (top s) = 2.
Proof.
  exists [OAsk None; OTell [pt 1 1; pt 2 2] [FNum 5; FNum 3] false; OAsk None; OTell [pt 1 3; pt 1 4] [FNan; FNan] false].
  eexists. split; [vm_compute; reflexivity|]. split; [intros X fv w [E|[E|[E|[E|[]]]]]; congruence|]. split; reflexivity.
Qed.
Print Assumptions C270_failed_refuted.
(** Points told with warm_start are counted, and they use up the budget. *)
Theorem C270_warm_refuted :
  exists ops s, ex_hist 2 ops = Some s /\ points_in ops = 0 /\ evals (top s) = 2 /\ forall X fv w f, In (OTell X fv w) ops -> In f fv -> is_finite f = true.
Proof.
  exists [OAsk None; OTell [pt 1 1; pt 2 2] [FNum 5; FNum 3] true].
  eexists. split; [vm_compute; reflexivity|]. split; [reflexivity|]. split; [reflexivity|]. intros X fv w f [E|[E|[]]] Hf; [discriminate|]. injection E as <- <- <-. destruct Hf as [<-|[<-|[]]]; reflexivity.
Qed.
Print Assumptions C270_warm_refuted.
Example C270_case : exists s, ex_hist 2 [OAsk None; OTell [pt 1 1; pt 2 2] [FNum 5; FNum 3] false] = Some s /\ evals (top s) = 2 /\ holds (top s) = [(pt 1 1, FNum 5); (pt 2 2, FNum 3)].
Proof. eexists. split; [vm_compute; reflexivity|]. split; reflexivity. Qed.

Example C273_case : exists s r, ex_hist 2 [OAsk None; OTell [pt 1 1; pt 2 2] [FNum 5; FNum 3] false; OAsk None; OTell [pt 1 3; pt 1 4] [FNan; FNum 3] false] = Some s /\
  xopt (ex_cfg 3) (top s) = Ok (Some r) /\ rx r = pt 2 2 /\ hist (top s) = [FNum 3; FNum 3].
Proof. eexists. eexists. split; [vm_compute; reflexivity|]. split; [vm_compute; reflexivity|]. split; reflexivity. Qed.

(** The counters of C274 differ from the number of times (once) that the points were told. *)
Example C274_case : exists s, ex_hist 2 [OAsk None; OTell [pt 1 1; pt 2 2] [FNum 5; FNum 3] false] = Some s /\ map (fun r => (rx r, rn r)) (rows (top s)) = [(pt 1 1, 0); (pt 2 2, 0)].
Proof. eexists. split; [vm_compute; reflexivity|]. reflexivity. Qed.

(** ** C272, full statement (refuted): two asks, and then the points of the first one are told.  The second of these points was
    proposed for "c" = 2 by the optimizer of sub-space 1; its observation is given to the optimizer of sub-space 0 ("c" = 1), without an
    exception. *)
Theorem C272_two_asks_refuted :
  exists x y s, cond_ask ["c"%string; "x"%string] ex_fixed id 2 2 ex_propose ex_choice 0 None (cond_init 2) = (Ok [x; y], s) /\ bo_idx s = [0; 1] /\
    lookup y "c" = Some (PInt 2) /\ ex_fixed 0 = [("c"%string, PInt 1)] /\ ex_fixed 1 = [("c"%string, PInt 2)] /\
    exists s', ex_hist 2 [OAsk None; OAsk None; OTell [x; y] [FNum 5; FNum 7] false] = Some s' /\
      holds (sub s' 0) = [([("x"%string, PInt 1)], FNum 5); ([("x"%string, PInt 2)], FNum 7)] /\ holds (sub s' 1) = [].
Proof.
  exists (pt 1 1), (pt 2 2). eexists. split; [vm_compute; reflexivity|]. split; [reflexivity|]. split; [reflexivity|]. split; [reflexivity|]. split; [reflexivity|].
  eexists. split; [vm_compute; reflexivity|]. split; reflexivity.
Qed.
Print Assumptions C272_two_asks_refuted.
Example C272_case : exists s, ex_hist 2 [OAsk None; OTell [pt 1 1; pt 2 2] [FNum 5; FNum 3] false] = Some s /\
  holds (sub s 0) = [([("x"%string, PInt 1)], FNum 5)] /\ holds (sub s 1) = [([("x"%string, PInt 2)], FNum 3)].
Proof. eexists. split; [vm_compute; reflexivity|]. split; reflexivity. Qed.
Example C272_meets : (forall k m, List.length (ex_choice k m) = m /\ forall i, In i (ex_choice k m) -> i < 2) /\
  (forall i, NoDup (map fst (ex_fixed i)) /\ forall p, In p (ex_fixed i) -> ~ falsy (snd p)) /\
  (forall l : list string, Permutation (id l) l) /\ forall k j s i d, ex_propose k j s = Ok d -> (forall v, In v (map fst (ex_fixed i)) -> ~ In v (map fst d)) /\ forall p, In p d -> ~ falsy (snd p).
Proof.
  split; [|split; [|split; [intros l; apply Permutation_refl|]]].
  - intros k m. split; [apply repeat_length|]. intros i Hi. apply repeat_spec in Hi. lia.
  - intros i. split; [constructor; [intros []|constructor]|]. intros p [<-|[]] F. inversion F.
  - intros k j s i d [= <-]. split; [intros v [<-|[]] [E|[]]; discriminate|]. intros p [<-|[]] F. inversion F.
Qed.

(** ** C271, full statement (refuted): with a budget of m >= 3 evaluations, batches of two points and an objective function that fails
    (NaN) after the first batch the run never ends. *)
Definition ex_eval (k : nat) (X : list dict) : res (list fval) := Ok (map (fun _ => match k with 0 => FNum 5 | _ => FNan end) X).
Definition five (s : st dict) : Prop := exists r l, data s = Some (r :: l) /\ rf r = FNum 5 /\ (l = [] \/ exists r', l = [r'] /\ rf r' = FNum 5).
Definition loops (s : cst) : Prop :=
  exists a b1 b2, top s = a /\ subs s = [b1; b2] /\ gen s = 2 /\ evals a = 2 /\ stop_max a = None /\ stop_tgt a = None /\ five a /\ five b1 /\ five b2.
Notation two_step m := (cond_step ["c"%string; "x"%string] ex_fixed id 2 2 (ex_cfg m) ex_propose ex_choice ex_fit ex_eval).
Notation two_run m := (cond_run ["c"%string; "x"%string] ex_fixed id 2 2 (ex_cfg m) ex_propose ex_choice ex_fit ex_eval).
Lemma loops_step m k s : loops s -> exists s', two_step m (S k) s = (None, s') /\ loops s'.
Proof.
  intros (a & b1 & b2 & E1 & E2 & E3 & E4 & E5 & E6 & (r & l & E7 & E8 & E9) & (r1 & l1 & F1 & F2 & F3) & (r2 & l2 & G1 & G2 & G3)).
  destruct s as [t li g i]. cbn [top subs gen] in *. subst t li g.
  destruct a as [da ea ia ha sma sta fa]. destruct b1 as [db eb ib hb smb stb fb]. destruct b2 as [dc ec ic hc smc stc fc]. cbn in E4, E5, E6, E7, F1, G1. subst.
  destruct r as [x f n lab]. destruct r1 as [x1 f1 n1 lab1]. cbn in E8, F2. subst f f1.
  destruct E9 as [-> | ([x3 f3 n3 lab3] & -> & E9)]; [|cbn in E9; subst f3]; (destruct F3 as [-> | ([x4 f4 n4 lab4] & -> & F3)]; [|cbn in F3; subst f4]);
    (eexists; split; [cbv - [ex_propose Z.of_nat]; reflexivity|]; unfold loops; eexists; eexists; eexists; cbn [top subs gen];
     split; [reflexivity|]; split; [reflexivity|]; split; [reflexivity|]; split; [reflexivity|]; split; [reflexivity|]; split; [reflexivity|];
     split; [|split; [|exists r2, l2; auto]]; (eexists; eexists; split; [reflexivity|]; split; [reflexivity|]; (left; reflexivity) || (right; eexists; split; reflexivity))).
Qed.
Theorem C271_never_ends_refuted :
  forall m fuel, 3 <= m -> two_run m fuel 0 (cond_init 2) = COutOfFuel.
Proof.
  intros m fuel Hm.
  assert (L : forall fuel k s, loops s -> two_run m fuel (S k) s = COutOfFuel).
  { clear fuel. induction fuel as [|fuel IH]; intros k s H; pose proof H as (a & b1 & b2 & E1 & E2 & E3 & E4 & E5 & E6 & F7 & F8 & F9).
    - cbn [cond_run]. unfold check_stop. cbn [max_fes ftarget ex_cfg]. rewrite E1, E4, E5, E6. destruct (Nat.leb_spec m 2); [lia|]. reflexivity.
    - cbn [cond_run]. unfold check_stop. cbn [max_fes ftarget ex_cfg]. rewrite E1, E4, E5, E6. destruct (Nat.leb_spec m 2); [lia|]. cbv zeta.
      assert (H' : loops (CSt (mkSt (data a) 2 (iters a) (hist a) None None (fitted a)) (subs s) (gen s) (bo_idx s))).
      { exists (mkSt (data a) 2 (iters a) (hist a) None None (fitted a)), b1, b2. cbn [top subs gen data evals stop_max stop_tgt]. repeat (split; [solve [auto]|]). exact F9. }
      destruct (loops_step m k _ H') as (s' & ES & LS). cbv iota. rewrite ES. exact (IH _ _ LS). }
  destruct fuel as [|fuel].
  - cbn. destruct m as [|m]; [lia|reflexivity].
  - cbn [cond_run]. unfold check_stop. cbn [max_fes ftarget ex_cfg cond_init top evals init stop_max stop_tgt]. destruct (Nat.leb_spec m 0); [lia|]. cbv zeta iota.
    match goal with |- context [cond_step ?a ?b ?d ?e ?f ?g ?h ?i ?j ?k ?l ?s] => destruct (cond_step a b d e f g h i j k l s) as [o s2] eqn:ES end.
    cbv - [ex_propose Z.of_nat loops] in ES. injection ES as <- <-. apply L. unfold loops. eexists. eexists. eexists. cbn [top subs gen].
    split; [reflexivity|]. split; [reflexivity|]. split; [reflexivity|]. split; [reflexivity|]. split; [reflexivity|]. split; [reflexivity|].
    split; [|split]; (eexists; eexists; split; [reflexivity|]; split; [reflexivity|]; (left; reflexivity) || (right; eexists; split; reflexivity)).
Qed.
Print Assumptions C271_never_ends_refuted.
Example C271_case : exists s r, cond_run ["c"%string; "x"%string] ex_fixed id 2 2 (ex_cfg 3) ex_propose ex_choice ex_fit (fun _ X => Ok (map (fun _ => FNum 5) X)) 3 0 (cond_init 2) = CReturned s r /\ evals (top s) = 4.
Proof. eexists. eexists. split; [vm_compute; reflexivity|]. reflexivity. Qed.
