(** Lemmas about Model_Boxes.v: two objectives. *)
From Coq Require Import List Bool Arith ZArith QArith Qminmax Permutation Sorted Lia Lqa.
From Verif Require Import Lib_List Model_Pareto Spec_Pareto Proofs_Pareto Model_Boxes Spec_Boxes Proofs_Boxes Proofs_BoxFront.
Import ListNotations.
Open Scope nat_scope.

Definition pt (p : Q * Q) : list Q := [fst p; snd p].
Definition step (p q : Q * Q) : Prop := (fst p < fst q)%Q /\ (snd q < snd p)%Q.
Definition cov2 (ps : list (Q * Q)) (z0 z1 : Q) : Prop := exists p, In p ps /\ (z0 <= fst p)%Q /\ (z1 <= snd p)%Q.

Lemma inside2 z0 z1 a b c d : inside [z0; z1] ([a; b], [c; d]) <-> above a z0 /\ above b z1 /\ upto z0 c /\ upto z1 d.
Proof.
  unfold inside. cbn [fst snd]. split.
  - intros [H K]. inversion H as [|? ? ? ? H1 H2]; subst. inversion H2 as [|? ? ? ? H3 _]; subst.
    inversion K as [|? ? ? ? K1 K2]; subst. inversion K2 as [|? ? ? ? K3 _]; subst. tauto.
  - intros (A&B&C&D). split; repeat (apply Forall2_cons; [assumption|]); apply Forall2_nil.
Qed.

Lemma one_here z c cs : inside z c -> in_none z cs -> in_exactly_one z (c :: cs).
Proof. intros H K. exists [], c, cs. split; [reflexivity|]. split; [exact H|]. exact K. Qed.
Lemma one_later z c cs : ~ inside z c -> in_exactly_one z cs -> in_exactly_one z (c :: cs).
Proof.
  intros H (l&d&r&->&I&N). exists (c :: l), d, r. split; [reflexivity|]. split; [exact I|].
  intros e [<-|He]; [exact H|apply N, He].
Qed.
Lemma none_cons z c cs : ~ inside z c -> in_none z cs -> in_none z (c :: cs).
Proof. intros H K d [<-|Hd]; [exact H|apply K, Hd]. Qed.

(** *** ascending staircase *)
Fixpoint stairs (l : Q) (ps : list (Q * Q)) (r1 : Q) : list box :=
  match ps with
  | [] => [([Val l; Val r1], [PInf; PInf])]
  | p :: ps' => ([Val l; Val (snd p)], [Val (fst p); PInf]) :: stairs (fst p) ps' r1
  end.

Lemma nd_cells_stairs pts ref : pts <> [] -> nd_cells_2d pts ref = Some (stairs (fst ref) pts (snd ref)).
Proof.
  destruct pts as [|p1 pts']; [congruence|]. intros _. unfold nd_cells_2d. f_equal.
  set (pts := p1 :: pts'). set (xl := fst (last pts p1)).
  assert (E0 : map fst ((fst ref, snd p1) :: pts ++ [(xl, snd ref)]) = (fst ref :: map fst pts) ++ [xl]).
  { cbn [map fst]. rewrite map_app. reflexivity. }
  assert (E1 : map snd ((fst ref, snd p1) :: pts ++ [(xl, snd ref)]) = snd p1 :: map snd pts ++ [snd ref]).
  { cbn [map snd]. rewrite map_app. reflexivity. }
  cbv zeta. rewrite E0, E1. rewrite removelast_last. cbn [tl app]. rewrite removelast_last. clearbody xl. clear E0 E1.
  generalize (fst ref) as l, (snd ref) as r1. clear. clearbody pts. induction pts as [|p ps IH]; intros l r1; [reflexivity|].
  cbn [map combine app stairs fst snd]. f_equal. apply IH.
Qed.

Lemma stairs_lower ps : forall l r1 c, Forall (fun p => (l < fst p)%Q /\ (r1 < snd p)%Q) ps -> StronglySorted step ps ->
  In c (stairs l ps r1) -> exists a b u, c = ([Val a; Val b], [u; PInf]) /\ (l <= a)%Q /\ (r1 <= b)%Q.
Proof.
  induction ps as [|p ps IH]; intros l r1 c HF HS; cbn [stairs].
  - intros [<-|[]]. exists l, r1, PInf. split; [reflexivity|]. split; lra.
  - inversion HF as [|? ? [F1 F2] F3]; subst. inversion HS as [|? ? S1 S2]; subst. intros [<-|H].
    + exists l, (snd p), (Val (fst p)). split; [reflexivity|]. split; lra.
    + destruct (IH (fst p) r1 c) as (a&b&u&E&A&B); auto.
      * rewrite Forall_forall in *. intros q Hq. specialize (S2 q Hq). specialize (F3 q Hq). unfold step in S2. lra.
      * exists a, b, u. split; [exact E|]. split; lra.
Qed.

Lemma stairs_spec ps : StronglySorted step ps -> forall l r1 z0 z1,
  Forall (fun p => (l < fst p)%Q /\ (r1 < snd p)%Q) ps -> (l < z0)%Q -> (r1 < z1)%Q ->
  (cov2 ps z0 z1 -> in_none [z0; z1] (stairs l ps r1)) /\ (~ cov2 ps z0 z1 -> in_exactly_one [z0; z1] (stairs l ps r1)).
Proof.
  induction ps as [|p ps IH]; intros HS l r1 z0 z1 HF Hl Hr; cbn [stairs].
  - split; [intros (p&[]&_)|]. intros _. apply one_here; [|intros d []]. apply inside2. simpl. tauto.
  - inversion HS as [|? ? S1 S2]; subst. inversion HF as [|? ? [F1 F2] F3]; subst.
    assert (HF' : Forall (fun q => (fst p < fst q)%Q /\ (r1 < snd q)%Q) ps).
    { rewrite Forall_forall in *. intros q Hq. specialize (S2 q Hq). specialize (F3 q Hq). unfold step in S2. lra. }
    destruct (Qlt_le_dec (fst p) z0) as [L|L].
    + destruct (IH S1 (fst p) r1 z0 z1 HF' L Hr) as [I1 I2].
      assert (NI : ~ inside [z0; z1] ([Val l; Val (snd p)], [Val (fst p); PInf])) by (rewrite inside2; simpl; lra).
      split.
      * intros (q&[<-|Hq]&C1&C2); [lra|]. apply none_cons; [exact NI|]. apply I1. exists q. auto.
      * intros N. apply one_later; [exact NI|]. apply I2. intros (q&Hq&C). apply N. exists q. split; [right; exact Hq|exact C].
    + assert (NR : in_none [z0; z1] (stairs (fst p) ps r1)).
      { intros c Hc. destruct (stairs_lower ps (fst p) r1 c HF' S1 Hc) as (a&b&u&->&A&B). rewrite inside2. simpl. lra. }
      destruct (Qlt_le_dec (snd p) z1) as [L1|L1].
      * split.
        -- intros (q&[<-|Hq]&C1&C2); [lra|]. rewrite Forall_forall in S2. specialize (S2 q Hq). unfold step in S2. lra.
        -- intros _. apply one_here; [|exact NR]. apply inside2. simpl. tauto.
      * split.
        -- intros _. apply none_cons; [|exact NR]. rewrite inside2. simpl. lra.
        -- intros N. exfalso. apply N. exists p. split; [left; reflexivity|]. split; lra.
Qed.

(** *** dominated cells *)
Fixpoint bars (l : Q) (ps : list (Q * Q)) (r1 : Q) : list box :=
  match ps with
  | [] => []
  | p :: ps' => ([Val l; Val r1], [Val (fst p); Val (snd p)]) :: bars (fst p) ps' r1
  end.
Lemma dom_cells_bars pts ref : pts <> [] -> dom_cells_2d pts ref = Some (bars (fst ref) pts (snd ref)).
Proof.
  destruct pts as [|p1 pts']; [congruence|]. intros _. unfold dom_cells_2d. f_equal.
  set (pts := p1 :: pts'). cbv zeta. cbn [tl]. rewrite removelast_last.
  assert (E : (fst ref, fst p1) :: pts ++ [(snd p1, snd ref)] = ((fst ref, fst p1) :: pts) ++ [(snd p1, snd ref)]) by reflexivity.
  rewrite E, removelast_last.
  generalize (fst ref) as l, (fst p1) as y, (snd ref) as r1. clear. clearbody pts. induction pts as [|p ps IH]; intros l y r1; [reflexivity|].
  assert (E : removelast ((l, y) :: p :: ps) = (l, y) :: removelast (p :: ps)) by reflexivity. rewrite E.
  cbn [map combine bars fst snd]. f_equal. destruct p as [pa pb]. cbn [fst]. apply IH.
Qed.
Lemma bars_lower ps : forall l r1 c, Forall (fun p => (l < fst p)%Q) ps -> StronglySorted step ps ->
  In c (bars l ps r1) -> exists a u v, c = ([Val a; Val r1], [Val u; Val v]) /\ (l <= a)%Q /\ In (u, v) ps.
Proof.
  induction ps as [|p ps IH]; intros l r1 c HF HS; cbn [bars]; [intros []|].
  inversion HF as [|? ? F1 F3]; subst. inversion HS as [|? ? S1 S2]; subst. intros [<-|H].
  - exists l, (fst p), (snd p). split; [reflexivity|]. split; [lra|]. left. destruct p; reflexivity.
  - destruct (IH (fst p) r1 c) as (a&u&v&E&A&B); auto.
    + rewrite Forall_forall in *. intros q Hq. specialize (S2 q Hq). unfold step in S2. lra.
    + exists a, u, v. split; [exact E|]. split; [lra|right; exact B].
Qed.
Lemma bars_spec ps : StronglySorted step ps -> forall l r1 z0 z1,
  Forall (fun p => (l < fst p)%Q) ps -> (l < z0)%Q -> (r1 < z1)%Q ->
  (cov2 ps z0 z1 -> in_exactly_one [z0; z1] (bars l ps r1)) /\ (~ cov2 ps z0 z1 -> in_none [z0; z1] (bars l ps r1)).
Proof.
  induction ps as [|p ps IH]; intros HS l r1 z0 z1 HF Hl Hr; cbn [bars].
  - split; [intros (p&[]&_)|]. intros _ d [].
  - inversion HS as [|? ? S1 S2]; subst. inversion HF as [|? ? F1 F3]; subst.
    assert (HF' : Forall (fun q => (fst p < fst q)%Q) ps).
    { rewrite Forall_forall in *. intros q Hq. specialize (S2 q Hq). unfold step in S2. lra. }
    destruct (Qlt_le_dec (fst p) z0) as [L|L].
    + destruct (IH S1 (fst p) r1 z0 z1 HF' L Hr) as [I1 I2].
      assert (NI : ~ inside [z0; z1] ([Val l; Val r1], [Val (fst p); Val (snd p)])) by (rewrite inside2; simpl; lra).
      split.
      * intros (q&[<-|Hq]&C1&C2); [lra|]. apply one_later; [exact NI|]. apply I1. exists q. auto.
      * intros N. apply none_cons; [exact NI|]. apply I2. intros (q&Hq&C). apply N. exists q. split; [right; exact Hq|exact C].
    + assert (NR : in_none [z0; z1] (bars (fst p) ps r1)).
      { intros c Hc. destruct (bars_lower ps (fst p) r1 c HF' S1 Hc) as (a&u&v&->&A&B). rewrite inside2. simpl. lra. }
      destruct (Qlt_le_dec (snd p) z1) as [L1|L1].
      * split.
        -- intros (q&[<-|Hq]&C1&C2); [lra|]. rewrite Forall_forall in S2. specialize (S2 q Hq). unfold step in S2. lra.
        -- intros _. apply none_cons; [|exact NR]. rewrite inside2. simpl. lra.
      * split.
        -- intros _. apply one_here; [|exact NR]. apply inside2. simpl. lra.
        -- intros N. exfalso. apply N. exists p. split; [left; reflexivity|]. split; lra.
Qed.

(** *** descending staircase (the class) *)
Fixpoint dstairs (up : ext) (lo : Q) (ps : list (Q * Q)) (r0 : Q) : list box :=
  match ps with
  | [] => [([Val r0; Val lo], [up; PInf])]
  | p :: ps' => ([Val (fst p); Val lo], [up; PInf]) :: dstairs (Val (fst p)) (snd p) ps' r0
  end.
Definition down (p q : Q * Q) : Prop := step q p.

Lemma dstairs_cells ps : forall up lo r0 c, Forall (fun p => (r0 < fst p)%Q /\ (lo < snd p)%Q) ps -> StronglySorted down ps ->
  In c (dstairs up lo ps r0) -> exists a b u, c = ([Val a; Val b], [u; PInf]) /\ (r0 <= a)%Q /\ (lo <= b)%Q /\
    (u = up \/ exists q, In q ps /\ u = Val (fst q)).
Proof.
  induction ps as [|p ps IH]; intros up lo r0 c HF HS; cbn [dstairs].
  - intros [<-|[]]. exists r0, lo, up. split; [reflexivity|]. split; [lra|]. split; [lra|]. left; reflexivity.
  - inversion HF as [|? ? [F1 F2] F3]; subst. inversion HS as [|? ? S1 S2]; subst. intros [<-|H].
    + exists (fst p), lo, up. split; [reflexivity|]. split; [lra|]. split; [lra|]. left; reflexivity.
    + destruct (IH (Val (fst p)) (snd p) r0 c) as (a&b&u&E&A&B&C); auto.
      * rewrite Forall_forall in *. intros q Hq. specialize (S2 q Hq). specialize (F3 q Hq). unfold down, step in S2. lra.
      * exists a, b, u. split; [exact E|]. split; [lra|]. split; [lra|].
        right. destruct C as [->|(q&Hq&->)]; [exists p|exists q]; simpl; auto.
Qed.

Lemma dstairs_spec ps : StronglySorted down ps -> forall up lo r0 z0 z1,
  Forall (fun p => (r0 < fst p)%Q /\ (lo < snd p)%Q) ps -> upto z0 up -> (r0 < z0)%Q -> (lo < z1)%Q ->
  (cov2 ps z0 z1 -> in_none [z0; z1] (dstairs up lo ps r0)) /\ (~ cov2 ps z0 z1 -> in_exactly_one [z0; z1] (dstairs up lo ps r0)).
Proof.
  induction ps as [|p ps IH]; intros HS up lo r0 z0 z1 HF Hu Hl Hr; cbn [dstairs].
  - split; [intros (p&[]&_)|]. intros _. apply one_here; [|intros d []]. apply inside2. simpl. tauto.
  - inversion HS as [|? ? S1 S2]; subst. inversion HF as [|? ? [F1 F2] F3]; subst.
    assert (HF' : Forall (fun q => (r0 < fst q)%Q /\ (snd p < snd q)%Q) ps).
    { rewrite Forall_forall in *. intros q Hq. specialize (S2 q Hq). specialize (F3 q Hq). unfold down, step in S2. lra. }
    destruct (Qlt_le_dec (fst p) z0) as [L|L].
    + assert (NR : in_none [z0; z1] (dstairs (Val (fst p)) (snd p) ps r0)).
      { intros c Hc. destruct (dstairs_cells ps (Val (fst p)) (snd p) r0 c HF' S1 Hc) as (a&b&u&->&A&B&C). rewrite inside2.
        destruct C as [->|(q&Hq&->)]; simpl; [lra|]. rewrite Forall_forall in S2. specialize (S2 q Hq). unfold down, step in S2. lra. }
      split.
      * intros (q&[<-|Hq]&C1&C2); [lra|]. rewrite Forall_forall in S2. specialize (S2 q Hq). unfold down, step in S2. lra.
      * intros N. apply one_here; [|exact NR]. apply inside2. simpl. tauto.
    + assert (NI : ~ inside [z0; z1] ([Val (fst p); Val lo], [up; PInf])) by (rewrite inside2; simpl; lra).
      destruct (Qlt_le_dec (snd p) z1) as [L1|L1].
      * destruct (IH S1 (Val (fst p)) (snd p) r0 z0 z1 HF' L Hl L1) as [I1 I2]. split.
        -- intros (q&[<-|Hq]&C1&C2); [lra|]. apply none_cons; [exact NI|]. apply I1. exists q. auto.
        -- intros N. apply one_later; [exact NI|]. apply I2. intros (q&Hq&C). apply N. exists q. split; [right; exact Hq|exact C].
      * split.
        -- intros _. apply none_cons; [exact NI|]. intros c Hc.
           destruct (dstairs_cells ps (Val (fst p)) (snd p) r0 c HF' S1 Hc) as (a&b&u&->&A&B&C). rewrite inside2. simpl. lra.
        -- intros N. exfalso. apply N. exists p. split; [left; reflexivity|]. split; lra.
Qed.

Lemma dstairs_len up lo ps r0 : length (dstairs up lo ps r0) = S (length ps).
Proof. revert up lo. induction ps as [|p ps IH]; intros; simpl; [reflexivity|]. rewrite IH. reflexivity. Qed.

Lemma dstairs_nth ps : forall up lo r0 i, i <= length ps -> nth_error (dstairs up lo ps r0) i =
  Some ([Val (match nth_error ps i with Some p => fst p | None => r0 end);
         Val (match i with 0 => lo | S k => match nth_error ps k with Some p => snd p | None => 0%Q end end)],
        [match i with 0 => up | S k => match nth_error ps k with Some p => Val (fst p) | None => NInf end end; PInf]).
Proof.
  induction ps as [|p ps IH]; intros up lo r0 [|i] Hi; simpl in Hi; try lia; cbn [dstairs nth_error]; try reflexivity.
  rewrite IH by lia. destruct i; reflexivity.
Qed.

(** *** sorting: a strictly descending column *)
Lemma sorted_unique {A} (R : A -> A -> Prop) : (forall a, ~ R a a) -> (forall a b, R a b -> R b a -> False) ->
  forall l l', StronglySorted R l -> StronglySorted R l' -> Permutation l l' -> l = l'.
Proof.
  intros Hi Ha. induction l as [|a l IH]; intros [|b l'] H1 H2 HP.
  - reflexivity.
  - apply Permutation_nil in HP. discriminate.
  - apply Permutation_sym, Permutation_nil in HP. discriminate.
  - inversion H1 as [|? ? A1 A2]; subst. inversion H2 as [|? ? B1 B2]; subst. rewrite Forall_forall in A2, B2.
    assert (E : a = b).
    { assert (I1 : In a (b :: l')) by (apply (Permutation_in _ HP); left; reflexivity).
      assert (I2 : In b (a :: l)) by (apply (Permutation_in _ (Permutation_sym HP)); left; reflexivity).
      destruct I1 as [I1|I1]; [auto|]. destruct I2 as [I2|I2]; [auto|]. exfalso. apply (Ha a b); auto. }
    subst b. f_equal. apply IH; auto. apply Permutation_cons_inv in HP. exact HP.
Qed.

Lemma SS_nth {A} (R : A -> A -> Prop) l :
  (forall a b x y, a < b -> nth_error l a = Some x -> nth_error l b = Some y -> R x y) -> StronglySorted R l.
Proof.
  induction l as [|x l IH]; intros H; constructor.
  - apply IH. intros a b u v L E F. apply (H (S a) (S b)); auto. lia.
  - rewrite Forall_forall. intros y Hy. apply In_nth_error in Hy. destruct Hy as (k&E). apply (H 0 (S k)); auto. lia.
Qed.
Lemma nth_SS {A} (R : A -> A -> Prop) l : StronglySorted R l ->
  forall a b x y, a < b -> nth_error l a = Some x -> nth_error l b = Some y -> R x y.
Proof.
  induction 1 as [|u l H IH F]; intros a b x y L E1 E2; [destruct a; discriminate|].
  destruct b as [|b]; [lia|]. destruct a as [|a].
  - injection E1 as <-. rewrite Forall_forall in F. apply F. eapply nth_error_In; eauto.
  - apply (IH a b); auto. lia.
Qed.
Lemma SS_app {A} (R : A -> A -> Prop) l r : StronglySorted R l -> StronglySorted R r -> (forall x y, In x l -> In y r -> R x y) -> StronglySorted R (l ++ r).
Proof.
  induction 1 as [|u l H IH F]; intros Hr HX; [exact Hr|]. simpl. constructor.
  - apply IH; auto. intros x y Hx Hy. apply HX; simpl; auto.
  - apply Forall_app. split; [exact F|]. rewrite Forall_forall. intros y Hy. apply HX; simpl; auto.
Qed.
Lemma SS_rev {A} (R : A -> A -> Prop) l : StronglySorted R l -> StronglySorted (fun a b => R b a) (rev l).
Proof.
  induction 1 as [|u l H IH F]; [constructor|]. simpl. apply SS_app; [exact IH|repeat constructor|].
  intros x y Hx [<-|[]]. rewrite Forall_forall in F. apply F, in_rev, Hx.
Qed.
Lemma seq_SS k n : StronglySorted lt (seq k n).
Proof. revert k. induction n as [|n IH]; intros k; constructor; [apply IH|]. rewrite Forall_forall. intros y Hy. apply in_seq in Hy. lia. Qed.

Lemma argsort_desc argsort l : sorts argsort ->
  (forall a b, a < b -> b < length l -> (nth b l 0 < nth a l 0)%Q) -> argsort l = rev (seq 0 (length l)).
Proof.
  intros HS HD. destruct (HS l) as [HP HO].
  apply (sorted_unique (fun a b => b < a)); [intros a; lia|intros a b; lia| | |].
  - apply SS_nth. intros a b x y L E1 E2. specialize (HO a b x y L E1 E2).
    assert (ND : NoDup (argsort l)) by (apply (Permutation_NoDup (Permutation_sym HP)), seq_NoDup).
    assert (Hx : x < length l) by (apply nth_error_In in E1; apply (Permutation_in _ HP) in E1; apply in_seq in E1; lia).
    assert (Hy : y < length l) by (apply nth_error_In in E2; apply (Permutation_in _ HP) in E2; apply in_seq in E2; lia).
    destruct (Nat.lt_trichotomy x y) as [T|[T|T]]; auto.
    + specialize (HD x y T Hy). lra.
    + subst y. assert (a = b); [|lia]. apply (proj1 (NoDup_nth_error _) ND); [eapply nth_error_lt; eauto|congruence].
  - apply (SS_rev lt), seq_SS.
  - rewrite HP. apply Permutation_rev.
Qed.

Lemma FOP_perm {A} (R : A -> A -> Prop) : (forall a b, R a b -> R b a) -> forall l l', Permutation l l' -> ForallOrdPairs R l -> ForallOrdPairs R l'.
Proof.
  intros HS l l' HP. induction HP as [|x l l' HP IH|x y l|l l' l'' _ IH1 _ IH2]; intros H; auto.
  - inversion H as [|? ? F G]; subst. constructor; [|apply IH, G]. rewrite Forall_forall in *. intros z Hz. apply F.
    apply (Permutation_in _ (Permutation_sym HP)), Hz.
  - inversion H as [|? ? F G]; subst. inversion F as [|? ? F1 F2]; subst. inversion G as [|? ? G1 G2]; subst.
    constructor; [constructor; [apply HS, F1|exact G1]|]. constructor; assumption.
Qed.
Lemma FOP_nth {A} (R : A -> A -> Prop) l : ForallOrdPairs R l ->
  forall a b x y, a < b -> nth_error l a = Some x -> nth_error l b = Some y -> R x y.
Proof.
  induction 1 as [|u l F H IH]; intros a b x y L E1 E2; [destruct a; discriminate|].
  destruct b as [|b]; [lia|]. destruct a as [|a].
  - injection E1 as <-. rewrite Forall_forall in F. apply F. eapply nth_error_In; eauto.
  - apply (IH a b); auto. lia.
Qed.
Lemma FOP_map {A B} (f : A -> B) (R : A -> A -> Prop) (R' : B -> B -> Prop) l :
  (forall a b, In a l -> In b l -> R a b -> R' (f a) (f b)) -> ForallOrdPairs R l -> ForallOrdPairs R' (map f l).
Proof.
  intros H F. induction F as [|a l F1 F2 IH]; [constructor|]. simpl. constructor.
  - rewrite Forall_forall in *. intros y Hy. apply in_map_iff in Hy. destruct Hy as (b&<-&Hb). apply H; simpl; auto.
  - apply IH. intros x y Hx Hy. apply H; simpl; auto.
Qed.

Section Two.
  Variable argsort : list Q -> list nat.
  Hypothesis HS : sorts argsort.
  Variables (r0 r1 : Q) (Y : list vec).
  Notation ref := [r0; r1].
  Hypothesis HR : rectangular 2 Y.
  Notation P := (neg_front argsort true ref Y).
  Notation pts := (map (fun p => ((- nth 0 p 0)%Q, (- nth 1 p 0)%Q)) P).

  Lemma front_sorted_0 a b p q : a < b -> nth_error P a = Some p -> nth_error P b = Some q -> (nth 0 p 0 <= nth 0 q 0)%Q.
  Proof.
    intros L E1 E2. destruct (front_eq argsort ref Y HR) as [HE|E]; [destruct HE as (_&E&_); rewrite E in E1; destruct a; discriminate|].
    rewrite E, nth_error_map in E1, E2. set (N := map (map Qopp) (chosen ref Y)) in *.
    destruct (HS (col 0 N)) as [HP HO].
    destruct (nth_error (argsort (col 0 N)) a) as [i|] eqn:F1; [|discriminate].
    destruct (nth_error (argsort (col 0 N)) b) as [j|] eqn:F2; [|discriminate].
    cbn [option_map] in E1, E2. injection E1 as <-. injection E2 as <-.
    specialize (HO a b i j L F1 F2).
    assert (G : forall i k, nth_error (argsort (col 0 N)) k = Some i -> nth i (col 0 N) 0%Q = nth 0 (nth i N []) 0%Q).
    { intros i' k F. apply nth_error_In in F. apply (Permutation_in _ HP) in F. apply in_seq in F. unfold col in *. rewrite map_length in F.
      rewrite (nth_indep _ 0%Q (nth 0 (@nil Q) 0%Q)) by (rewrite map_length; lia). apply (map_nth (fun r => nth 0 r 0%Q)). }
    rewrite (G i a F1), (G j b F2) in HO. exact HO.
  Qed.

  Lemma front_steps a b p q : a < b -> nth_error P a = Some p -> nth_error P b = Some q ->
    (nth 0 p 0 < nth 0 q 0)%Q /\ (nth 1 q 0 < nth 1 p 0)%Q.
  Proof.
    intros L E1 E2. pose proof (front_sorted_0 a b p q L E1 E2) as S0.
    set (R' := fun p q : vec => ~ weakly_better p q /\ ~ weakly_better q p).
    assert (FP : ForallOrdPairs R' P).
    { apply (FOP_perm R') with (l := map (map Qopp) (chosen ref Y)); [unfold R'; tauto|apply Permutation_sym, (front_perm argsort HS ref Y HR)|].
      apply (FOP_map (map Qopp) (fun x y => ~ covers x y /\ ~ covers y x)); [|apply chosen_antichain, HR].
      intros x y Hx Hy [N1 N2].
      assert (G : forall u v, In u (chosen ref Y) -> In v (chosen ref Y) -> weakly_better (map Qopp u) (map Qopp v) -> covers u v).
      { intros u v Hu Hv W. assert (Lu := chosen_rect ref Y HR u Hu). assert (Lv := chosen_rect ref Y HR v Hv).
        unfold weakly_better, covers in *. rewrite F2_nth with (da := 0%Q) (db := 0%Q) in W by (rewrite !map_length; congruence).
        rewrite F2_nth with (da := 0%Q) (db := 0%Q) by congruence. rewrite map_length in W.
        intros j Hj. specialize (W j ltac:(lia)). rewrite !opp_nth in W.
        destruct (Nat.ltb_spec j (length u)); [|lia]. destruct (Nat.ltb_spec j (length v)); [|lia]. lra. }
      split; intros K; [apply N1|apply N2]; apply G; auto. }
    destruct (FOP_nth R' P FP a b p q L E1 E2) as [N1 N2].
    assert (Lp : length p = 2) by (apply (front_rect argsort HS ref Y HR); eapply nth_error_In; eauto).
    assert (Lq : length q = 2) by (apply (front_rect argsort HS ref Y HR); eapply nth_error_In; eauto).
    destruct p as [|p0 [|p1 [|]]]; try discriminate. destruct q as [|q0 [|q1 [|]]]; try discriminate. simpl in *.
    assert (K : (q1 < p1)%Q).
    { destruct (Qlt_le_dec q1 p1) as [|K]; [assumption|]. exfalso. apply N1. repeat (apply Forall2_cons; [assumption|]). constructor. }
    split; [|exact K]. destruct (Qlt_le_dec p0 q0) as [|K0]; [assumption|]. exfalso. apply N2.
    apply Forall2_cons; [assumption|]. apply Forall2_cons; [lra|]. constructor.
  Qed.

  Lemma pts_down : StronglySorted down pts.
  Proof.
    apply SS_nth. intros a b x y L E1 E2. rewrite nth_error_map in E1, E2.
    destruct (nth_error P a) as [p|] eqn:F1; [|discriminate]. destruct (nth_error P b) as [q|] eqn:F2; [|discriminate].
    injection E1 as <-. injection E2 as <-. destruct (front_steps a b p q L F1 F2). unfold down, step. cbn [fst snd]. lra.
  Qed.
  Lemma pts_above : Forall (fun p => (r0 < fst p)%Q /\ (r1 < snd p)%Q) pts.
  Proof.
    rewrite Forall_forall. intros x Hx. apply in_map_iff in Hx. destruct Hx as (p&<-&Hp). cbn [fst snd].
    pose proof (front_below argsort HS ref Y HR p 0 Hp ltac:(simpl; lia)) as A.
    pose proof (front_below argsort HS ref Y HR p 1 Hp ltac:(simpl; lia)) as B. cbn [nth] in A, B. lra.
  Qed.
  Lemma pts_cov z0 z1 : strictly_above ref [z0; z1] -> (cov2 pts z0 z1 <-> dominated_by Y [z0; z1]).
  Proof.
    intros A. rewrite <- (nd_dominated argsort HS ref Y HR _ A), nd_false. split.
    - intros (x&Hx&C1&C2). apply in_map_iff in Hx. destruct Hx as (p&<-&Hp). cbn [fst snd] in *. exists p. split; [exact Hp|].
      intros [|[|j]] Hj; simpl in Hj; try lia; cbn [map nth]; lra.
    - intros (p&Hp&C). exists ((- nth 0 p 0)%Q, (- nth 1 p 0)%Q). split; [apply in_map_iff; exists p; auto|].
      pose proof (C 0 ltac:(simpl; lia)) as C0. pose proof (C 1 ltac:(simpl; lia)) as C1. cbn [map nth] in C0, C1. cbn [fst snd]. lra.
  Qed.

  Lemma nrev_nth n k : k < n -> nth_error (rev (seq 0 n)) k = Some (n - 1 - k).
  Proof.
    intros H. rewrite (nth_error_nth' _ 0) by (rewrite rev_length, seq_length; exact H).
    rewrite rev_nth by (rewrite seq_length; exact H). rewrite seq_length, seq_nth by lia. f_equal. lia.
  Qed.

  Lemma cells_dstairs : map (cell_bounds P ref) (partition_space_2d argsort P) = dstairs PInf (- - r1) pts (- - r0).
  Proof.
    assert (HC : argsort (col 1 P) = rev (seq 0 (length P))).
    { rewrite argsort_desc; [rewrite col_len; reflexivity|exact HS|]. rewrite col_len. intros a b L Hb.
      destruct (lt_nth_error P a ltac:(lia)) as (p&E1). destruct (lt_nth_error P b Hb) as (q&E2).
      rewrite (col_nth P 1 a p E1), (col_nth P 1 b q E2). apply (front_steps a b p q L E1 E2). }
    set (n := length P) in *.
    assert (HA : aug_idx argsort P 1 = 0 :: map S (rev (seq 0 n)) ++ [S n]) by (unfold aug_idx; rewrite HC; reflexivity).
    assert (LA : length (aug_idx argsort P 1) = S (S n)).
    { rewrite HA. simpl. rewrite app_length, map_length, rev_length, seq_length. simpl. lia. }
    apply nth_error_ext. intros i. unfold partition_space_2d. fold n. rewrite nth_error_map, nth_error_map, nth_error_seq.
    destruct (Nat.ltb_spec i (S n)) as [Hi|Hi].
    2:{ cbn [option_map]. symmetry. apply nth_error_None. rewrite dstairs_len, map_length. exact Hi. }
    rewrite dstairs_nth by (rewrite map_length; fold n; lia). cbn [option_map]. f_equal.
    rewrite LA, Nat.add_0_l.
    assert (HU : nth (S (S n) - 1 - i) (aug_idx argsort P 1) 0 = match i with 0 => S n | _ => i end).
    { rewrite HA. destruct i as [|i].
      - replace (S (S n) - 1 - 0) with (S n) by lia. cbn [nth]. rewrite app_nth2 by (rewrite map_length, rev_length, seq_length; lia).
        rewrite map_length, rev_length, seq_length, Nat.sub_diag. reflexivity.
      - replace (S (S n) - 1 - S i) with (S (n - 1 - i)) by lia. cbn [nth].
        rewrite app_nth1 by (rewrite map_length, rev_length, seq_length; lia). apply nth_error_nth.
        rewrite nth_error_map, nrev_nth by lia. cbn [option_map]. do 2 f_equal. lia. }
    rewrite HU. unfold cell_bounds. cbn [indexed length combine seq map fst snd]. unfold indexed. cbn [length combine seq map fst snd].
    rewrite nth_error_map. destruct i as [|i].
    - cbn [bound_at eopp]. replace (nth_error P n) with (@None vec) by (symmetry; apply nth_error_None; unfold n; lia).
      destruct (nth_error P 0) as [p|] eqn:E0; cbn [option_map fst nth]; reflexivity.
    - cbn [bound_at eopp]. rewrite nth_error_map. destruct (lt_nth_error P i ltac:(unfold n in Hi; lia)) as (p&Ep). rewrite Ep.
      cbn [option_map fst snd]. destruct (nth_error P (S i)) as [q|] eqn:Eq; cbn [option_map fst nth]; reflexivity.
  Qed.

  Lemma above2 z : length z = 2 -> exists z0 z1, z = [z0; z1] /\ (strictly_above ref z <-> (r0 < z0)%Q /\ (r1 < z1)%Q).
  Proof.
    destruct z as [|z0 [|z1 [|]]]; try discriminate. intros _. exists z0, z1. split; [reflexivity|]. unfold strictly_above. split.
    - intros H. inversion H as [|? ? ? ? H1 H2]; subst. inversion H2 as [|? ? ? ? H3 _]; subst. tauto.
    - intros [A B]. repeat (apply Forall2_cons; [assumption|]). constructor.
  Qed.
  Lemma len2 z : strictly_above ref z -> length z = 2.
  Proof. intros H. apply F2_len in H. simpl in H. lia. Qed.

  Lemma pts_above' : Forall (fun p => (- - r0 < fst p)%Q /\ (- - r1 < snd p)%Q) pts.
  Proof. pose proof pts_above as H. rewrite Forall_forall in *. intros x Hx. specialize (H x Hx). lra. Qed.

  Lemma class_2d : partitions (map (cell_bounds P ref) (partition_space_2d argsort P)) ref Y /\
    nothing_below (map (cell_bounds P ref) (partition_space_2d argsort P)) ref.
  Proof.
    rewrite cells_dstairs. split.
    - intros z Hz. destruct (above2 z (len2 z Hz)) as (z0&z1&->&HA). assert (A := proj1 HA Hz).
      rewrite <- (pts_cov z0 z1 Hz). apply dstairs_spec; [apply pts_down|apply pts_above'|exact I|lra|lra].
    - intros z Lz Hz c Hc. destruct (above2 z Lz) as (z0&z1&->&HA).
      destruct (dstairs_cells pts PInf (- - r1) (- - r0) c pts_above' pts_down Hc) as (a&b&u&->&A&B&C). rewrite inside2. simpl.
      intros (I1&I2&_). apply Hz, HA. lra.
  Qed.

  Lemma fast_2d : exists cells, fast_partitioning_2d argsort ref Y = Some cells /\ partitions cells ref Y /\ nothing_below cells ref.
  Proof.
    assert (HU : StronglySorted step (rev pts)).
    { exact (SS_rev _ _ pts_down). }
    assert (HB : Forall (fun p => (r0 < fst p)%Q /\ (r1 < snd p)%Q) (rev pts)).
    { pose proof pts_above as H. rewrite Forall_forall in *. intros x Hx. apply H, in_rev, Hx. }
    assert (HV : forall z0 z1, cov2 (rev pts) z0 z1 <-> cov2 pts z0 z1).
    { intros. unfold cov2. split; intros (p&Hp&K); exists p; (split; [|exact K]); [apply in_rev; exact Hp|apply in_rev in Hp; exact Hp]. }
    assert (HC : fast_partitioning_2d argsort ref Y = Some (stairs r0 (rev pts) r1)).
    { unfold fast_partitioning_2d. destruct P as [|p0 P0] eqn:EP; [reflexivity|]. rewrite <- EP. rewrite nd_cells_stairs; [reflexivity|].
      rewrite EP. simpl. intros K. apply app_eq_nil in K. destruct K; discriminate. }
    exists (stairs r0 (rev pts) r1). split; [exact HC|]. split.
    - intros z Hz. destruct (above2 z (len2 z Hz)) as (z0&z1&->&HA). assert (A := proj1 HA Hz).
      rewrite <- (pts_cov z0 z1 Hz), <- HV. apply stairs_spec; auto; lra.
    - intros z Lz Hz c Hc. destruct (above2 z Lz) as (z0&z1&->&HA).
      destruct (stairs_lower (rev pts) r0 r1 c HB HU Hc) as (a&b&u&->&A&B). rewrite inside2. simpl.
      intros (I1&I2&_). apply Hz, HA. lra.
  Qed.
End Two.
