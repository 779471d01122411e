(** Lemmas: sums over cells of products of increments depend only on the region that the cells cover, and grow with it. *)
From Coq Require Import Reals List Bool Arith ZArith QArith Qreals Lia Lra.
From Verif Require Import Lib_List Lib_Normal Model_Boxes Spec_Boxes Spec_Expect Proofs_Expect Model_EHVI Properties_EHVI Proofs_ExpectPos.
Import ListNotations.
Open Scope R_scope.

Definition qside := (Q * option Q)%type.
(** z lies in (l, u]. *)
Definition in1 (z : Q) (s : qside) : bool := negb (Qle_bool z (fst s)) && match snd s with Some u => Qle_bool z u | None => true end.
Fixpoint inb (z : list Q) (c : list qside) : bool :=
  match z, c with [], [] => true | q :: z, s :: c => in1 q s && inb z c | _, _ => false end.
Definition count (z : list Q) (cs : list (list qside)) : nat := length (filter (inb z) cs).
(** Non-decreasing functions of a bound, None for infinity. *)
Definition ole (a b : option Q) : Prop := match a, b with _, None => True | None, Some _ => False | Some x, Some y => (x <= y)%Q end.
Definition growing (g : option Q -> R) : Prop := forall a b, ole a b -> g a <= g b.
Fixpoint value (gs : list (option Q -> R)) (c : list qside) : R :=
  match gs, c with g :: gs, s :: c => (g (snd s) - g (Some (fst s))) * value gs c | _, _ => 1 end.
Definition values gs cs := sum (map (value gs) cs).
Definition wf (n : nat) (c : list qside) : Prop := length c = n /\ forall s, In s c -> ole (Some (fst s)) (snd s).

Lemma growing_eq g x y : growing g -> (x == y)%Q -> g (Some x) = g (Some y).
Proof. intros G E. apply Rle_antisym; apply G; cbn; rewrite E; apply Qle_refl. Qed.

(** The elementary intervals of an ascending list, each with the point that represents it. *)
Fixpoint asc (t : Q) (T : list Q) : Prop := match T with [] => True | u :: T => (t < u)%Q /\ asc u T end.
Fixpoint pieces (t : Q) (T : list Q) : list (qside * Q) :=
  match T with [] => [((t, None), (t + 1)%Q)] | u :: T => ((t, Some u), u) :: pieces u T end.
Definition on (x t : Q) (T : list Q) : Prop := exists y, In y (t :: T) /\ (x == y)%Q.
Definition step (g : option Q -> R) (p : qside * Q) : R := g (snd (fst p)) - g (Some (fst (fst p))).
(** The weight of the pieces above x. *)
Definition rest (g : option Q -> R) (x : Q) (l : list (qside * Q)) : R := sum (map (fun p => if Qle_bool (snd p) x then 0 else step g p) l).

Lemma pieces_above : forall T t p, asc t T -> In p (pieces t T) -> (t < snd p)%Q.
Proof.
  induction T as [|u T IH]; intros t p A Hp; cbn in Hp.
  - destruct Hp as [<-|[]]. cbn. rewrite <- (Qplus_0_r t) at 1. apply Qplus_lt_r. reflexivity.
  - destruct A as [A1 A2]. destruct Hp as [<-|Hp]; [exact A1|]. apply Qlt_trans with u; auto.
Qed.
Lemma asc_in : forall T t y, asc t T -> In y T -> (t < y)%Q.
Proof. induction T as [|u T IH]; intros t y A Hy; [destruct Hy|]. destruct A as [A1 A2]. destruct Hy as [<-|Hy]; auto. apply Qlt_trans with u; auto. Qed.
Lemma telescope g : forall T t, sum (map (step g) (pieces t T)) = g None - g (Some t).
Proof.
  induction T as [|u T IH]; intros t; cbn [pieces map sum fold_right]; unfold step at 1; cbn [fst snd].
  - lra.
  - fold (sum (map (step g) (pieces u T))). rewrite IH. lra.
Qed.
Lemma Qle_bool_false a b : (b < a)%Q -> Qle_bool a b = false.
Proof. intros H. destruct (Qle_bool a b) eqn:E; auto. apply Qle_bool_iff in E. exfalso. apply (Qlt_irrefl a). now apply Qle_lt_trans with b. Qed.
Lemma rest_from g x : growing g -> forall T t, asc t T -> on x t T -> rest g x (pieces t T) = g None - g (Some x).
Proof.
  intros G. induction T as [|u T IH]; intros t A (y & Hy & E).
  - destruct Hy as [<-|[]]. unfold rest. cbn [pieces map sum fold_right snd]. rewrite Qle_bool_false; [unfold step; cbn [fst snd]; rewrite (growing_eq g x t G E); lra|].
    rewrite E. apply (pieces_above [] t ((t, None), (t + 1)%Q)); [exact I|now left].
  - destruct Hy as [<-|Hy].
    + unfold rest. rewrite (map_ext_in _ (step g)); [rewrite telescope, (growing_eq g x t G E); reflexivity|]. intros p Hp. rewrite Qle_bool_false; [reflexivity|]. rewrite E. now apply (pieces_above (u :: T) t).
    + destruct A as [A1 A2]. unfold rest. cbn [pieces map sum fold_right snd]. assert (L : (u <= x)%Q). { rewrite E. destruct Hy as [<-|Hy]; [apply Qle_refl|]. apply Qlt_le_weak. now apply asc_in with T. }
      assert (B := L). apply Qle_bool_iff in B. rewrite B. fold (sum (map (fun p => if Qle_bool (snd p) x then 0 else step g p) (pieces u T))). fold (rest g x (pieces u T)). rewrite (IH u A2); [lra|]. exists y. split; auto.
Qed.
Lemma sum_minus {A} (f h : A -> R) l : sum (map (fun a => f a - h a) l) = sum (map f l) - sum (map h l).
Proof. unfold sum. induction l as [|a l IH]; cbn [map fold_right]; [lra|]. rewrite IH. lra. Qed.
Lemma sum_scal {A} c (f : A -> R) l : sum (map (fun a => c * f a) l) = c * sum (map f l).
Proof. unfold sum. induction l as [|a l IH]; cbn [map fold_right]; [lra|]. rewrite IH. lra. Qed.
Lemma sum_plus {A} (f h : A -> R) l : sum (map (fun a => f a + h a) l) = sum (map f l) + sum (map h l).
Proof. unfold sum. induction l as [|a l IH]; cbn [map fold_right]; [lra|]. rewrite IH. lra. Qed.
Lemma sum_zero {A} (l : list A) : sum (map (fun _ => 0) l) = 0.
Proof. unfold sum. induction l as [|a l IH]; cbn [map fold_right]; [lra|]. rewrite IH. lra. Qed.
Lemma sum_swap {A B} (f : A -> B -> R) l k : sum (map (fun a => sum (map (f a) k)) l) = sum (map (fun b => sum (map (fun a => f a b) l)) k).
Proof.
  induction l as [|a l IH]; [symmetry; apply sum_zero|]. cbn [map]. change (sum (map (f a) k) + sum (map (fun a => sum (map (f a) k)) l) = sum (map (fun b => f a b + sum (map (fun a => f a b) l)) k)). rewrite sum_plus, IH. reflexivity.
Qed.
Lemma sum_le {A} (f h : A -> R) l : (forall a, In a l -> f a <= h a) -> sum (map f l) <= sum (map h l).
Proof. unfold sum. induction l as [|a l IH]; cbn [map fold_right]; intros H; [lra|]. assert (f a <= h a) by (apply H; now left). assert (fold_right Rplus 0 (map f l) <= fold_right Rplus 0 (map h l)) by (apply IH; intros b Hb; apply H; now right). lra. Qed.

(** A side is the sum of the pieces in it. *)
Lemma side_pieces g s t T : growing g -> asc t T -> on (fst s) t T -> (forall u, snd s = Some u -> on u t T) -> ole (Some (fst s)) (snd s) ->
  g (snd s) - g (Some (fst s)) = sum (map (fun p => if in1 (snd p) s then step g p else 0) (pieces t T)).
Proof.
  intros G A Ol Ou W. destruct s as [l [u|]]; cbn [fst snd] in *.
  - rewrite (map_ext _ (fun p => (if Qle_bool (snd p) l then 0 else step g p) - (if Qle_bool (snd p) u then 0 else step g p))).
    + rewrite sum_minus. fold (rest g l (pieces t T)). fold (rest g u (pieces t T)). rewrite !rest_from; auto. lra.
    + intros p. unfold in1. cbn [fst snd]. destruct (Qle_bool (snd p) l) eqn:E1; cbn [negb andb].
      * apply Qle_bool_iff in E1. assert (E2 : Qle_bool (snd p) u = true) by (apply Qle_bool_iff; now apply Qle_trans with l). rewrite E2. lra.
      * destruct (Qle_bool (snd p) u); lra.
  - rewrite (map_ext _ (fun p => if Qle_bool (snd p) l then 0 else step g p)).
    + fold (rest g l (pieces t T)). rewrite rest_from; auto.
    + intros p. unfold in1. cbn [fst snd]. destruct (Qle_bool (snd p) l); reflexivity.
Qed.

(** Every finite list of values lies on an ascending one. *)
Lemma insert_asc x : forall T t, asc t T -> exists t' T', asc t' T' /\ (forall y, on y t T \/ (y == x)%Q -> on y t' T') /\ (t' = t \/ (t' = x /\ (x < t)%Q)).
Proof.
  induction T as [|u T IH]; intros t A.
  - destruct (Q_dec x t) as [[L|L]|E].
    + exists x, [t]. split; [split; [exact L|exact I]|]. split; [|now right]. intros y [(w & Hw & E)|E]; [exists w; split; [now right|exact E]|exists x; split; [now left|exact E]].
    + exists t, [x]. split; [split; [exact L|exact I]|]. split; [|now left]. intros y [(w & [<-|[]] & E)|E]; [exists t; split; [now left|exact E]|exists x; split; [right; now left|exact E]].
    + exists t, []. split; [exact I|]. split; [|now left]. intros y [K|K]; auto. exists t. split; [now left|]. now rewrite K.
  - destruct (Q_dec x t) as [[L|L]|E].
    + exists x, (t :: u :: T). split; [split; [exact L|exact A]|]. split; [|now right]. intros y [(w & Hw & E)|E]; [exists w; split; [now right|exact E]|exists x; split; [now left|exact E]].
    + destruct A as [A1 A2]. destruct (IH u A2) as (t' & T' & B & K & M). exists t, (t' :: T'). split; [split; [destruct M as [->|[-> _]]; auto|exact B]|]. split; [|now left].
      intros y H. destruct H as [(w & [<-|Hw] & E)|E].
      * exists t. split; [now left|exact E].
      * destruct (K y) as (v & Hv & Ev); [left; exists w; split; auto|]. exists v. split; [now right|exact Ev].
      * destruct (K y) as (v & Hv & Ev); [now right|]. exists v. split; [now right|exact Ev].
    + exists t, (u :: T). split; [exact A|]. split; [|now left]. intros y [K|K]; auto. exists t. split; [now left|]. now rewrite K.
Qed.
Lemma grid (L : list Q) : exists t T, asc t T /\ forall x, In x L -> on x t T.
Proof.
  induction L as [|x L (t & T & A & H)]; [exists 0%Q, []; split; [exact I|intros x []]|]. destruct (insert_asc x T t A) as (t' & T' & A' & K & _). exists t', T'. split; [exact A'|].
  intros y [<-|Hy]; apply K; [right; reflexivity|left; auto].
Qed.

Definition head (c : list qside) : qside := match c with s :: _ => s | [] => (0%Q, None) end.
Definition slice (q : Q) (cs : list (list qside)) : list (list qside) := map (@tl qside) (filter (fun c => in1 q (head c)) cs).
Lemma count_slice q z cs : (forall c, In c cs -> c <> []) -> count z (slice q cs) = count (q :: z) cs.
Proof.
  unfold count, slice. induction cs as [|c cs IH]; intros H; [reflexivity|]. assert (IH' := IH (fun d Hd => H d (or_intror Hd))). destruct c as [|s c]; [exfalso; now apply (H [] (or_introl eq_refl))|].
  cbn [filter head inb]. destruct (in1 q s); cbn [map filter tl andb]; [|exact IH']. destruct (inb z c); cbn [length]; now rewrite IH'.
Qed.
Lemma slice_values gs q cs : values gs (slice q cs) = sum (map (fun c => if in1 q (head c) then value gs (tl c) else 0) cs).
Proof.
  unfold values, slice. induction cs as [|c cs IH]; [reflexivity|]. cbn [filter map]. destruct (in1 q (head c)); cbn [map]; unfold sum in *; cbn [fold_right]; rewrite IH; lra.
Qed.
Lemma values_slices g gs cs t T : growing g -> asc t T -> (forall c, In c cs -> wf (S (length gs)) c) ->
  (forall c, In c cs -> on (fst (head c)) t T /\ forall u, snd (head c) = Some u -> on u t T) ->
  values (g :: gs) cs = sum (map (fun p => step g p * values gs (slice (snd p) cs)) (pieces t T)).
Proof.
  intros G A W O. rewrite (map_ext _ (fun p => sum (map (fun c => step g p * (if in1 (snd p) (head c) then value gs (tl c) else 0)) cs))) by (intros p; now rewrite slice_values, sum_scal).
  rewrite <- (sum_swap (fun c p => step g p * (if in1 (snd p) (head c) then value gs (tl c) else 0))). unfold values. f_equal. apply map_ext_in. intros c Hc. destruct (W c Hc) as [L S1]. destruct c as [|s c]; [discriminate|].
  destruct (O _ Hc) as [O1 O2]. cbn [value head tl] in *. rewrite (side_pieces g s t T G A O1 O2 (S1 s (or_introl eq_refl))). rewrite Rmult_comm, <- sum_scal. f_equal. apply map_ext. intros p. destruct (in1 (snd p) s); lra.
Qed.
Lemma step_nonneg g : growing g -> forall T t p, asc t T -> In p (pieces t T) -> 0 <= step g p.
Proof.
  intros G. induction T as [|u T IH]; intros t p A Hp; cbn in Hp.
  - destruct Hp as [<-|[]]. unfold step. cbn. assert (g (Some t) <= g None) by (apply G; exact I). lra.
  - destruct A as [A1 A2]. destruct Hp as [<-|Hp]; [|now apply (IH u)]. unfold step. cbn. assert (g (Some t) <= g (Some u)) by (apply G; cbn; now apply Qlt_le_weak). lra.
Qed.
Lemma slice_wf n q cs : (forall c, In c cs -> wf (S n) c) -> forall c, In c (slice q cs) -> wf n c.
Proof.
  intros H c Hc. unfold slice in Hc. apply in_map_iff in Hc as (d & <- & Hd). apply filter_In in Hd as [Hd _]. destruct (H d Hd) as [L W]. destruct d as [|s d]; [discriminate|]. split; [cbn in *; lia|]. intros x Hx. apply W. now right.
Qed.
(** Cells that cover every point at least as often have at least the value. *)
Theorem values_le : forall gs A B, List.Forall growing gs -> (forall c, In c A -> wf (length gs) c) -> (forall c, In c B -> wf (length gs) c) ->
  (forall z, length z = length gs -> (count z A <= count z B)%nat) -> values gs A <= values gs B.
Proof.
  induction gs as [|g gs IH]; intros A B G WA WB H.
  - assert (E : forall X, (forall c, In c X -> wf 0 c) -> values [] X = INR (count [] X)).
    { unfold values, count, sum. induction X as [|c X IH]; intros W; [reflexivity|]. destruct (W c (or_introl eq_refl)) as [L _]. destruct c; [|discriminate].
      change (1 + fold_right Rplus 0 (map (value []) X) = INR (S (length (filter (inb []) X)))). rewrite S_INR, IH; [lra|]. intros d Hd. apply W. now right. }
    cbn [length] in WA, WB. rewrite !E by auto. apply le_INR, (H [] eq_refl).
  - inversion G as [|? ? G1 G2]; subst. cbn [length] in WA, WB.
    destruct (grid (flat_map (fun c => fst (head c) :: match snd (head c) with Some u => [u] | None => [] end) (A ++ B))) as (t & T & As & On).
    assert (O : forall c, In c (A ++ B) -> on (fst (head c)) t T /\ forall u, snd (head c) = Some u -> on u t T).
    { intros c Hc. split; [apply On, in_flat_map; exists c; split; [exact Hc|now left]|]. intros u E. apply On, in_flat_map. exists c. split; [exact Hc|]. rewrite E. right. now left. }
    rewrite (values_slices g gs A t T G1 As WA), (values_slices g gs B t T G1 As WB); [|intros c Hc; apply O, in_app_iff; now right|intros c Hc; apply O, in_app_iff; now left].
    apply sum_le. intros p Hp. apply Rmult_le_compat_l; [now apply (step_nonneg g G1 T t)|]. apply IH; auto; try (eapply slice_wf; eassumption).
    assert (NE : forall X, (forall c, In c X -> wf (S (length gs)) c) -> forall c : list qside, In c X -> c <> []) by (intros X W c Hc ->; destruct (W [] Hc); discriminate).
    intros z Hz. rewrite (count_slice (snd p) z A (NE A WA)), (count_slice (snd p) z B (NE B WB)). apply H. cbn. lia.
Qed.

(** Cells of a decomposition. *)
Fixpoint qcell (lo hi : list ext) : list qside :=
  match lo, hi with
  | a :: lo, b :: hi => (match a with Val q => q | _ => 0%Q end, match b with Val r => Some r | _ => None end) :: qcell lo hi
  | _, _ => []
  end.
Definition qcells (cs : list (list ext * list ext)) := map (fun c => qcell (fst c) (snd c)) cs.
Definition weight (big : R) (p : R * R) (o : option Q) : R := - (sigma_of (snd p) * psi ((fst p - clamp big (option_map Q2R o)) / sigma_of (snd p))).
Definition proper_cells (big : R) (n : nat) (cs : list (list ext * list ext)) : Prop := forall c, In c cs -> length (fst c) = n /\ proper_sides big (fst c) (snd c).

Lemma clamp_grows big a b : ole a b -> clamp big (option_map Q2R a) <= clamp big (option_map Q2R b).
Proof.
  destruct a as [x|], b as [y|]; cbn; intros H; try contradiction.
  - apply Qle_Rle in H. apply Rle_min_compat_r, H.
  - apply Rmin_r.
  - lra.
Qed.
Lemma weight_growing big p : growing (weight big p).
Proof.
  intros a b H. unfold weight. apply Ropp_le_contravar. assert (P := sigma_pos (snd p)). apply Rmult_le_compat_l; [apply Rlt_le, P|].
  assert (D : (fst p - clamp big (option_map Q2R b)) / sigma_of (snd p) <= (fst p - clamp big (option_map Q2R a)) / sigma_of (snd p)).
  { unfold Rdiv. apply Rmult_le_compat_r; [apply Rlt_le, Rinv_0_lt_compat, P|]. assert (K := clamp_grows big a b H). lra. }
  destruct D as [D|D]; [apply Rlt_le, psi_incr, D|rewrite D; lra].
Qed.
Lemma qcell_wf big lo hi : proper_sides big lo hi -> wf (length lo) (qcell lo hi).
Proof.
  induction 1 as [|a b lo hi (q & -> & Hq & Hb) P [L W]]; [split; [reflexivity|intros s []]|]. split; [cbn [qcell length]; now rewrite L|]. cbn [qcell]. intros s [<-|Hs]; [|now apply W].
  destruct Hb as [->|(r & -> & Hr)]; cbn; auto.
Qed.
Lemma qcell_inside big lo hi : proper_sides big lo hi -> forall z, inb z (qcell lo hi) = true <-> inside z (lo, hi).
Proof.
  unfold inside. cbn [fst snd]. induction 1 as [|a b lo hi (q & -> & Hq & Hb) P IH]; intros z.
  - destruct z; cbn; split; intros K; try discriminate; [split; constructor|reflexivity|destruct K as [K _]; inversion K].
  - destruct z as [|v z]; cbn [qcell inb]; [split; intros K; [discriminate|destruct K as [K _]; inversion K]|].
    rewrite andb_true_iff, IH. assert (S1 : in1 v (q, match b with Val r => Some r | _ => None end) = true <-> above (Val q) v /\ upto v b).
    { unfold in1. cbn [fst snd]. rewrite andb_true_iff, negb_true_iff. cbn [above]. destruct Hb as [->|(r & -> & Hr)]; cbn [upto].
      - split; intros [K _]; (split; [|auto]); [|now apply Qle_bool_false]. apply Qnot_le_lt. intros X. apply Qle_bool_iff in X. congruence.
      - rewrite Qle_bool_iff. split; intros [K K2]; (split; [|exact K2]); [|now apply Qle_bool_false]. apply Qnot_le_lt. intros X. apply Qle_bool_iff in X. congruence. }
    rewrite S1. split.
    + intros [[A U] [As Us]]. split; constructor; auto.
    + intros [A U]. inversion A; inversion U; subst. auto.
Qed.
Lemma qcell_value big : forall lo hi cell pred, proper_sides big lo hi -> real_cell lo hi = Some cell -> length pred = length lo -> value (map (weight big) pred) (qcell lo hi) = cell_value big pred cell.
Proof.
  unfold cell_value. induction lo as [|a lo IH]; intros hi cell pred P E L; inversion P as [|? b ? hi' (q & Eq & Hq & Hb) P']; subst.
  - injection E as <-. destruct pred; [reflexivity|discriminate].
  - destruct pred as [|[mu mse] pred]; [discriminate|]. cbn in L.
    assert (GO : forall u c, real_cell lo hi' = Some c -> cell = (Q2R q, option_map Q2R u) :: c -> (match b with Val r => Some r | _ => None end) = u -> value (map (weight big) ((mu, mse) :: pred)) (qcell (Val q :: lo) (b :: hi')) = prod (map (fun f => fst f + snd f) (cell_factors big cell ((mu, mse) :: pred)))).
    { intros u c Ec -> Eu. cbn [map value qcell fst snd cell_factors prod fold_right]. rewrite Eu, factors_gain by apply sigma_pos. fold (prod (map (fun f => fst f + snd f) (cell_factors big c pred))). rewrite <- (IH hi' c pred P' Ec ltac:(lia)).
      f_equal. unfold weight, gain. cbn [fst snd]. change (clamp big (option_map Q2R (Some q))) with (Rmin (Q2R q) big). rewrite (Rmin_left (Q2R q) big Hq). lra. }
    destruct Hb as [->|(r & -> & Hr)]; cbn [real_cell] in E; destruct (real_cell lo hi') as [c|] eqn:EC; try discriminate; injection E as <-.
    + apply (GO None c); reflexivity.
    + apply (GO (Some r) c); reflexivity.
Qed.
Lemma forward_region big n cs cells pred : proper_cells big n cs -> real_cells cs = Some cells -> length pred = n -> forward big cells pred = values (map (weight big) pred) (qcells cs).
Proof.
  intros P E L. destruct (real_cells_ok big n cs pred P L) as (cells' & E' & OK). assert (cells' = cells) by congruence. subst cells'. rewrite (forward_values big cells pred OK). clear OK E'. unfold values. f_equal.
  revert cells E. induction cs as [|c cs IH]; intros cells E; cbn [real_cells] in E; [injection E as <-; reflexivity|].
  destruct (real_cell (fst c) (snd c)) as [r|] eqn:E1; [|discriminate]. destruct (real_cells cs) as [rs|] eqn:E2; [|discriminate]. injection E as <-. cbn [map qcells]. fold (qcells cs).
  destruct (P c (or_introl eq_refl)) as [Lc Pc]. rewrite (qcell_value big _ _ r pred Pc E1 ltac:(congruence)). f_equal. apply IH; auto. intros d Hd. apply P. now right.
Qed.

Lemma count_none big n cs z : proper_cells big n cs -> in_none z cs -> count z (qcells cs) = 0%nat.
Proof.
  intros P H. unfold count. induction cs as [|c cs IH]; [reflexivity|]. cbn [qcells map filter]. destruct (inb z (qcell (fst c) (snd c))) eqn:E.
  - exfalso. apply (H c (or_introl eq_refl)). destruct c as [lo hi]. now apply (qcell_inside big lo hi (proj2 (P (lo, hi) (or_introl eq_refl)))).
  - apply IH; [intros d Hd; apply P; now right|intros d Hd; apply H; now right].
Qed.
Lemma count_one big n cs z : proper_cells big n cs -> in_exactly_one z cs -> count z (qcells cs) = 1%nat.
Proof.
  intros P (l & c & r & -> & I & N). unfold count, qcells. rewrite map_app, filter_app, app_length. cbn [map filter].
  assert (I' : inb z (qcell (fst c) (snd c)) = true). { destruct c as [lo hi]. apply (qcell_inside big lo hi); [|exact I]. apply (P (lo, hi)), in_app_iff. right. now left. }
  rewrite I'. cbn [length]. assert (A := count_none big n l z). assert (B := count_none big n r z). unfold count, qcells in A, B. rewrite A, B; [reflexivity| | | | ].
  - intros d Hd. apply P, in_app_iff. right. now right.
  - intros d Hd. apply N, in_app_iff. now right.
  - intros d Hd. apply P, in_app_iff. now left.
  - intros d Hd. apply N, in_app_iff. now left.
Qed.
Lemma covers_dec : forall y z : list Q, covers y z \/ ~ covers y z.
Proof.
  unfold covers. induction y as [|a y IH]; intros [|b z]; try (right; intros K; inversion K; fail); [left; constructor|]. destruct (IH z) as [H|H]; [|right; intros K; inversion K; auto].
  destruct (Qlt_le_dec a b) as [L|L]; [right; intros K; inversion K; subst; apply (Qlt_irrefl a); eapply Qlt_le_trans; eassumption|left; constructor; auto].
Qed.
Lemma dominated_em Y z : dominated_by Y z \/ ~ dominated_by Y z.
Proof.
  induction Y as [|y Y IH]; [right; intros (w & [] & _)|]. destruct (covers_dec y z) as [H|H]; [left; exists y; split; [now left|exact H]|].
  destruct IH as [(w & Hw & K)|N]; [left; exists w; split; [now right|exact K]|]. right. intros (w & [<-|Hw] & K); [auto|]. apply N. exists w. auto.
Qed.
Lemma strictly_em : forall ref z, strictly_above ref z \/ ~ strictly_above ref z.
Proof.
  unfold strictly_above. induction ref as [|a ref IH]; intros [|b z]; try (right; intros K; inversion K; fail); [left; constructor|]. destruct (IH z) as [H|H]; [|right; intros K; inversion K; auto].
  destruct (Qlt_le_dec a b) as [L|L]; [left; constructor; auto|right; intros K; inversion K; subst; apply (Qlt_irrefl a); eapply Qlt_le_trans; eassumption].
Qed.
(** Of two decompositions, the one whose outcomes dominate more has the smaller value. *)
Lemma region_le big pred ref cs1 cs2 Y1 Y2 cells1 cells2 : length pred = length ref -> proper_cells big (length ref) cs1 -> proper_cells big (length ref) cs2 ->
  partitions cs1 ref Y1 -> nothing_below cs1 ref -> partitions cs2 ref Y2 -> (forall z, strictly_above ref z -> dominated_by Y2 z -> dominated_by Y1 z) ->
  real_cells cs1 = Some cells1 -> real_cells cs2 = Some cells2 -> forward big cells1 pred <= forward big cells2 pred.
Proof.
  intros L P1 P2 A1 N1 A2 D E1 E2. rewrite (forward_region big (length ref) cs1 cells1 pred P1 E1 L), (forward_region big (length ref) cs2 cells2 pred P2 E2 L).
  assert (W : forall cs, proper_cells big (length ref) cs -> forall c, In c (qcells cs) -> wf (length (map (weight big) pred)) c).
  { intros cs P c Hc. apply in_map_iff in Hc as (d & <- & Hd). destruct (P d Hd) as [Ld Pd]. rewrite map_length, L, <- Ld. apply (qcell_wf big), Pd. }
  apply values_le; [|exact (W cs1 P1)|exact (W cs2 P2)|].
  - apply List.Forall_forall. intros g Hg. apply in_map_iff in Hg as (p & <- & _). apply weight_growing.
  - intros z Hz. rewrite map_length, L in Hz. destruct (strictly_em ref z) as [SA|SA]; [|rewrite (count_none big _ cs1 z P1 (N1 z Hz SA)); lia].
    destruct (dominated_em Y1 z) as [K|K]; [rewrite (count_none big _ cs1 z P1 (proj1 (A1 z SA) K)); lia|].
    assert (K2 : ~ dominated_by Y2 z) by (intros X; apply K, D; auto). rewrite (count_one big _ cs1 z P1 (proj2 (A1 z SA) K)), (count_one big _ cs2 z P2 (proj2 (A2 z SA) K2)). lia.
Qed.
