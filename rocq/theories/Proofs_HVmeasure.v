(** The measure of Spec_HV, one objective at a time. *)
From Coq Require Import List Bool Arith ZArith QArith Lia Lqa Setoid Morphisms.
From Verif Require Import Spec_HV.
Import ListNotations.
Open Scope Q_scope.

(** * Sums *)
Lemma sum_ext {A} (f g : A -> Q) l : (forall c, In c l -> f c == g c) -> sumQ (map f l) == sumQ (map g l).
Proof.
  induction l as [|a l IH]; intros H; simpl; [reflexivity|]. rewrite (H a) by (now left).
  rewrite IH; [reflexivity|]. intros c Hc. apply H. now right.
Qed.
Lemma sum_app l m : sumQ (l ++ m) == sumQ l + sumQ m.
Proof. induction l as [|a l IH]; simpl; [lra|]. rewrite IH. lra. Qed.
Lemma sum_flat {A B} (f : B -> Q) (g : A -> list B) l :
  sumQ (map f (flat_map g l)) == sumQ (map (fun a => sumQ (map f (g a))) l).
Proof. induction l as [|a l IH]; simpl; [reflexivity|]. rewrite map_app, sum_app, IH. reflexivity. Qed.
Lemma sum_zero {A} (l : list A) : sumQ (map (fun _ => 0) l) == 0.
Proof. induction l as [|a l IH]; simpl; [reflexivity|]. rewrite IH. reflexivity. Qed.
Lemma sum_plus {A} (f g : A -> Q) l : sumQ (map (fun a => f a + g a) l) == sumQ (map f l) + sumQ (map g l).
Proof. induction l as [|a l IH]; simpl; [reflexivity|]. rewrite IH. lra. Qed.
Lemma sum_scale {A} (f : A -> Q) k l : sumQ (map (fun a => k * f a) l) == k * sumQ (map f l).
Proof. induction l as [|a l IH]; simpl; [lra|]. rewrite IH. ring. Qed.
Lemma sum_swap {A B} (f : A -> B -> Q) l m :
  sumQ (map (fun a => sumQ (map (f a) m)) l) == sumQ (map (fun b => sumQ (map (fun a => f a b) l)) m).
Proof.
  induction l as [|a l IH]; simpl; [symmetry; apply sum_zero|]. rewrite IH, <- sum_plus. reflexivity.
Qed.
Lemma sum_nonneg {A} (f : A -> Q) l : (forall c, In c l -> 0 <= f c) -> 0 <= sumQ (map f l).
Proof.
  induction l as [|a l IH]; intros H; simpl; [lra|]. pose proof (H a (or_introl eq_refl)).
  assert (0 <= sumQ (map f l)) by (apply IH; intros; apply H; now right). lra.
Qed.
Lemma sum_le {A} (f g : A -> Q) l : (forall c, In c l -> f c <= g c) -> sumQ (map f l) <= sumQ (map g l).
Proof.
  induction l as [|a l IH]; intros H; simpl; [lra|]. pose proof (H a (or_introl eq_refl)).
  assert (sumQ (map f l) <= sumQ (map g l)) by (apply IH; intros; apply H; now right). lra.
Qed.

(** * Grid lines *)
Lemma ascending_tail a G : ascending (a :: G) -> ascending G.
Proof. destruct G as [|b G]; simpl; tauto. Qed.
Lemma ascending_lt a G : ascending (a :: G) -> forall g, In g G -> a < g.
Proof.
  revert a. induction G as [|b G IH]; intros a H g Hg; [destruct Hg|].
  destruct H as [H1 H2]. destruct Hg as [<-|Hg]; [exact H1|]. pose proof (IH b H2 g Hg). lra.
Qed.
Lemma intervals_In G c : In c (intervals G) -> In (fst c) G /\ In (snd c) (tl G).
Proof. destruct c as [l u]. unfold intervals. intros H. split; [exact (in_combine_l _ _ _ _ H)|exact (in_combine_r _ _ _ _ H)]. Qed.
Lemma intervals_cons a b G : intervals (a :: b :: G) = (a, b) :: intervals (b :: G).
Proof. reflexivity. Qed.
Lemma intervals_lt G c : ascending G -> In c (intervals G) -> fst c < snd c.
Proof.
  induction G as [|a G IH]; [intros _ []|]. destruct G as [|b G]; [intros _ []|]. intros H.
  rewrite intervals_cons. intros [<-|Hc]; [exact (proj1 H)|]. apply IH; [exact (proj2 H)|exact Hc].
Qed.

Definition len (a b : Q) (c : Q * Q) : Q := if Qle_bool a (fst c) && Qle_bool (snd c) b then snd c - fst c else 0.
Lemma Qle_bool_false x y : Qle_bool x y = false <-> y < x.
Proof.
  split; intros H.
  - destruct (Qlt_le_dec y x) as [L|L]; [exact L|]. apply Qle_bool_iff in L. congruence.
  - destruct (Qle_bool x y) eqn:E; [|reflexivity]. apply Qle_bool_iff in E. lra.
Qed.
Lemma len_start G a h b : ascending G -> (forall g, In g G -> a <= g) -> (forall g, In g G -> h <= g) ->
  sumQ (map (len a b) (intervals G)) == sumQ (map (len h b) (intervals G)).
Proof.
  intros _ Ha Hh. apply sum_ext. intros c Hc. destruct (intervals_In _ _ Hc) as [H1 _]. unfold len.
  rewrite (proj2 (Qle_bool_iff a (fst c))) by (apply Ha, H1). rewrite (proj2 (Qle_bool_iff h (fst c))) by (apply Hh, H1). reflexivity.
Qed.
Lemma telescope G a b : ascending G -> on_line a G -> on_line b G -> a <= b ->
  sumQ (map (len a b) (intervals G)) == b - a.
Proof.
  revert a. induction G as [|g G IH]; intros a H Ha Hb L; [destruct Ha as [? [[] _]]|].
  pose proof (ascending_lt g G H) as Lt.
  destruct (Qeq_dec a g) as [E|E].
  - destruct (Qeq_dec b g) as [E'|E'].
    + transitivity (sumQ (map (fun _ : Q * Q => 0) (intervals (g :: G)))); [|rewrite sum_zero; lra]. apply sum_ext. intros c Hc.
      destruct (intervals_In _ _ Hc) as [_ H2]. unfold len.
      rewrite (proj2 (Qle_bool_false (snd c) b)); [now rewrite andb_false_r|]. pose proof (Lt _ H2). lra.
    + destruct G as [|h G]; [destruct Hb as [x [[<-|[]] Hx]]; lra|].
      assert (Hb' : on_line b (h :: G)) by (destruct Hb as [x [[<-|Hx] Ex]]; [lra|now exists x]).
      rewrite intervals_cons. simpl map. simpl sumQ.
      rewrite (len_start (h :: G) a h b (proj2 H)).
      * rewrite IH; [|exact (proj2 H)|exists h; split; [now left|lra]|exact Hb'|].
        2:{ destruct Hb' as [x [[<-|Hx] Ex]]; [lra|]. pose proof (ascending_lt h G (proj2 H) x Hx). lra. }
        unfold len. simpl fst; simpl snd. rewrite (proj2 (Qle_bool_iff a g)) by lra.
        rewrite (proj2 (Qle_bool_iff h b)); [simpl; lra|].
        destruct Hb' as [x [[<-|Hx] Ex]]; [lra|]. pose proof (ascending_lt h G (proj2 H) x Hx). lra.
      * intros x Hx. pose proof (Lt x Hx). lra.
      * intros x [<-|Hx]; [lra|]. pose proof (ascending_lt h G (proj2 H) x Hx). lra.
  - assert (Ha' : on_line a G) by (destruct Ha as [x [[<-|Hx] Ex]]; [symmetry in Ex; contradiction|now exists x]).
    assert (ga : g < a) by (destruct Ha' as [x [Hx Ex]]; pose proof (Lt x Hx); lra).
    assert (Hb' : on_line b G) by (destruct Hb as [x [[<-|Hx] Ex]]; [lra|now exists x]).
    destruct G as [|h G]; [destruct Ha' as [? [[] _]]|].
    rewrite intervals_cons. simpl map. simpl sumQ. rewrite (IH a (proj2 H) Ha' Hb' L).
    unfold len at 1. simpl fst. rewrite (proj2 (Qle_bool_false a g)) by lra. simpl. lra.
Qed.

(** * The measure of the first k objectives, the last of them first *)
Section Mes.
Variables (G : nat -> list Q) (ref : nat -> Q) (y : nat -> nat -> Q).
Fixpoint mes (k : nat) (S : list nat) : Q :=
  match k with
  | O => match S with [] => 0 | _ => 1 end
  | Datatypes.S k => sumQ (map (fun c => if Qle_bool (ref k) (fst c)
                                then (snd c - fst c) * mes k (filter (fun x => Qle_bool (snd c) (y x k)) S) else 0) (intervals (G k)))
  end.

Lemma mes_nil k : mes k [] == 0.
Proof.
  induction k as [|k IH]; [reflexivity|]. simpl.
  transitivity (sumQ (map (fun _ : Q * Q => 0) (intervals (G k)))); [|apply sum_zero]. apply sum_ext. intros c _.
  destruct (Qle_bool _ _); [|reflexivity]. rewrite IH. lra.
Qed.
Lemma mes_ext k : forall S S', (forall x, In x S <-> In x S') -> mes k S = mes k S'.
Proof.
  induction k as [|k IH]; intros S S' H; simpl.
  - destruct S as [|a S], S' as [|b S']; auto; exfalso; [apply (proj2 (H b)); now left|apply (proj1 (H a)); now left].
  - f_equal. apply map_ext. intros c. destruct (Qle_bool _ _); [|reflexivity]. f_equal. apply IH.
    intros x. rewrite !filter_In, H. reflexivity.
Qed.
Definition fine (k : nat) (x : nat) : Prop := on_line (y x k) (G k) /\ ref k <= y x k.
Definition lines (k : nat) : Prop := ascending (G k) /\ on_line (ref k) (G k).

(** Adding a point that is last in objective k. *)
Lemma mes_snoc k S x : lines k -> fine k x -> (forall z, In z S -> y x k <= y z k) ->
  mes (Datatypes.S k) (S ++ [x]) == mes (Datatypes.S k) S + (y x k - ref k) * (mes k (S ++ [x]) - mes k S).
Proof.
  intros [HG Hr] [Hx Lx] Hmin. simpl.
  rewrite <- (telescope (G k) (ref k) (y x k) HG Hr Hx Lx).
  set (D := mes k (S ++ [x]) - mes k S). rewrite Qmult_comm, <- sum_scale, <- sum_plus. apply sum_ext. intros c Hc. unfold len.
  destruct (Qle_bool (ref k) (fst c)); [|simpl; lra].
  rewrite filter_app. simpl filter. destruct (Qle_bool (snd c) (y x k)) eqn:E; simpl andb; cbv iota.
  - assert (F : filter (fun z => Qle_bool (snd c) (y z k)) S = S).
    { clear D. induction S as [|a S IH]; [reflexivity|]. simpl. rewrite (proj2 (Qle_bool_iff (snd c) (y a k))).
      - f_equal. apply IH. intros z Hz. apply Hmin. now right.
      - apply Qle_bool_iff in E. specialize (Hmin a (or_introl eq_refl)). lra. }
    rewrite F. unfold D. ring.
  - rewrite app_nil_r. ring.
Qed.

(** One objective: the largest extent. *)
Lemma mes_one S x : lines 0 -> (forall z, In z S -> fine 0 z) -> In x S -> (forall z, In z S -> y z 0%nat <= y x 0%nat) ->
  mes 1 S == y x 0%nat - ref 0%nat.
Proof.
  intros [HG Hr] F Hx Hmax. simpl. rewrite <- (telescope (G 0) (ref 0%nat) (y x 0%nat) HG Hr (proj1 (F x Hx)) (proj2 (F x Hx))).
  apply sum_ext. intros c Hc. unfold len. destruct (Qle_bool (ref 0%nat) (fst c)); [|reflexivity]. simpl andb.
  destruct (Qle_bool (snd c) (y x 0%nat)) eqn:E.
  - destruct (filter _ S) as [|a l] eqn:Ef; [|ring]. exfalso.
    assert (In x (filter (fun z => Qle_bool (snd c) (y z 0%nat)) S)) by (apply filter_In; now split). rewrite Ef in H. destruct H.
  - destruct (filter _ S) as [|a l] eqn:Ef; [ring|]. exfalso.
    assert (Ha : In a (filter (fun z => Qle_bool (snd c) (y z 0%nat)) S)) by (rewrite Ef; now left).
    apply filter_In in Ha. destruct Ha as [Ha Hc']. apply Qle_bool_iff in Hc'. apply Qle_bool_false in E.
    specialize (Hmax a Ha). lra.
Qed.
End Mes.

(** * The measure of Spec_HV *)
Lemma sum_cells_snoc (f : list (Q * Q) -> Q) Gs G :
  sumQ (map f (cells (Gs ++ [G]))) == sumQ (map (fun c => sumQ (map (fun cs => f (cs ++ [c])) (cells Gs))) (intervals G)).
Proof.
  revert f. induction Gs as [|g Gs IH]; intros f; simpl app.
  - simpl cells. rewrite sum_flat. apply sum_ext. intros c _. simpl. reflexivity.
  - simpl cells. rewrite sum_flat.
    transitivity (sumQ (map (fun c0 => sumQ (map (fun c => sumQ (map (fun cs => f (c0 :: cs ++ [c])) (cells Gs))) (intervals G))) (intervals g))).
    + apply sum_ext. intros c0 _. rewrite map_map, IH. reflexivity.
    + rewrite sum_swap. apply sum_ext. intros c _. rewrite sum_flat. apply sum_ext. intros c0 _. rewrite map_map. reflexivity.
Qed.
Lemma cells_length Gs cs : In cs (cells Gs) -> length cs = length Gs.
Proof.
  revert cs. induction Gs as [|g Gs IH]; intros cs H; [destruct H as [<-|[]]; reflexivity|].
  simpl in H. apply in_flat_map in H. destruct H as [c [_ H]]. apply in_map_iff in H. destruct H as [cs' [<- H]]. simpl. f_equal. now apply IH.
Qed.
Lemma volume_snoc cs c : volume (cs ++ [c]) == volume cs * (snd c - fst c).
Proof.
  induction cs as [|a cs IH]; [simpl; ring|].
  change (volume ((a :: cs) ++ [c])) with ((snd a - fst a) * volume (cs ++ [c])). rewrite IH.
  change (volume (a :: cs)) with ((snd a - fst a) * volume cs). ring.
Qed.
Lemma between_snoc ref y cs r v c : length ref = length cs -> length y = length cs ->
  between (ref ++ [r]) (y ++ [v]) (cs ++ [c]) = between ref y cs && (Qle_bool r (fst c) && Qle_bool (snd c) v).
Proof.
  revert y cs. induction ref as [|a ref IH]; intros [|b y] [|d cs] H1 H2; try discriminate; simpl.
  - now rewrite andb_true_r.
  - rewrite IH by (simpl in *; lia). now rewrite !andb_assoc.
Qed.
Lemma existsb_map {A B} (f : B -> bool) (g : A -> B) l : existsb f (map g l) = existsb (fun a => f (g a)) l.
Proof. induction l as [|a l IH]; simpl; [reflexivity|]. now rewrite IH. Qed.
Lemma existsb_and {A} (p q : A -> bool) l : existsb (fun a => p a && q a) l = existsb p (filter q l).
Proof. induction l as [|a l IH]; simpl; [reflexivity|]. rewrite IH. destruct (q a); simpl; [now rewrite andb_true_r|now rewrite andb_false_r]. Qed.
Lemma existsb_ext_In {A} (p q : A -> bool) l : (forall a, In a l -> p a = q a) -> existsb p l = existsb q l.
Proof. induction l as [|a l IH]; intros H; simpl; [reflexivity|]. rewrite (H a) by (now left). rewrite IH; [reflexivity|]. intros; apply H; now right. Qed.
Lemma existsb_false {A} (l : list A) : existsb (fun _ => false) l = false.
Proof. induction l; auto. Qed.
Lemma firstn_snoc {A} (l : list A) k d : (k < length l)%nat -> firstn (S k) l = firstn k l ++ [nth k l d].
Proof.
  revert k. induction l as [|a l IH]; intros k H; [simpl in H; lia|]. destruct k as [|k]; [reflexivity|].
  simpl. f_equal. apply IH. simpl in H. lia.
Qed.

Lemma measure_mes Gs ref (pt : nat -> list Q) k : (k <= length Gs)%nat -> length Gs = length ref ->
  forall T, (forall x, In x T -> length (pt x) = length ref) ->
  measure (firstn k Gs) (firstn k ref) (map (fun x => firstn k (pt x)) T) ==
  mes (fun j => nth j Gs []) (fun j => nth j ref 0) (fun x j => nth j (pt x) 0) k T.
Proof.
  intros Hk HG. induction k as [|k IH]; intros T HT.
  - unfold measure. simpl. rewrite existsb_map. destruct T; reflexivity.
  - unfold measure in *. simpl mes.
    rewrite (firstn_snoc Gs k []) by lia. rewrite (firstn_snoc ref k 0) by lia. rewrite sum_cells_snoc. apply sum_ext. intros c Hc.
    set (r := nth k ref 0).
    transitivity (sumQ (map (fun cs => if Qle_bool r (fst c) then (snd c - fst c) *
       (if existsb (fun y => between (firstn k ref) y cs) (map (fun x => firstn k (pt x)) (filter (fun x => Qle_bool (snd c) (nth k (pt x) 0)) T)) then volume cs else 0) else 0)
       (cells (firstn k Gs)))).
    + apply sum_ext. intros cs Hcs. apply cells_length in Hcs. rewrite firstn_length_le in Hcs by lia.
      assert (E : existsb (fun y => between (firstn k ref ++ [r]) y (cs ++ [c])) (map (fun x => firstn (S k) (pt x)) T) =
        Qle_bool r (fst c) && existsb (fun y => between (firstn k ref) y cs) (map (fun x => firstn k (pt x)) (filter (fun x => Qle_bool (snd c) (nth k (pt x) 0)) T))).
      { rewrite !existsb_map. rewrite <- existsb_and.
        destruct (Qle_bool r (fst c)) eqn:Er; simpl andb.
        - apply existsb_ext_In. intros x Hx. rewrite (firstn_snoc (pt x) k 0) by (rewrite (HT x Hx); lia).
          rewrite between_snoc by (rewrite ?firstn_length_le; rewrite ?(HT x Hx); lia). rewrite Er. reflexivity.
        - rewrite <- (existsb_false T). apply existsb_ext_In. intros x Hx. rewrite (firstn_snoc (pt x) k 0) by (rewrite (HT x Hx); lia).
          rewrite between_snoc by (rewrite ?firstn_length_le; rewrite ?(HT x Hx); lia). rewrite Er. simpl. apply andb_false_r. }
      rewrite E. destruct (Qle_bool r (fst c)); simpl andb; cbv iota; [|reflexivity].
      clear E. destruct (existsb _ _). 2:{ lra. } rewrite volume_snoc. ring.
    + destruct (Qle_bool r (fst c)); [|apply sum_zero]. rewrite sum_scale. rewrite <- IH; [reflexivity|lia|].
      intros x Hx. apply filter_In in Hx. apply HT, Hx.
Qed.

(** Points that are not at least as good as the reference add nothing. *)
Lemma between_ge ref y : forall Gs cs, (forall G, In G Gs -> ascending G) -> In cs (cells Gs) -> between ref y cs = true ->
  length y = length ref /\ forall k, (k < length ref)%nat -> nth k ref 0 <= nth k y 0.
Proof.
  revert y. induction ref as [|r ref IH]; intros [|v y] Gs cs HG Hcs; destruct cs as [|c cs]; try discriminate; intros B.
  - split; [reflexivity|]. simpl; intros; lia.
  - destruct Gs as [|g Gs]; [simpl in Hcs; destruct Hcs as [Hcs|[]]; discriminate|].
    simpl in Hcs. apply in_flat_map in Hcs. destruct Hcs as [c' [Hc' Hcs]]. apply in_map_iff in Hcs. destruct Hcs as [cs' [E Hcs]].
    injection E as -> ->. simpl in B. apply andb_true_iff in B. destruct B as [B B2]. apply andb_true_iff in B. destruct B as [B0 B1].
    apply Qle_bool_iff in B0, B1. pose proof (intervals_lt g c (HG g (or_introl eq_refl)) Hc').
    destruct (IH y Gs cs (fun G H => HG G (or_intror H)) Hcs B2) as [E1 E2]. split; [simpl; now rewrite E1|].
    intros [|k] Hk; simpl; [lra|]. apply E2. simpl in Hk. lia.
Qed.
Lemma measure_filter Gs ref Y (p : list Q -> bool) : (forall G, In G Gs -> ascending G) ->
  (forall y, In y Y -> length y = length ref -> (forall k, (k < length ref)%nat -> nth k ref 0 <= nth k y 0) -> p y = true) ->
  measure Gs ref Y == measure Gs ref (filter p Y).
Proof.
  intros HG Hp. unfold measure. apply sum_ext. intros cs Hcs.
  assert (E : existsb (fun y => between ref y cs) Y = existsb (fun y => between ref y cs) (filter p Y)); [|now rewrite E].
  rewrite <- existsb_and. apply existsb_ext_In. intros y Hy. destruct (between ref y cs) eqn:B; [|reflexivity].
  destruct (between_ge ref y Gs cs HG Hcs B) as [E1 E2]. now rewrite (Hp y Hy E1 E2).
Qed.
