(** Construction and concatenation of solution sets (Model_Sol.v). *)
From Coq Require Import Bool Arith ZArith QArith String List Lia.
From Verif Require Import Lib_List Model_Var Model_Opt Model_Sol Spec_Sol Proofs_Sol Proofs_SolOps Proofs_SolWrite.
Import ListNotations.
Open Scope nat_scope.

Local Arguments pick : simpl never.
Local Arguments read : simpl never.
Local Arguments grid : simpl never.

Definition xrows (x : xarg) : list (list val) := match x with XRow l => [l] | XRows l => l end.
Definition item_list (i : fitem) : list (option Q) := match i with FS f => [f] | FL l => l end.
Definition is_FS (i : fitem) : bool := match i with FS _ => true | FL _ => false end.
Definition nlist (N : nat) (n : narg) : list Z := match n with NScalar z => repeat z N | NSeq l => l end.
Definition ilist (N : nat) (i : iarg) : list string :=
  match i with INone => map str_nat (seq 0 N) | IOne s => [s] | ISeq l => l end.

Lemma sassert_ok b u : sassert b = SOk u -> b = true.
Proof. destruct b; simpl; auto; discriminate. Qed.

Lemma x_array_spec x a b : x_array x = SOk (a, b) ->
  (exists l, x = XRow l /\ a = A1 (seq 0 (List.length l)) /\ b = l /\ l <> []) \/
  (exists rows c, x = XRows rows /\ a = A2 (grid (List.length rows) c) c /\ b = List.concat rows /\
     Forall (fun r => List.length r = c) rows /\ rows <> [] /\ 1 <= c).
Proof.
  destruct x as [[|v l]|[|[|v l] rest]]; simpl; try discriminate.
  - destruct (is_tuple v); try discriminate. intro E; injection E as <- <-. left. exists (v :: l). repeat split; auto; discriminate.
  - destruct (forallb _ rest) eqn:F; try discriminate. intro E; injection E as <- <-. right.
    exists ((v :: l) :: rest), (S (List.length l)). repeat split; auto; try discriminate; try lia.
    constructor; auto. rewrite forallb_forall in F. apply Forall_forall. intros r I. apply Nat.eqb_eq, F; auto.
Qed.

Lemma fl_array_spec l a b : fl_array l = SOk (a, b) ->
  b = List.concat (map item_list l) /\
  ((Forall (fun i => is_FS i = true) l /\ a = A1 (seq 0 (List.length l)) /\ List.length b = List.length l) \/
   (exists c, Forall (fun i => is_FS i = false /\ List.length (item_list i) = c) l /\ l <> [] /\
      a = A2 (grid (List.length l) c) c)).
Proof.
  unfold fl_array.
  replace (fun i => match i with FS _ => true | FL _ => false end) with is_FS by reflexivity.
  assert (FM : flat_map (fun i => match i with FS f => [f] | FL l0 => l0 end) l = List.concat (map item_list l)).
  { rewrite flat_map_concat_map. reflexivity. }
  rewrite FM. destruct (forallb is_FS l) eqn:F.
  - intro E; injection E as <- <-. split; auto. left. rewrite forallb_forall in F. repeat split; auto.
    + apply Forall_forall; auto.
    + assert (F' : Forall (fun i => is_FS i = true) l) by (apply Forall_forall; auto). clear - F'.
      induction F' as [|i l E F IH]; simpl; auto. destruct i; try discriminate. simpl. auto.
  - destruct l as [|[f|r0] t]; try discriminate.
    set (t' := FL r0 :: t) in *. clear F. cbv zeta. intro E. destruct (forallb _ t') eqn:G in E; try discriminate.
    injection E as <- <-. split; auto. right. exists (List.length r0). repeat split; auto; try discriminate.
    rewrite forallb_forall in G. apply Forall_forall. intros i I. apply G in I. destruct i; try discriminate.
    apply Nat.eqb_eq in I. auto.
Qed.

Lemma check_fitness_ok N m f f' : check_fitness N m f = SOk f' ->
  List.length f' = N /\ (1 < m -> Forall (fun i => is_FS i = false /\ List.length (item_list i) = m) f').
Proof.
  unfold check_fitness. intro E.
  match type of E with sbind ?x _ = _ => destruct x as [f1|] eqn:K; simpl in E; try discriminate end.
  destruct (sassert (List.length f1 =? N)) eqn:A; simpl in E; try discriminate. injection E as <-.
  apply sassert_ok, Nat.eqb_eq in A. split; auto. intro M.
  destruct (Nat.ltb_spec 1 m); try lia.
  match type of K with sbind ?x _ = _ => destruct x as [f2|] eqn:K2; simpl in K; try discriminate end.
  destruct (forallb _ f2) eqn:F; try discriminate.
  match type of K with sbind ?x _ = _ => destruct x eqn:G; simpl in K; try discriminate end.
  injection K as <-. apply sassert_ok in G. rewrite forallb_forall in F, G. apply Forall_forall. intros i I.
  specialize (F i I). specialize (G i I). destruct i; try discriminate. apply Nat.eqb_eq in G. auto.
Qed.

Definition extends (h h' : heap) : Prop :=
  (exists b, hx h' = hx h ++ [b]) /\ (exists b, hf h' = hf h ++ [b]) /\ (exists b, hn h' = hn h ++ [b]) /\
  (exists b, hi h' = hi h ++ [b]).
Definition fresh_sol (h : heap) (s : sol) : Prop :=
  xr s = List.length (hx h) /\ fr s = List.length (hf h) /\ nr s = List.length (hn h) /\ ir s = List.length (hi h).

Lemma concat_rows_length {A} (f : fitem -> list A) l c :
  Forall (fun i => is_FS i = false /\ List.length (f i) = c) l -> Forall (fun r => List.length r = c) (map f l).
Proof. induction 1; simpl; constructor; tauto. Qed.

Lemma new_spec h x f n i v g m s h' :
  new h x f n i v g m = SOk (s, h') ->
  exists f', check_fitness (List.length (xrows x)) m f = SOk f' /\
    values h' s = xrows x /\ fits h' s = map item_list f' /\ evals h' s = nlist (List.length (xrows x)) n /\
    labels h' s = ilist (List.length (xrows x)) i /\ fresh_sol h s /\ extends h h' /\
    nobj s = m /\ List.length (vn s) = sdim s /\ (forall l, v = Some l -> vn s = l) /\ (forall l, g = Some l -> fnm s = l) /\
    (is_2d s <-> exists rows, x = XRows rows) /\
    (1 <= m -> (m = 1 -> Forall (fun i => is_FS i = true) f') ->
     List.length (nlist (List.length (xrows x)) n) = List.length (xrows x) -> wf h' s).
Proof.
  unfold new. intro E.
  destruct (x_array x) as [[ax bx]|] eqn:X; cbn [sbind] in E; try discriminate.
  assert (NN : match ax with A1 _ => 1 | A2 rs _ => List.length rs end = List.length (xrows x)).
  { apply x_array_spec in X. destruct X as [[l [-> [-> _]]]|[rows [c [-> [-> _]]]]]; simpl; auto. apply grid_length. }
  cbv zeta in E. rewrite NN in E. set (N := List.length (xrows x)) in *.
  destruct (check_fitness N m f) as [f'|] eqn:F; cbn [sbind] in E; try discriminate.
  fold (nlist N n) in E. fold (ilist N i) in E.
  destruct (sassert (List.length (ilist N i) =? N)) eqn:AI; cbn [sbind] in E; try discriminate.
  match type of E with sbind (sassert (?a =? ?b)) _ = _ => destruct (sassert (a =? b)) eqn:AV; cbn [sbind] in E; try discriminate end.
  match type of E with sbind (sassert (?a =? ?b)) _ = _ => destruct (sassert (a =? b)) eqn:AG; cbn [sbind] in E; try discriminate end.
  destruct (fl_array f') as [[af bf]|] eqn:FA; cbn [sbind] in E; try discriminate.
  injection E as <- <-.
  apply sassert_ok, Nat.eqb_eq in AI. apply sassert_ok, Nat.eqb_eq in AV. apply sassert_ok, Nat.eqb_eq in AG.
  destruct (check_fitness_ok _ _ _ _ F) as [LF FF].
  apply fl_array_spec in FA. destruct FA as [-> FA].
  exists f'. apply x_array_spec in X.
  assert (VX : values (mkHeap (hx h ++ [bx]) (hf h ++ [List.concat (map item_list f')]) (hn h ++ [nlist N n]) (hi h ++ [(str_width (ilist N i), ilist N i)]))
     (mkSol (List.length (hx h)) ax (List.length (hf h)) af (List.length (hn h)) (seq 0 (List.length (nlist N n))) (List.length (hi h))
        (seq 0 (List.length (ilist N i))) (match v with Some l => l | None => if match ax with A1 ps => List.length ps | A2 _ c => c end =? 1 then ["x"%string] else map (fun i => String.append "x" (str_nat i)) (seq 0 (match ax with A1 ps => List.length ps | A2 _ c => c end)) end)
        (match g with Some l => l | None => if m =? 1 then ["f"%string] else map (fun i => String.append "f" (str_nat i)) (seq 0 m) end) m) = xrows x).
  { destruct X as [[l [-> [-> [-> _]]]]|[rows [c [-> [-> [-> [C _]]]]]]]; unfold values, row_list; simpl.
    - f_equal. apply fresh_read.
    - apply fresh_rows; auto. }
  repeat match goal with |- _ /\ _ => split end; auto.
  - unfold fits; simpl. rewrite buf_app_new.
    destruct FA as [[A [-> L]]|[c [A [NE ->]]]].
    + assert (EQ : map item_list f' = map (fun a => [a]) (List.concat (map item_list f'))).
      { clear - A. induction A as [|i f' E A IH]; simpl; auto. destruct i; try discriminate. simpl. f_equal. auto. }
      destruct X as [[l [-> [-> _]]]|[rows [c [-> [-> _]]]]]; simpl.
      * simpl in N. subst N. rewrite <- L, (read_eq _ _ _ (selects_seq _)).
        destruct f' as [|i1 [|i2 f']]; try discriminate. simpl. rewrite app_nil_r. auto.
      * rewrite <- L, map_singletons. symmetry. exact EQ.
    + assert (R : map (read (List.concat (map item_list f'))) (grid (List.length f') c) = map item_list f').
      { rewrite <- (map_length item_list f'). apply grid_read. apply concat_rows_length. auto. }
      destruct X as [[l [-> [-> _]]]|[rows [c' [-> [-> _]]]]]; simpl; exact R.
  - unfold evals, n_list; simpl. apply fresh_read.
  - unfold labels, i_list; simpl. rewrite lbuf_snd, map_snd_app.
    replace (List.length (hi h)) with (List.length (map snd (hi h))) by apply map_length. apply fresh_read.
  - repeat split.
  - repeat split; simpl; eauto.
  - intros l ->. reflexivity.
  - intros l ->. reflexivity.
  - unfold is_2d; simpl. destruct X as [[l [-> [-> _]]]|[rows [c [-> [-> _]]]]].
    + split; [tauto|]. intros [rows R]. discriminate.
    + split; eauto.
  - intros M1 MF LN. unfold wf; simpl. rewrite map_snd_app.
    repeat match goal with |- _ /\ _ => split end; auto.
    + destruct X as [[l [-> [-> [-> _]]]]|[rows [c [-> [-> [-> [C _]]]]]]].
      * apply wf_fresh1; auto.
      * apply wf_fresh2. apply concat_length; auto.
    + destruct FA as [[A [-> L]]|[c [A [NE ->]]]].
      * apply wf_fresh1; auto.
      * apply wf_fresh2. rewrite (concat_length _ c). rewrite map_length; auto. apply concat_rows_length; auto.
    + apply wf_fresh1; auto.
    + replace (List.length (hi h)) with (List.length (map snd (hi h))) by apply map_length. apply wf_fresh1; auto.
    + unfold wf_fit; simpl.
      assert (M : m = 1 /\ af = A1 (seq 0 N) \/ 1 < m /\ af = A2 (grid N m) m).
      { destruct (Nat.eq_dec m 1) as [Hm|Hm].
        - left. split; auto. destruct FA as [[A [-> L]]|[c [A [NE ->]]]]. rewrite LF; auto.
          specialize (MF Hm). destruct f' as [|i0 f']; [congruence|]. inversion MF; inversion A; subst. destruct H5. congruence.
        - right. split; [lia|]. assert (M2 : 1 < m) by lia. specialize (FF M2).
          assert (NE : f' <> []).
          { intros ->. simpl in LF. subst N. destruct X as [[l [-> _]]|[rows [c [-> [_ [_ [_ [NE _]]]]]]]]; simpl in LF; [lia|destruct rows; [congruence|discriminate]]. }
          destruct FA as [[A [-> L]]|[c [A [_ ->]]]].
          + destruct f' as [|i0 f']; [congruence|]. inversion FF; inversion A; subst. destruct H1. congruence.
          + assert (EM : c = m). { destruct f' as [|i0 f']; [congruence|]. apply Forall_inv in FF, A. destruct FF, A. congruence. }
            rewrite EM, LF. auto. }
      destruct X as [[l [-> [-> _]]]|[rows [c [-> [-> _]]]]]; simpl in *; destruct M as [[-> ->]|[M ->]]; rewrite ?seq_length, ?grid_length; auto.
    + unfold sN; simpl. rewrite seq_length. rewrite LN. auto.
    + unfold sN; simpl. rewrite seq_length. rewrite AI. auto.
Qed.
