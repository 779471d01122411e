(** Proofs about the paths of condition trees. *)
From Coq Require Import Bool Arith String List Lia FinFun.
From Verif Require Import Lib_List Model_Node Spec_Node Proofs_Node.
Import ListNotations.
Open Scope nat_scope.

#[local] Arguments key_eqb : simpl never.
Lemma key_eqb_eq a b : key_eqb a b = true <-> a = b.
Proof. unfold key_eqb. destruct (list_eq_dec string_dec a b); split; congruence. Qed.
Lemma key_eqb_refl a : key_eqb a a = true.
Proof. apply key_eqb_eq. reflexivity. Qed.
Lemma key_eqb_neq a b : a <> b -> key_eqb a b = false.
Proof. intro H. apply not_true_is_false. rewrite key_eqb_eq. exact H. Qed.

(** * Dictionaries keyed by conditions *)
Lemma pget_pset d k v c : pget (pset d k v) c = if key_eqb k c then Some v else pget d c.
Proof.
  induction d as [|[x w] d IH]; simpl; [reflexivity|]. destruct (key_eqb x k) eqn:E; simpl.
  - apply key_eqb_eq in E. subst x. destruct (key_eqb k c); reflexivity.
  - rewrite IH. destruct (key_eqb x c) eqn:F; [|reflexivity]. apply key_eqb_eq in F. subst x.
    destruct (key_eqb k c) eqn:G; [|reflexivity]. apply key_eqb_eq in G. subst k. rewrite key_eqb_refl in E. discriminate.
Qed.
Lemma pset_keys d k v c : In c (map fst (pset d k v)) <-> In c (map fst d) \/ c = k.
Proof.
  induction d as [|[x w] d IH]; simpl.
  - split; [intros [->|[]]; auto|intros [[]| ->]; auto].
  - destruct (key_eqb x k) eqn:E; simpl.
    + apply key_eqb_eq in E. subst x. split; [tauto|]. intros [H| ->]; auto.
    + rewrite IH. tauto.
Qed.
Lemma pset_NoDup d k v : NoDup (map fst d) -> NoDup (map fst (pset d k v)).
Proof.
  induction d as [|[x w] d IH]; simpl; intro H; [constructor; [intros []|constructor]|]. inversion H as [|? ? H1 H2]; subst.
  destruct (key_eqb x k) eqn:E; simpl; [constructor; assumption|]. constructor; [|auto].
  rewrite pset_keys. intros [I|I]; [contradiction|]. subst x. rewrite key_eqb_refl in E. discriminate.
Qed.
Lemma pget_In d k v : NoDup (map fst d) -> (pget d k = Some v <-> In (k, v) d).
Proof.
  induction d as [|[x w] d IH]; simpl; intro H; [split; [discriminate|tauto]|]. inversion H as [|? ? H1 H2]; subst.
  destruct (key_eqb x k) eqn:E.
  - apply key_eqb_eq in E. subst x. split; [intro F; injection F as <-; auto|]. intros [F|F]; [congruence|].
    exfalso. apply H1. apply (in_map fst) in F. exact F.
  - rewrite IH by exact H2. split; [auto|]. intros [F|F]; [|exact F]. injection F as -> ->. rewrite key_eqb_refl in E. discriminate.
Qed.
Lemma pget_keys d k : pget d k = None <-> ~ In k (map fst d).
Proof.
  induction d as [|[x w] d IH]; simpl; [tauto|]. destruct (key_eqb x k) eqn:E.
  - apply key_eqb_eq in E. split; [discriminate|tauto].
  - rewrite IH. split; [|tauto]. intros H [F|F]; [|tauto]. subst. rewrite key_eqb_refl in E. discriminate.
Qed.
Lemma pset_new d k v : ~ In k (map fst d) -> pset d k v = d ++ [(k, v)].
Proof.
  induction d as [|[x w] d IH]; simpl; intro H; [reflexivity|]. destruct (key_eqb x k) eqn:E.
  - apply key_eqb_eq in E. tauto.
  - rewrite IH by tauto. reflexivity.
Qed.
Definition pupdate (d e : pdict) : pdict := fold_left (fun d kv => pset d (fst kv) (snd kv)) e d.
Lemma pupdate_NoDup e : forall d, NoDup (map fst d) -> NoDup (map fst (pupdate d e)).
Proof. unfold pupdate. induction e as [|kv e IH]; intros d H; simpl; [exact H|]. apply IH. apply pset_NoDup. exact H. Qed.
Lemma pupdate_get e : NoDup (map fst e) -> forall d c, pget (pupdate d e) c = match pget e c with Some v => Some v | None => pget d c end.
Proof.
  unfold pupdate. induction e as [|[k v] e IH]; intros N d c; simpl in *; [reflexivity|]. inversion N as [|? ? N1 N2]; subst.
  rewrite IH by exact N2. rewrite pget_pset. destruct (key_eqb k c) eqn:E; [|reflexivity].
  apply key_eqb_eq in E. subst k. assert (pget e c = None) as -> by (apply pget_keys; exact N1). reflexivity.
Qed.
Lemma pupdate_new e : forall d, NoDup (map fst (d ++ e)) -> pupdate d e = d ++ e.
Proof.
  unfold pupdate. induction e as [|[k v] e IH]; intros d N; simpl; [rewrite app_nil_r; reflexivity|].
  rewrite pset_new.
  - rewrite IH; [rewrite <- app_assoc; reflexivity|]. rewrite <- app_assoc. exact N.
  - intro I. rewrite map_app in N. simpl in N. eapply NoDup_app_dis; [exact N|exact I|left; reflexivity].
Qed.

(** * Selection of values by key from a list of (key, value) items *)
Definition sel (c : list string) (l : list (list string * string)) : list string :=
  map snd (filter (fun q => key_eqb (fst q) c) l).
Lemma sel_app c l m : sel c (l ++ m) = sel c l ++ sel c m.
Proof. unfold sel. rewrite filter_app', map_app. reflexivity. Qed.
Lemma sel_flat_map {A} c (f : A -> list (list string * string)) l : sel c (flat_map f l) = flat_map (fun x => sel c (f x)) l.
Proof. induction l as [|x l IH]; simpl; [reflexivity|]. rewrite sel_app, IH. reflexivity. Qed.
Definition opt (l : list string) : option (list string) := match l with [] => None | _ => Some l end.
Definition expand (items : pdict) : list (list string * string) := flat_map (fun kv => map (pair (fst kv)) (snd kv)) items.

Lemma merge_fold items : forall m,
  fold_left (fun m kv => fold_left (fun m vv => pappend m (fst kv) vv) (snd kv) m) items m
  = fold_left (fun m q => pappend m (fst q) (snd q)) (expand items) m.
Proof.
  induction items as [|[k v] items IH]; intro m; simpl; [reflexivity|]. rewrite IH, fold_left_app. f_equal.
  clear. revert m. induction v as [|x v IH]; intro m; simpl; [reflexivity|]. apply IH.
Qed.
Lemma merge_get l : forall m c, (forall k, pget m k <> Some []) ->
  pget (fold_left (fun m q => pappend m (fst q) (snd q)) l m) c =
  opt (match pget m c with Some v => v | None => [] end ++ sel c l).
Proof.
  induction l as [|[k x] l IH]; intros m c H; simpl.
  - rewrite app_nil_r. specialize (H c). destruct (pget m c) as [[|]|]; [congruence|reflexivity|reflexivity].
  - rewrite IH.
    + f_equal. unfold pappend. rewrite pget_pset. unfold sel. simpl. destruct (key_eqb k c) eqn:E; [|reflexivity].
      apply key_eqb_eq in E. subst k. simpl. rewrite <- app_assoc. reflexivity.
    + intros k'. unfold pappend. rewrite pget_pset. destruct (key_eqb k k'); [|apply H]. intro Q. injection Q as Q.
      destruct (match pget m k with Some l0 => l0 | None => [] end); discriminate.
Qed.
Lemma merge_NoDup l : forall m, NoDup (map fst m) -> NoDup (map fst (fold_left (fun m q => pappend m (fst q) (snd q)) l m)).
Proof. induction l as [|q l IH]; intros m H; simpl; [exact H|]. apply IH. apply pset_NoDup. exact H. Qed.

Lemma sel_expand_dict d c : NoDup (map fst d) -> sel c (expand d) = match pget d c with Some v => v | None => [] end.
Proof.
  unfold expand. induction d as [|[k v] d IH]; simpl; intro H; [reflexivity|]. inversion H as [|? ? H1 H2]; subst.
  rewrite sel_app, IH by exact H2. unfold sel at 1.
  assert (F : map snd (filter (fun q => key_eqb (fst q) c) (map (pair k) v)) = if key_eqb k c then v else []).
  { clear. induction v as [|x v IH]; simpl; [destruct (key_eqb k c); reflexivity|]. destruct (key_eqb k c); simpl; rewrite IH; reflexivity. }
  rewrite F. destruct (key_eqb k c) eqn:E; [|reflexivity]. apply key_eqb_eq in E. subst k.
  assert (pget d c = None) as -> by (apply pget_keys; exact H1). apply app_nil_r.
Qed.

Lemma fold_left_ext {A B} (f g : A -> B -> A) : (forall a b, f a b = g a b) -> forall l a, fold_left f l a = fold_left g l a.
Proof. intros H l. induction l as [|b l IH]; intro a; simpl; [reflexivity|]. rewrite H. apply IH. Qed.

(** * all_paths *)
Section Paths.
Variable set_of : list string -> list string.
Hypothesis set_NoDup : forall l, NoDup (set_of l).
Hypothesis set_In : forall l x, In x (set_of l) <-> In x l.

(** The items of one child below a branch. *)
Definition child_items (br : string) (c : tree) : pdict :=
  map (fun pv => match fst pv with [] => ([br], [tname c]) | p => (br :: p, snd pv) end) (all_paths set_of c).
Definition branch_items (br : string) (cs : list (string * tree)) : pdict :=
  flat_map (fun c => if String.eqb (fst c) br then child_items br (snd c) else []) cs.
Definition merged (items : pdict) : pdict := fold_left (fun m q => pappend m (fst q) (snd q)) (expand items) [].
Lemma all_paths_node n c cs : all_paths set_of (Node n (c :: cs)) =
  fold_left (fun path br => pupdate path (merged (branch_items br (c :: cs)))) (set_of (map fst (c :: cs))) [].
Proof.
  cbn [all_paths]. apply fold_left_ext. intros path br. unfold pupdate, merged. rewrite <- merge_fold. reflexivity.
Qed.

Lemma leaves_node n c cs : leaves (Node n (c :: cs)) = flat_map (fun p => map (fun q => (fst p :: fst q, snd q)) (leaves (snd p))) (c :: cs).
Proof. reflexivity. Qed.
Lemma sel_cons br p c l : sel (br :: c) (map (fun q : list string * string => (p :: fst q, snd q)) l) = if String.eqb p br then sel c l else [].
Proof.
  unfold sel. induction l as [|[k x] l IH]; simpl; [destruct (String.eqb p br); reflexivity|].
  destruct (String.eqb p br) eqn:E.
  - apply String.eqb_eq in E. subst p. assert (Q : key_eqb (br :: k) (br :: c) = key_eqb k c).
    { apply eq_true_iff_eq. rewrite !key_eqb_eq. split; congruence. }
    rewrite Q. destruct (key_eqb k c); simpl; rewrite IH; reflexivity.
  - apply String.eqb_neq in E. rewrite key_eqb_neq by congruence. exact IH.
Qed.
Lemma sel_cons_nil p l : sel [] (map (fun q : list string * string => (p :: fst q, snd q)) l) = [].
Proof. unfold sel. induction l as [|[k x] l IH]; simpl; [reflexivity|]. exact IH. Qed.

Lemma leaves_nil n c cs : sel [] (leaves (Node n (c :: cs))) = [].
Proof.
  rewrite leaves_node, sel_flat_map. induction (c :: cs) as [|x l IH]; [reflexivity|]. cbn [flat_map]. rewrite sel_cons_nil. exact IH.
Qed.
Lemma leaves_branch n cs br c : cs <> [] -> sel (br :: c) (leaves (Node n cs)) =
  flat_map (fun p => if String.eqb (fst p) br then sel c (leaves (snd p)) else []) cs.
Proof.
  intro H. destruct cs as [|x cs]; [congruence|]. rewrite leaves_node, sel_flat_map. apply flat_map_ext. intro p. apply sel_cons.
Qed.

(** For every tree: the paths of an internal tree are the leaves grouped by their conditions. *)
Lemma all_paths_spec : forall t, children t <> [] ->
  NoDup (map fst (all_paths set_of t)) /\ forall c, pget (all_paths set_of t) c = opt (sel c (leaves t)).
Proof.
  apply (tree_ind' (fun t => children t <> [] ->
    NoDup (map fst (all_paths set_of t)) /\ forall c, pget (all_paths set_of t) c = opt (sel c (leaves t)))).
  intros n cs IH NE. cbn [children] in NE.
  (* items of one child *)
  assert (CI : forall x, In x cs -> forall br c, sel c (expand (child_items br (snd x))) =
            match c with b :: c' => if String.eqb br b then sel c' (leaves (snd x)) else [] | [] => [] end).
  { intros x Hx br c. destruct (snd x) as [m ds] eqn:Ex. destruct ds as [|d0 ds0].
    - unfold child_items. simpl. unfold sel. simpl. destruct c as [|b c']; [rewrite key_eqb_neq by discriminate; reflexivity|].
      destruct (String.eqb br b) eqn:E.
      + apply String.eqb_eq in E. subst b. assert (Q : key_eqb [br] (br :: c') = key_eqb [] c').
        { apply eq_true_iff_eq. rewrite !key_eqb_eq. split; congruence. }
        rewrite Q. destruct (key_eqb [] c'); reflexivity.
      + apply String.eqb_neq in E. rewrite key_eqb_neq by congruence. reflexivity.
    - destruct (IH x Hx) as [N G]; [rewrite Ex; discriminate|]. rewrite Ex in N, G. remember (Node m (d0 :: ds0)) as t eqn:Et.
      assert (E0 : ~ In [] (map fst (all_paths set_of t))).
      { apply pget_keys. rewrite G, Et, leaves_nil. reflexivity. }
      assert (EI : child_items br t = map (fun pv => (br :: fst pv, snd pv)) (all_paths set_of t)).
      { unfold child_items. apply map_ext_in. intros [[|p ps] v] Hp; [|reflexivity]. exfalso. apply E0. apply (in_map fst) in Hp. exact Hp. }
      rewrite EI. assert (EX : expand (map (fun pv => (br :: fst pv, snd pv)) (all_paths set_of t)) =
                       map (fun q : list string * string => (br :: fst q, snd q)) (expand (all_paths set_of t))).
      { unfold expand. clear. induction (all_paths set_of t) as [|[k v] l IHl]; simpl; [reflexivity|]. rewrite map_app, IHl. f_equal.
        rewrite map_map. reflexivity. }
      rewrite EX. destruct c as [|b c']; [apply sel_cons_nil|]. rewrite sel_cons, sel_expand_dict by exact N. rewrite G.
      destruct (String.eqb br b); [|reflexivity]. destruct (sel c' (leaves t)); reflexivity. }
  assert (BI : forall br c, sel c (expand (branch_items br cs)) =
            match c with b :: c' => if String.eqb br b then sel c (leaves (Node n cs)) else [] | [] => [] end).
  { intros br c. assert (EB : expand (branch_items br cs) = flat_map (fun x => if String.eqb (fst x) br then expand (child_items br (snd x)) else []) cs).
    { unfold branch_items, expand. clear. induction cs as [|x cs IHc]; simpl; [reflexivity|]. rewrite flat_map_app, IHc. f_equal.
      destruct (String.eqb (fst x) br); reflexivity. }
    rewrite EB, sel_flat_map. destruct c as [|b c'].
    - assert (Z : forall l, (forall x, In x l -> In x cs) -> flat_map (fun x => sel [] (if String.eqb (fst x) br then expand (child_items br (snd x)) else [])) l = []).
      { induction l as [|x l IHl]; intro Hl; simpl; [reflexivity|]. rewrite IHl by (intros; apply Hl; right; assumption). rewrite app_nil_r.
        destruct (String.eqb (fst x) br); [apply (CI x (Hl x (or_introl eq_refl)) br [])|reflexivity]. }
      apply Z. auto.
    - rewrite leaves_branch by exact NE. destruct (String.eqb br b) eqn:Eb.
      + apply String.eqb_eq in Eb. subst b. assert (Z : forall l, (forall x, In x l -> In x cs) ->
          flat_map (fun x => sel (br :: c') (if String.eqb (fst x) br then expand (child_items br (snd x)) else [])) l =
          flat_map (fun p => if String.eqb (fst p) br then sel c' (leaves (snd p)) else []) l).
        { induction l as [|x l IHl]; intro Hl; simpl; [reflexivity|]. rewrite IHl by (intros; apply Hl; right; assumption). f_equal.
          destruct (String.eqb (fst x) br); [|reflexivity]. rewrite (CI x (Hl x (or_introl eq_refl)) br). rewrite String.eqb_refl. reflexivity. }
        apply Z. auto.
      + assert (Z : forall l, (forall x, In x l -> In x cs) -> flat_map (fun x => sel (b :: c') (if String.eqb (fst x) br then expand (child_items br (snd x)) else [])) l = []).
        { induction l as [|x l IHl]; intro Hl; simpl; [reflexivity|]. rewrite IHl by (intros; apply Hl; right; assumption). rewrite app_nil_r.
          destruct (String.eqb (fst x) br); [|reflexivity]. rewrite (CI x (Hl x (or_introl eq_refl)) br), Eb. reflexivity. }
        apply Z. auto. }
  assert (MG : forall br c, pget (merged (branch_items br cs)) c = opt (sel c (expand (branch_items br cs)))).
  { intros br c. unfold merged. rewrite merge_get by discriminate. reflexivity. }
  assert (MN : forall br, NoDup (map fst (merged (branch_items br cs)))) by (intro br; apply merge_NoDup; constructor).
  assert (FL : forall l path, NoDup l -> NoDup (map fst path) ->
     NoDup (map fst (fold_left (fun path br => pupdate path (merged (branch_items br cs))) l path)) /\
     forall c, pget (fold_left (fun path br => pupdate path (merged (branch_items br cs))) l path) c =
       match c with
       | b :: c' => if in_dec string_dec b l then match opt (sel c (leaves (Node n cs))) with Some v => Some v | None => pget path c end else pget path c
       | [] => pget path c
       end).
  { induction l as [|br l IHl]; intros path Nl Np.
    - simpl. split; [exact Np|]. intros [|b c']; reflexivity.
    - inversion Nl as [|? ? N1 N2]; subst. cbn [fold_left]. destruct (IHl (pupdate path (merged (branch_items br cs))) N2 (pupdate_NoDup _ _ Np)) as [A B].
      split; [exact A|]. intro c. rewrite B. destruct c as [|b c'].
      + rewrite pupdate_get by apply MN. rewrite MG, BI. reflexivity.
      + rewrite pupdate_get by apply MN. rewrite MG, BI. destruct (String.eqb br b) eqn:Eb.
        * apply String.eqb_eq in Eb. subst b. destruct (in_dec string_dec br l) as [I|I]; [contradiction|].
          destruct (in_dec string_dec br (br :: l)) as [J|J]; [reflexivity|]. exfalso. apply J. left. reflexivity.
        * apply String.eqb_neq in Eb. cbn [opt]. destruct (in_dec string_dec b l) as [I|I], (in_dec string_dec b (br :: l)) as [J|J]; try reflexivity.
          -- exfalso. apply J. right. exact I.
          -- destruct J as [J|J]; [congruence|contradiction]. }
  destruct cs as [|x cs]; [congruence|]. remember (x :: cs) as ds eqn:Eds.
  assert (EA : all_paths set_of (Node n ds) = fold_left (fun path br => pupdate path (merged (branch_items br ds))) (set_of (map fst ds)) [])
    by (subst ds; apply all_paths_node).
  rewrite EA. destruct (FL (set_of (map fst ds)) [] (set_NoDup _) (NoDup_nil _)) as [A B]. split; [exact A|].
  intro c. rewrite B. destruct c as [|b c'].
  - subst ds. rewrite leaves_nil. reflexivity.
  - cbn [pget]. destruct (in_dec string_dec b (set_of (map fst ds))) as [I|I].
    + destruct (opt (sel (b :: c') (leaves (Node n ds)))); reflexivity.
    + assert (sel (b :: c') (leaves (Node n ds)) = []) as ->; [|reflexivity]. rewrite leaves_branch by exact NE.
      assert (Hb : ~ In b (map fst ds)) by (rewrite <- set_In; exact I). clear - Hb. induction ds as [|y ds IHd]; [reflexivity|].
      cbn [flat_map]. simpl in Hb. destruct (String.eqb (fst y) b) eqn:E; [apply String.eqb_eq in E; tauto|]. apply IHd. tauto.
Qed.

(** * Outcomes *)
Lemma flat_map_filter {A B} (P : A -> bool) (f : A -> list B) l :
  flat_map (fun x => if P x then f x else []) l = flat_map f (filter P l).
Proof. induction l as [|x l IH]; simpl; [reflexivity|]. destruct (P x); simpl; rewrite IH; reflexivity. Qed.
Lemma outcomes_leaves : forall g, (forall t, In t g -> children t = []) -> forall p v,
  outcomes g p v <-> p = [] /\ v = map tname g.
Proof.
  induction g as [|t g IH]; intros H p v.
  - split; [intro O; inversion O; subst; auto|]. intros [-> ->]. constructor.
  - assert (Ht := H t (or_introl eq_refl)). destruct t as [n cs]. simpl in Ht. subst cs.
    split.
    + intro O. inversion O as [|? ? p1 v1 p2 v2 O1 O2]; subst. inversion O1 as [|? ? ? ? ? I]; subst; [|destruct I].
      apply IH in O2; [|intros; apply H; right; assumption]. destruct O2 as [-> ->]. auto.
    + intros [-> ->]. simpl. apply (outcomes_cons (Node n []) g [] [n] [] (map tname g)); [constructor|].
      apply IH; [intros; apply H; right; assumption|]. auto.
Qed.
Lemma sel_leaves_leaf c t : children t = [] -> sel c (leaves t) = match c with [] => [tname t] | _ => [] end.
Proof.
  destruct t as [n cs]. simpl. intros ->. unfold sel. simpl. destruct c; reflexivity.
Qed.

Lemma outcome_simple : forall t, simple t -> forall p v, outcome t p v <-> v = sel p (leaves t) /\ v <> [].
Proof.
  apply (tree_ind' (fun t => simple t -> forall p v, outcome t p v <-> v = sel p (leaves t) /\ v <> [])).
  intros n cs IH HS p v. inversion HS as [? ? HC HB]; subst. destruct cs as [|c0 cs0].
  - rewrite (sel_leaves_leaf p (Node n []) eq_refl). split.
    + intro O. inversion O as [|? ? ? ? ? I]; subst; [|destruct I]. split; [reflexivity|discriminate].
    + intros [-> N]. destruct p; [constructor|congruence].
  - remember (c0 :: cs0) as cs eqn:Ecs. assert (NE : cs <> []) by (subst; discriminate).
    destruct p as [|br p].
    { subst cs. rewrite leaves_nil. split; [intro O; inversion O|intros [-> N]; congruence]. }
    rewrite (leaves_branch n cs br p NE), flat_map_filter.
    set (g := filter (fun c => String.eqb (fst c) br) cs).
    assert (OC : outcome (Node n cs) (br :: p) v <-> In br (map fst cs) /\ outcomes (map snd g) p v).
    { split; [intro O; inversion O; subst; auto|]. intros [I O]. constructor; assumption. }
    rewrite OC. clear OC.
    assert (GI : forall x, In x g -> In x cs /\ fst x = br).
    { intros x Hx. apply filter_In in Hx. rewrite String.eqb_eq in Hx. exact Hx. }
    destruct (in_dec string_dec br (map fst cs)) as [I|I].
    + assert (GN : g <> []).
      { apply in_map_iff in I. destruct I as (x&E&Hx). intro Q. assert (J : In x g) by (apply filter_In; rewrite String.eqb_eq; auto). rewrite Q in J. destruct J. }
      destruct (HB br I) as [L|L].
      * rewrite outcomes_leaves.
        -- assert (FM : flat_map (fun x => sel p (leaves (snd x))) g = match p with [] => map tname (map snd g) | _ => [] end).
           { assert (LL : forall x, In x g -> children (snd x) = []) by (intros x Hx; apply L; apply (GI x Hx)). clear - LL.
             induction g as [|x g IH]; [destruct p; reflexivity|]. cbn [flat_map map]. rewrite IH by (intros; apply LL; right; assumption).
             rewrite (sel_leaves_leaf p (snd x) (LL x (or_introl eq_refl))). destruct p; reflexivity. }
           rewrite FM. split.
           ++ intros [_ [-> ->]]. split; [reflexivity|]. destruct g; [congruence|discriminate].
           ++ intros [-> N]. destruct p; [auto|congruence].
        -- intros t Ht. apply in_map_iff in Ht. destruct Ht as (x&<-&Hx). apply L; apply (GI x Hx).
      * fold g in L. destruct g as [|x [|? ?]]; try discriminate. destruct (GI x (or_introl eq_refl)) as [Ix _].
        cbn [map flat_map]. rewrite app_nil_r. rewrite <- (IH x Ix (HC x Ix)). split.
        -- intros [_ O]. inversion O as [|? ? p1 v1 p2 v2 O1 O2]; subst. inversion O2; subst. rewrite !app_nil_r. exact O1.
        -- intro O. split; [exact I|]. rewrite <- (app_nil_r p), <- (app_nil_r v). constructor; [exact O|constructor].
    + split; [intros [J _]; contradiction|]. intros [-> N]. exfalso. apply N.
      assert (g = []) as ->; [|reflexivity]. destruct g as [|x g']; [reflexivity|]. exfalso. apply I.
      destruct (GI x (or_introl eq_refl)) as [J <-]. apply in_map. exact J.
Qed.

Lemma outcome_paths t p v : simple t -> children t <> [] -> (In (p, v) (all_paths set_of t) <-> outcome t p v).
Proof.
  intros HS NE. destruct (all_paths_spec t NE) as [N G]. rewrite <- (pget_In _ _ _ N), G, (outcome_simple t HS p v).
  destruct (sel p (leaves t)) as [|x l]; simpl; split.
  - discriminate.
  - intros [-> Q]. congruence.
  - intro Q. injection Q as <-. split; [reflexivity|discriminate].
  - intros [-> _]. reflexivity.
Qed.
Lemma outcome_conditions : forall t p v, outcome t p v -> incl p (conditions t).
Proof.
  apply (tree_ind' (fun t => forall p v, outcome t p v -> incl p (conditions t))). intros n cs IH p v O.
  inversion O as [|? ? br p' ? I OS]; subst; [intros x []|]. intros x [<-|Hx].
  - apply in_map_iff in I. destruct I as (c&E&Hc). simpl. apply in_flat_map. exists c. split; [exact Hc|left; exact E].
  - assert (G : forall g, (forall c, In c g -> In c cs) -> forall p v, outcomes (map snd g) p v -> incl p (conditions (Node n cs))).
    { clear - IH. induction g as [|c g IHg]; intros Hg p v O; inversion O as [|? ? p1 v1 p2 v2 O1 O2]; subst; [intros x []|].
      intros x Hx. apply in_app_or in Hx. destruct Hx as [Hx|Hx].
      - simpl. apply in_flat_map. exists c. split; [apply Hg; left; reflexivity|]. right.
        exact (IH c (Hg c (or_introl eq_refl)) _ _ O1 x Hx).
      - refine (IHg _ p2 v2 O2 x Hx). intros; apply Hg; right; assumption. }
    refine (G (filter (fun c => String.eqb (fst c) br) cs) _ p' v OS x Hx). intros c Hc. apply filter_In in Hc. apply Hc.
Qed.

Lemma decode {A} (P Q : A -> Prop) : (forall x, P x -> Q x -> False) -> forall a b a' b' : list A,
  (forall x, In x a -> P x) -> (forall x, In x a' -> P x) -> (forall x, In x b -> Q x) -> (forall x, In x b' -> Q x) ->
  a ++ b = a' ++ b' -> a = a' /\ b = b'.
Proof.
  intro D. induction a as [|x a IH]; intros b [|y a'] b' H1 H2 H3 H4 E; simpl in *.
  - auto.
  - exfalso. subst b. apply (D y); [apply H2|apply H3]; left; reflexivity.
  - exfalso. subst b'. apply (D x); [apply H1|apply H4]; left; reflexivity.
  - injection E as -> E. destruct (IH b a' b') as [-> ->]; auto.
Qed.

Lemma product_spec : forall ts, (forall t, In t ts -> simple t /\ children t <> []) ->
  ForallOrdPairs (fun t u => forall c, In c (conditions t) -> In c (conditions u) -> False) ts ->
  NoDup (map fst (product (map (all_paths set_of) ts))) /\
  (forall k v, In (k, v) (product (map (all_paths set_of) ts)) <-> outcomes ts k v) /\
  (forall k v, outcomes ts k v -> incl k (flat_map conditions ts)).
Proof.
  induction ts as [|t ts IH]; intros H FO.
  - simpl. split; [constructor; [intros []|constructor]|]. split.
    + intros k v. split; [intros [E|[]]; injection E as <- <-; constructor|]. intro O. inversion O. auto.
    + intros k v O. inversion O. intros x [].
  - inversion FO as [|? ? D FO']; subst. rewrite Forall_forall in D.
    destruct (IH (fun t' Ht => H t' (or_intror Ht)) FO') as (N&G&C). destruct (H t (or_introl eq_refl)) as [HS NE].
    destruct (all_paths_spec t NE) as [Np _]. 
    assert (Kt : forall k v, In (k, v) (all_paths set_of t) -> incl k (conditions t)).
    { intros k v Hk. apply (outcome_conditions t k v). apply outcome_paths; assumption. }
    assert (Kr : forall k v, In (k, v) (product (map (all_paths set_of) ts)) -> incl k (flat_map conditions ts)).
    { intros k v Hk. apply (C k v). apply G. exact Hk. }
    assert (DD : forall x, In x (conditions t) -> In x (flat_map conditions ts) -> False).
    { intros x Hx Hy. apply in_flat_map in Hy. destruct Hy as (u&Hu&Hy). exact (D u Hu x Hx Hy). }
    cbn [map product]. split; [|split].
    + clear G C IH. revert Np Kt N Kr. generalize (all_paths set_of t) as P, (product (map (all_paths set_of) ts)) as R. intros P R Np Kt N Kr.
      induction P as [|[a va] P IHP]; simpl in *; [constructor|]. inversion Np as [|? ? N1 N2]; subst. rewrite map_app, map_map. cbn [fst].
      apply NoDup_app_intro.
      * rewrite <- (map_map fst (fun b => a ++ b)). apply FinFun.Injective_map_NoDup; [|exact N]. intros x y E. apply app_inv_head in E. exact E.
      * apply IHP; [exact N2|]. intros; apply (Kt k v); auto.
      * intros x Hx Hy. apply in_map_iff in Hx. destruct Hx as ([b vb]&<-&Hb). cbn [fst] in *.
        apply in_map_iff in Hy. destruct Hy as ([k vk]&E&Hk). apply in_flat_map in Hk. destruct Hk as ([a' va']&Ha'&Hk).
        apply in_map_iff in Hk. destruct Hk as ([b' vb']&F&Hb'). cbn [fst snd] in *. injection F as F1 F2. subst k.
        assert (Ea : a' = a).
        { refine (proj1 (decode (fun x => In x (conditions t)) (fun x => In x (flat_map conditions ts)) DD a' b' a b
                    (Kt a' va' (or_intror Ha')) (Kt a va (or_introl eq_refl)) (Kr b' vb' Hb') (Kr b vb Hb) _)). congruence. }
        subst a'. apply N1. apply (in_map fst) in Ha'. exact Ha'.
    + intros k v. rewrite in_flat_map. split.
      * intros ([a va]&Ha&Hb). apply in_map_iff in Hb. destruct Hb as ([b vb]&E&Hb). cbn [fst snd] in E. injection E as <- <-.
        constructor; [apply outcome_paths; assumption|apply G; exact Hb].
      * intro O. inversion O as [|? ? p1 v1 p2 v2 O1 O2]; subst. exists (p1, v1). split; [apply outcome_paths; assumption|].
        apply in_map_iff. exists (p2, v2). split; [reflexivity|apply G; exact O2].
    + intros k v O. inversion O as [|? ? p1 v1 p2 v2 O1 O2]; subst. intros x Hx. apply in_app_or in Hx. simpl. apply in_or_app.
      destruct Hx as [Hx|Hx]; [left; exact (outcome_conditions _ _ _ O1 x Hx)|right; exact (C _ _ O2 x Hx)].
Qed.

Lemma unconditional_spec ts iso : (forall t, In t ts -> simple t /\ children t <> []) ->
  ForallOrdPairs (fun t u => forall c, In c (conditions t) -> In c (conditions u) -> False) ts ->
  NoDup (map fst (unconditional set_of ts iso)) /\
  (forall k vs, In (k, vs) (unconditional set_of ts iso) <-> exists v, outcomes ts k v /\ vs = iso ++ v).
Proof.
  intros H FO. destruct (product_spec ts H FO) as (N&G&_). unfold unconditional.
  assert (E : fold_left (fun d kv => pset d (fst kv) (snd kv)) (product (map (all_paths set_of) ts)) [] = product (map (all_paths set_of) ts)).
  { apply (pupdate_new _ []). exact N. }
  rewrite E. split.
  - rewrite map_map. exact N.
  - intros k vs. rewrite in_map_iff. split.
    + intros ([k' v]&Q&I). cbn [fst snd] in Q. injection Q as <- <-. exists v. split; [apply G; exact I|reflexivity].
    + intros (v&O&->). exists (k, v). split; [reflexivity|apply G; exact O].
Qed.
End Paths.
