(** Proofs about condition trees. *)
From Coq Require Import Bool Arith String List Lia.
From Verif Require Import Lib_List Model_Node Spec_Node.
Import ListNotations.
Open Scope nat_scope.

Section TreeInd.
  Variable P : tree -> Prop.
  Section F.
  Hypothesis H : forall n cs, Forall (fun c => P (snd c)) cs -> P (Node n cs).
  Fixpoint tree_ind0 (t : tree) : P t :=
    match t with
    | Node n cs => H n cs ((fix go (cs : list (string * tree)) : Forall (fun c => P (snd c)) cs :=
        match cs with
        | [] => Forall_nil _
        | x :: r => Forall_cons x (tree_ind0 (snd x)) (go r)
        end) cs)
    end.
  End F.
  Hypothesis H : forall n cs, (forall c, In c cs -> P (snd c)) -> P (Node n cs).
  Lemma tree_ind' (t : tree) : P t.
  Proof. apply tree_ind0. intros n cs F. apply H. apply Forall_forall. exact F. Qed.
End TreeInd.

Lemma mem_In n l : mem n l = true <-> In n l.
Proof.
  unfold mem. rewrite existsb_exists. split.
  - intros (x&H&E). apply String.eqb_eq in E. subst. exact H.
  - intro H. exists n. split; [exact H|apply String.eqb_refl].
Qed.

(** * keep *)
Lemma keep_spots ns : forall t b,
  match keep ns t with Some t' => spots b t' | None => [] end = filter (forallb (fun q => mem (snd q) ns)) (spots b t).
Proof.
  apply (tree_ind' (fun t => forall b, match keep ns t with Some t' => spots b t' | None => [] end = filter (forallb (fun q => mem (snd q) ns)) (spots b t))).
  intros n cs IH b.
  assert (F : forall x (l : list (list (string * string))), filter (forallb (fun q => mem (snd q) ns)) (map (cons x) l)
     = if mem (snd x) ns then map (cons x) (filter (forallb (fun q => mem (snd q) ns)) l) else []).
  { intros x l. induction l as [|a l IHl]; simpl; [destruct (mem (snd x) ns); reflexivity|].
    rewrite IHl. destruct (mem (snd x) ns); simpl; [|reflexivity]. destruct (forallb _ a); reflexivity. }
  cbn [keep spots filter forallb snd]. destruct (mem n ns) eqn:E; cbn [andb].
  - rewrite F. cbn [snd]. rewrite E. cbn [spots]. f_equal. f_equal. clear F E. induction cs as [|c cs IHc]; [reflexivity|].
    cbn [flat_map]. rewrite filter_app'. rewrite <- (IH c (or_introl eq_refl)).
    rewrite <- IHc by (intros; apply IH; right; assumption).
    destruct c as [br [m ds]]. cbn [fst snd tname keep]. destruct (mem m ns); cbn [flat_map app]; reflexivity.
  - rewrite F. cbn [snd]. rewrite E. reflexivity.
Qed.

(** * Dictionaries *)
Lemma get_app {A} (d e : dict A) k : get (d ++ e) k = match get d k with Some v => Some v | None => get e k end.
Proof. induction d as [|[x v] d IH]; simpl; [reflexivity|]. destruct (String.eqb x k); auto. Qed.
Lemma get_None {A} (d : dict A) k : get d k = None <-> ~ In k (map fst d).
Proof.
  induction d as [|[x v] d IH]; simpl; [tauto|]. destruct (String.eqb x k) eqn:E.
  - apply String.eqb_eq in E. split; [discriminate|tauto].
  - apply String.eqb_neq in E. rewrite IH. tauto.
Qed.
Lemma dset_new {A} (d : dict A) k v : get d k = None -> dset d k v = d ++ [(k, v)].
Proof. induction d as [|[x w] d IH]; simpl; [reflexivity|]. destruct (String.eqb x k); [discriminate|]. intro H. rewrite IH by exact H. reflexivity. Qed.
Lemma dupdate_new {A} (e d : dict A) : NoDup (map fst e) -> (forall k, In k (map fst e) -> ~ In k (map fst d)) ->
  dupdate d e = d ++ e.
Proof.
  unfold dupdate. revert d. induction e as [|[k v] e IH]; intros d N D; simpl in *; [rewrite app_nil_r; reflexivity|].
  inversion N as [|? ? N1 N2]; subst. rewrite dset_new by (apply get_None, D; left; reflexivity).
  rewrite IH; [rewrite <- app_assoc; reflexivity|exact N2|].
  intros x Hx. rewrite map_app, in_app_iff. simpl. intros [I|[I|[]]]; [exact (D x (or_intror Hx) I)|subst; contradiction].
Qed.

(** * to_dict as a concatenation *)
Definition infos (cs : list (string * tree)) : list (string * string) := map (fun p => (tname (snd p), fst p)) cs.
Fixpoint flat (t : tree) : tdict :=
  match t with
  | Node n [] => []
  | Node n cs => (n, map (fun p => (tname (snd p), fst p)) cs) :: flat_map (fun p => flat (snd p)) cs
  end.
Definition flats (cs : list (string * tree)) : tdict := flat_map (fun p => flat (snd p)) cs.
Definition cnames (cs : list (string * tree)) : list string := flat_map (fun p => all_names (snd p)) cs.


Lemma flat_keys : forall t k, In k (map fst (flat t)) -> In k (all_names t).
Proof.
  apply (tree_ind' (fun t => forall k, In k (map fst (flat t)) -> In k (all_names t))). intros n cs IH k.
  assert (G : In k (map fst (flats cs)) -> In k (cnames cs)).
  { unfold flats, cnames. induction cs as [|c cs IHc]; simpl; [tauto|]. rewrite map_app, !in_app_iff. intros [H|H].
    - left. exact (IH c (or_introl eq_refl) k H).
    - right. apply IHc; [|exact H]. intros; apply IH; [right|]; assumption. }
  destruct cs as [|c cs]; simpl in *; [tauto|]. intros [H|H]; [auto|]. right. apply G. exact H.
Qed.
Lemma flats_keys cs k : In k (map fst (flats cs)) -> In k (cnames cs).
Proof.
  unfold flats, cnames. induction cs as [|c cs IHc]; simpl; [tauto|]. rewrite map_app, !in_app_iff.
  intros [H|H]; [left; apply flat_keys; exact H|auto].
Qed.
Lemma flat_NoDup : forall t, NoDup (all_names t) -> NoDup (map fst (flat t)).
Proof.
  apply (tree_ind' (fun t => NoDup (all_names t) -> NoDup (map fst (flat t)))). intros n cs IH H.
  cbn [all_names] in H. inversion H as [|? ? H1 H2]; subst.
  assert (G : forall cs, (forall c, In c cs -> NoDup (all_names (snd c)) -> NoDup (map fst (flat (snd c)))) ->
             NoDup (cnames cs) -> NoDup (map fst (flats cs))).
  { clear. unfold flats, cnames. induction cs as [|c cs IHc]; simpl; intros IH H; [constructor|]. rewrite map_app. apply NoDup_app_intro.
    - apply IH; [left; reflexivity|]. eapply NoDup_app_l. exact H.
    - apply IHc; [intros; apply IH; [right|]; assumption|]. eapply NoDup_app_r. exact H.
    - intros x Hx Hy. apply flat_keys in Hx. apply flats_keys in Hy. eapply NoDup_app_dis; [exact H|exact Hx|exact Hy]. }
  destruct cs as [|c cs]; [constructor|]. cbn [flat map fst]. constructor.
  - intro I. apply H1. apply (flats_keys (c :: cs)). exact I.
  - apply (G (c :: cs)); [exact IH|exact H2].
Qed.

Lemma to_dict_flat : forall t, NoDup (all_names t) -> to_dict t = flat t.
Proof.
  apply (tree_ind' (fun t => NoDup (all_names t) -> to_dict t = flat t)). intros n cs IH H.
  cbn [all_names] in H. inversion H as [|? ? H1 H2]; subst. cbn [to_dict].
  assert (G : forall cs acc D, (forall c, In c cs -> NoDup (all_names (snd c)) -> to_dict (snd c) = flat (snd c)) ->
     NoDup (cnames cs) -> ~ In n (cnames cs) -> (forall k, In k (cnames cs) -> ~ In k (map fst D)) ->
     fold_left (fun out p => dupdate (dappend out n (tname (snd p), fst p)) (to_dict (snd p))) cs ((n, acc) :: D)
     = (n, acc ++ infos cs) :: D ++ flats cs).
  { clear. induction cs as [|c cs IHc]; intros acc D IH ND Nn DD; simpl; [rewrite !app_nil_r; reflexivity|].
    unfold dappend. simpl. rewrite String.eqb_refl. cbn [cnames flat_map] in *.
    rewrite (IH c (or_introl eq_refl)) by (eapply NoDup_app_l; exact ND).
    rewrite dupdate_new.
    - simpl. rewrite IHc.
      + unfold flats. rewrite <- !app_assoc. reflexivity.
      + intros; apply IH; [right|]; assumption.
      + eapply NoDup_app_r. exact ND.
      + intro I. apply Nn. apply in_or_app. right. exact I.
      + intros k Hk. rewrite map_app, in_app_iff. intros [I|I].
        * apply (DD k); [apply in_or_app; right; exact Hk|exact I].
        * apply flat_keys in I. eapply NoDup_app_dis; [exact ND|exact I|exact Hk].
    - apply flat_NoDup. eapply NoDup_app_l. exact ND.
    - intros k Hk. apply flat_keys in Hk. simpl. intros [E|I].
      + subst k. apply Nn. apply in_or_app. left. exact Hk.
      + apply (DD k); [apply in_or_app; left; exact Hk|exact I]. }
  destruct cs as [|c cs]; [reflexivity|]. cbn [fold_left].
  assert (A : dappend [] n (tname (snd c), fst c) = [(n, [(tname (snd c), fst c)])]) by reflexivity. rewrite A.
  cbn [cnames flat_map] in H1, H2. cbn [flat_map] in H1, H2.
  rewrite (IH c (or_introl eq_refl)) by (eapply NoDup_app_l; exact H2).
  rewrite dupdate_new.
  - cbn [app]. rewrite G.
    + reflexivity.
    + intros; apply IH; [right|]; assumption.
    + eapply NoDup_app_r. exact H2.
    + intro I. apply H1. apply in_or_app. right. exact I.
    + intros k Hk I. apply flat_keys in I. eapply NoDup_app_dis; [exact H2|exact I|exact Hk].
  - apply flat_NoDup. eapply NoDup_app_l. exact H2.
  - intros k Hk. apply flat_keys in Hk. simpl. intros [E|[]]. subst k. apply H1. apply in_or_app. left. exact Hk.
Qed.

Lemma forest_dict_flat ts : NoDup (flat_map all_names ts) -> forest_dict ts = flat_map flat ts.
Proof.
  intro H. unfold forest_dict. assert (G : forall ts D, NoDup (flat_map all_names ts) ->
    (forall k, In k (flat_map all_names ts) -> ~ In k (map fst D)) ->
    fold_left (fun d t => dupdate d (to_dict t)) ts D = D ++ flat_map flat ts).
  { clear. induction ts as [|t ts IH]; intros D N DD; simpl in *; [rewrite app_nil_r; reflexivity|].
    rewrite to_dict_flat by (eapply NoDup_app_l; exact N). rewrite dupdate_new.
    - rewrite IH; [rewrite <- app_assoc; reflexivity|eapply NoDup_app_r; exact N|].
      intros k Hk. rewrite map_app, in_app_iff. intros [I|I].
      + apply (DD k); [apply in_or_app; right; exact Hk|exact I].
      + apply flat_keys in I. eapply NoDup_app_dis; [exact N|exact I|exact Hk].
    - apply flat_NoDup. eapply NoDup_app_l. exact N.
    - intros k Hk. apply flat_keys in Hk. apply DD. apply in_or_app. left. exact Hk. }
  rewrite G; [reflexivity|exact H|]. intros k _ [].
Qed.

(** * build *)
Fixpoint post (t : tree) : dict tree :=
  match t with
  | Node n [] => []
  | Node n cs => flat_map (fun p => post (snd p)) cs ++ [(n, Node n cs)]
  end.
Definition posts (cs : list (string * tree)) : dict tree := flat_map (fun p => post (snd p)) cs.
Fixpoint height (t : tree) : nat :=
  match t with Node n cs => S (fold_right (fun p h => Nat.max (height (snd p)) h) 0 cs) end.
Lemma height_child cs c : In c cs -> height (snd c) <= fold_right (fun (p : string * tree) h => Nat.max (height (snd p)) h) 0 cs.
Proof. induction cs as [|x cs IH]; simpl; intros []; [subst; lia|]. specialize (IH H). lia. Qed.

Lemma post_keys : forall t k, In k (map fst (post t)) -> In k (all_names t).
Proof.
  apply (tree_ind' (fun t => forall k, In k (map fst (post t)) -> In k (all_names t))). intros n cs IH k.
  destruct cs as [|c0 cs0]; [simpl; tauto|]. remember (c0 :: cs0) as cs eqn:Ecs. 
  assert (E : post (Node n cs) = posts cs ++ [(n, Node n cs)]) by (subst cs; reflexivity). rewrite E.
  rewrite map_app, in_app_iff. simpl. intros [H|[H|[]]]; [|left; exact H]. right. clear E Ecs. unfold posts in H.
  induction cs as [|c cs IHc]; simpl in *; [tauto|]. rewrite map_app, in_app_iff in H. apply in_or_app. destruct H as [H|H].
  - left. exact (IH c (or_introl eq_refl) k H).
  - right. apply IHc; [intros; apply IH; [right|]; assumption|exact H].
Qed.
Lemma posts_keys cs k : In k (map fst (posts cs)) -> In k (cnames cs).
Proof.
  unfold posts, cnames. induction cs as [|c cs IHc]; simpl; [tauto|]. rewrite map_app, !in_app_iff.
  intros [H|H]; [left; apply post_keys; exact H|auto].
Qed.

Lemma get_flats_child cs c x : NoDup (cnames cs) -> In c cs -> In x (all_names (snd c)) -> get (flats cs) x = get (flat (snd c)) x.
Proof.
  unfold flats, cnames. induction cs as [|y cs IH]; intros N I X; [destruct I|]. simpl in *. rewrite get_app. destruct I as [->|I].
  - destruct (get (flat (snd c)) x) eqn:E; [reflexivity|]. apply get_None. intro J. apply flats_keys in J.
    eapply NoDup_app_dis; [exact N|exact X|exact J].
  - assert (get (flat (snd y)) x = None) as ->.
    { apply get_None. intro J. apply flat_keys in J. eapply NoDup_app_dis; [exact N|exact J|].
      apply in_flat_map. exists c. auto. }
    apply IH; [eapply NoDup_app_r; exact N|exact I|exact X].
Qed.
Lemma tname_all t : In (tname t) (all_names t).
Proof. destruct t. simpl. auto. Qed.
Lemma cnames_child cs c x : In c cs -> In x (all_names (snd c)) -> In x (cnames cs).
Proof. intros I X. apply in_flat_map. exists c. auto. Qed.

Lemma build_ok d : forall t fuel cache nr, height t <= fuel -> NoDup (all_names t) ->
  (forall x, In x (all_names t) -> get d x = get (flat t) x) ->
  (forall x, In x (all_names t) -> get cache x = None) ->
  exists nr', build fuel d (cache, nr) (tname t) = Some (t, (cache ++ post t, nr')) /\
    forall x, In x nr' <-> In x nr \/ In x (cnames (children t)).
Proof.
  apply (tree_ind' (fun t => forall fuel cache nr, height t <= fuel -> NoDup (all_names t) ->
    (forall x, In x (all_names t) -> get d x = get (flat t) x) ->
    (forall x, In x (all_names t) -> get cache x = None) ->
    exists nr', build fuel d (cache, nr) (tname t) = Some (t, (cache ++ post t, nr')) /\
      forall x, In x nr' <-> In x nr \/ In x (cnames (children t)))).
  intros n cs IH fuel cache nr HF ND HD HC. cbn [height] in HF. destruct fuel as [|f]; [lia|].
  cbn [tname children]. cbn [all_names] in ND, HD, HC. fold (cnames cs) in ND, HD, HC.
  inversion ND as [|? ? N1 N2]; subst.
  destruct cs as [|c0 cs0].
  { exists nr. cbn [build]. rewrite (HD n (or_introl eq_refl)). cbn [flat get post]. rewrite app_nil_r. split; [reflexivity|].
    intro x. unfold cnames. simpl. tauto. }
  remember (c0 :: cs0) as cs eqn:Ecs.
  assert (EF : flat (Node n cs) = (n, infos cs) :: flats cs) by (subst cs; reflexivity).
  assert (EP : post (Node n cs) = posts cs ++ [(n, Node n cs)]) by (subst cs; reflexivity).
  cbn [build]. rewrite (HD n (or_introl eq_refl)), EF. cbn [get]. rewrite String.eqb_refl.
  assert (G : forall rest done nr1, cs = done ++ rest ->
     exists nr', (fix go infos acc (st : bstate) :=
         match infos with
         | [] => Some (Node n acc, (dset (fst st) n (Node n acc), snd st))
         | (key, br) :: r =>
           match get (fst st) key with
           | Some c => go r (acc ++ [(br, c)]) (fst st, key :: snd st)
           | None => match build f d st key with
                     | Some (c, st') => go r (acc ++ [(br, c)]) (fst st', key :: snd st')
                     | None => None
                     end
           end
         end) (infos rest) done (cache ++ posts done, nr1)
       = Some (Node n cs, (cache ++ posts cs ++ [(n, Node n cs)], nr')) /\
       forall x, In x nr' <-> In x nr1 \/ In x (cnames rest)).
  { induction rest as [|[br c] rest IHr]; intros done nr1 E.
    - rewrite app_nil_r in E. subst done. exists nr1. simpl. split; [|intro x; tauto].
      rewrite dset_new; [rewrite <- app_assoc; reflexivity|]. rewrite get_app, (HC n (or_introl eq_refl)).
      apply get_None. intro I. apply posts_keys in I. contradiction.
    - assert (Ic : In (br, c) cs) by (rewrite E; apply in_or_app; right; left; reflexivity).
      assert (NDc : NoDup (cnames done ++ all_names c ++ cnames rest)).
      { rewrite E in N2. unfold cnames in *. rewrite flat_map_app in N2. exact N2. }
      cbn [infos map fst snd]. 
      assert (CC : forall x, In x (all_names c) -> get (cache ++ posts done) x = None).
      { intros x Hx. rewrite get_app, (HC x). 
        - apply get_None. intro I. apply posts_keys in I. eapply NoDup_app_dis; [exact NDc|exact I|]. apply in_or_app. left. exact Hx.
        - right. apply (cnames_child cs (br, c)); assumption. }
      rewrite (CC (tname c) (tname_all c)).
      destruct (IH (br, c) Ic f (cache ++ posts done) nr1) as (nr2&B&M); cbn [snd] in *.
      + pose proof (height_child cs (br, c) Ic) as Hh. cbn [snd] in Hh. lia.
      + apply NoDup_app_r in NDc. apply NoDup_app_l in NDc. exact NDc.
      + intros x Hx. rewrite (HD x) by (right; apply (cnames_child cs (br, c)); assumption). rewrite EF. cbn [get].
        destruct (String.eqb n x) eqn:Q.
        * apply String.eqb_eq in Q. subst x. exfalso. apply N1. apply (cnames_child cs (br, c)); assumption.
        * apply (get_flats_child cs (br, c)); assumption.
      + exact CC.
      + match goal with |- context [build f d ?st (tname c)] => replace (build f d st (tname c)) with (Some (c, ((cache ++ posts done) ++ post c, nr2))) by (symmetry; exact B) end. cbn [fst snd]. destruct (IHr (done ++ [(br, c)]) (tname c :: nr2)) as (nr3&B3&M3).
        * rewrite <- app_assoc. exact E.
        * exists nr3. split.
          -- replace (cache ++ posts (done ++ [(br, c)])) with ((cache ++ posts done) ++ post c) in B3; [exact B3|].
             unfold posts. rewrite flat_map_app. simpl. rewrite app_nil_r, <- app_assoc. reflexivity.
          -- intro x. rewrite M3. cbn [In]. rewrite M. change (cnames ((br, c) :: rest)) with (all_names c ++ cnames rest). rewrite in_app_iff.
             assert (In x (all_names c) <-> tname c = x \/ In x (cnames (children c))) as ->; [|tauto].
             destruct c. reflexivity. }
  destruct (G cs [] nr eq_refl) as (nr'&B&M). exists nr'. rewrite EP. change (posts []) with ([] : dict tree) in B. rewrite app_nil_r in B.
  split; [|exact M]. clear - B Ecs. subst cs. exact B.
Qed.

Lemma post_has : forall t k, In k (map fst (flat t)) -> In k (map fst (post t)).
Proof.
  apply (tree_ind' (fun t => forall k, In k (map fst (flat t)) -> In k (map fst (post t)))). intros n cs IH k.
  destruct cs as [|c0 cs0]; [simpl; tauto|]. remember (c0 :: cs0) as cs eqn:Ecs.
  assert (EF : flat (Node n cs) = (n, infos cs) :: flats cs) by (subst cs; reflexivity).
  assert (EP : post (Node n cs) = posts cs ++ [(n, Node n cs)]) by (subst cs; reflexivity).
  rewrite EF, EP, map_app, in_app_iff. simpl. intros [H|H]; [auto|]. left. clear EF EP Ecs c0 cs0. unfold posts, flats in *.
  induction cs as [|c cs IHc]; simpl in *; [tauto|]. rewrite map_app, in_app_iff in *. destruct H as [H|H].
  - left. apply (IH c (or_introl eq_refl)). exact H.
  - right. apply IHc; [intros; apply IH; [right|]; assumption|exact H].
Qed.

Lemma build_all_skip fuel d st ks r : (forall k, In k ks -> get (fst st) k <> None) ->
  build_all fuel d st (ks ++ r) = build_all fuel d st r.
Proof.
  induction ks as [|k ks IH]; intro H; [reflexivity|]. simpl. destruct (get (fst st) k) eqn:E.
  - apply IH. intros; apply H; right; assumption.
  - exfalso. apply (H k); [left; reflexivity|exact E].
Qed.

Lemma flat_head t : children t <> [] -> exists l r, flat t = (tname t, l) :: r.
Proof. destruct t as [n [|c cs]]; simpl; [congruence|]. intros _. eexists. eexists. reflexivity. Qed.

Lemma get_flat_forest ts t x : NoDup (flat_map all_names ts) -> In t ts -> In x (all_names t) ->
  get (flat_map flat ts) x = get (flat t) x.
Proof.
  intros N I X. pose proof (get_flats_child (map (fun t => (EmptyString, t)) ts) (EmptyString, t) x) as G.
  assert (E1 : forall ts, flats (map (fun t => (EmptyString, t)) ts) = flat_map flat ts).
  { clear. unfold flats. induction ts as [|t ts IH]; simpl; [reflexivity|]. rewrite IH. reflexivity. }
  assert (E2 : forall ts, cnames (map (fun t => (EmptyString, t)) ts) = flat_map all_names ts).
  { clear. unfold cnames. induction ts as [|t ts IH]; simpl; [reflexivity|]. rewrite IH. reflexivity. }
  rewrite E1, E2 in G. apply G; [exact N| |exact X]. apply (in_map (fun t => (EmptyString, t))). exact I.
Qed.

Lemma from_dict_forest ts fuel : NoDup (flat_map all_names ts) -> (forall t, In t ts -> children t <> []) ->
  (forall t, In t ts -> height t <= fuel) -> from_dict fuel (forest_dict ts) = Some ts.
Proof.
  intros ND HN HF. rewrite forest_dict_flat by exact ND. unfold from_dict.
  assert (G : forall rest done nr, ts = done ++ rest ->
     (forall x, In x nr <-> In x (flat_map (fun t => cnames (children t)) done)) ->
     exists nr', build_all fuel (flat_map flat ts) (flat_map post done, nr) (map fst (flat_map flat rest)) = Some (flat_map post ts, nr') /\
       forall x, In x nr' <-> In x (flat_map (fun t => cnames (children t)) ts)).
  { induction rest as [|t rest IH]; intros done nr E M.
    - rewrite app_nil_r in E. subst done. exists nr. simpl. auto.
    - assert (It : In t ts) by (rewrite E; apply in_or_app; right; left; reflexivity).
      assert (NDt : NoDup (flat_map all_names done ++ all_names t ++ flat_map all_names rest)).
      { rewrite E in ND. rewrite flat_map_app in ND. exact ND. }
      cbn [flat_map]. rewrite map_app. destruct (flat_head t (HN t It)) as (l&r&EH).
      assert (PK : forall x, In x (map fst (flat_map post done)) -> In x (flat_map all_names done)).
      { clear. induction done as [|t done IH]; simpl; [tauto|]. intro x. rewrite map_app, !in_app_iff. intros [H|H]; [left; apply post_keys; exact H|auto]. }
      assert (CC : forall x, In x (all_names t) -> get (flat_map post done) x = None).
      { intros x Hx. apply get_None. intro I. apply PK in I. eapply NoDup_app_dis; [exact NDt|exact I|]. apply in_or_app. left. exact Hx. }
      destruct (build_ok (flat_map flat ts) t fuel (flat_map post done) nr) as (nr1&B&M1).
      + apply HF. exact It.
      + apply NoDup_app_r in NDt. apply NoDup_app_l in NDt. exact NDt.
      + intros x Hx. apply get_flat_forest; assumption.
      + exact CC.
      + assert (SK : build_all fuel (flat_map flat ts) (flat_map post done, nr) (map fst (flat t) ++ map fst (flat_map flat rest))
                   = build_all fuel (flat_map flat ts) (flat_map post (done ++ [t]), nr1) (map fst (flat_map flat rest))).
        { rewrite EH. cbn [map app build_all fst]. rewrite (CC _ (tname_all t)). match goal with |- context [build fuel ?dd ?st (tname t)] => replace (build fuel dd st (tname t)) with (Some (t, (flat_map post done ++ post t, nr1))) by (symmetry; exact B) end.
          rewrite build_all_skip.
          - rewrite flat_map_app. cbn [flat_map]. rewrite app_nil_r. reflexivity.
          - intros k Hk N. cbn [fst] in N. rewrite get_app in N. destruct (get (flat_map post done) k); [discriminate|].
            apply get_None in N. apply N. apply post_has. rewrite EH. right. exact Hk. }
        rewrite SK. apply IH.
        * rewrite <- app_assoc. exact E.
        * intro x. rewrite M1, M, flat_map_app, in_app_iff. simpl. rewrite app_nil_r. reflexivity. }
  destruct (G ts [] [] eq_refl) as (nr'&B&M); [intro x; simpl; tauto|].
  simpl in B. rewrite B. cbn [option_map fst snd]. f_equal.
  assert (R : forall sub, (forall t, In t sub -> In t ts) -> map snd (filter (fun p => negb (mem (fst p) nr')) (flat_map post sub)) = sub).
  { induction sub as [|t sub IH]; intro I; [reflexivity|]. cbn [flat_map]. rewrite filter_app', map_app, IH by (intros; apply I; right; assumption).
    assert (It : In t ts) by (apply I; left; reflexivity).
    destruct t as [n cs]. pose proof (HN _ It) as NE. cbn [children] in NE.
    assert (EP : post (Node n cs) = posts cs ++ [(n, Node n cs)]) by (destruct cs; [congruence|reflexivity]). rewrite EP.
    assert (P1 : filter (fun p => negb (mem (fst p) nr')) (posts cs) = []).
    { assert (Z : forall l, (forall p, In p l -> In (fst p) nr') -> filter (fun p : string * tree => negb (mem (fst p) nr')) l = []).
      { clear. induction l as [|p l IH]; intro H; simpl; [reflexivity|]. rewrite (proj2 (mem_In (fst p) nr') (H p (or_introl eq_refl))). simpl.
        apply IH. intros; apply H; right; assumption. }
      apply Z. intros p Hp. apply M. apply in_flat_map. exists (Node n cs). split; [exact It|]. cbn [children].
      apply posts_keys. apply in_map. exact Hp. }
    assert (P2 : mem n nr' = false).
    { apply not_true_is_false. intro Q. apply mem_In in Q. apply M in Q. apply in_flat_map in Q. destruct Q as (t'&I'&Q).
      clear - ND It I' Q. induction ts as [|u ts IH]; [destruct It|]. cbn [flat_map] in ND.
      assert (Hn : forall m ds, In n (cnames (children (Node m ds))) -> In n (all_names (Node m ds))) by (intros m ds J; right; exact J).
      destruct It as [E1|It], I' as [E2|I']; subst.
      - cbn [children] in Q. cbn [all_names app] in ND. inversion ND as [|? ? N _]; subst. apply N. apply in_or_app. left. exact Q.
      - eapply NoDup_app_dis; [exact ND|left; reflexivity|]. apply in_flat_map. exists t'. split; [exact I'|]. destruct t'. apply Hn. exact Q.
      - eapply NoDup_app_dis; [exact ND| |].
        + destruct t' as [m ds]. apply Hn. exact Q.
        + apply in_flat_map. exists (Node n cs). split; [exact It|left; reflexivity].
      - apply IH; [eapply NoDup_app_r; exact ND|exact It|exact I']. }
    rewrite filter_app', P1. cbn [app filter fst]. rewrite P2. reflexivity. }
  apply R. auto.
Qed.
