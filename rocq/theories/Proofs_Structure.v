(** Proofs about conditional search spaces. *)
From Coq Require Import Bool Arith String List Lia Permutation.
From Verif Require Import Lib_List Model_Node Spec_Node Proofs_Node Model_Structure Spec_Structure.
From Verif Require Proofs_Space.
Import ListNotations.
Open Scope nat_scope.

(** The children in a dictionary. *)
Definition kids (d : tdict) (n : string) : list (string * string) := match get d n with Some l => l | None => [] end.
(** A tree is the one that the dictionary describes. *)
Inductive shape (d : tdict) : tree -> Prop :=
| shape_node n cs : map (fun c => (tname (snd c), fst c)) cs = kids d n -> (forall c, In c cs -> shape d (snd c)) -> shape d (Node n cs).

Lemma get_dset {A} (d : dict A) k v x : get (dset d k v) x = if String.eqb k x then Some v else get d x.
Proof.
  induction d as [|[a w] d IH]; cbn.
  - reflexivity.
  - destruct (String.eqb_spec a k) as [->|N]; cbn; [destruct (String.eqb k x); reflexivity|]. rewrite IH.
    destruct (String.eqb_spec a x) as [->|N']; [|reflexivity]. destruct (String.eqb_spec k x); congruence.
Qed.
Lemma dset_keys {A} (d : dict A) k v x : In x (map fst (dset d k v)) <-> x = k \/ In x (map fst d).
Proof.
  induction d as [|[a w] d IH]; cbn; [intuition|]. destruct (String.eqb_spec a k) as [->|N]; cbn; [intuition|]. rewrite IH. tauto.
Qed.
Lemma dset_NoDup {A} (d : dict A) k v : NoDup (map fst d) -> NoDup (map fst (dset d k v)).
Proof.
  induction d as [|[a w] d IH]; cbn; intros N; [repeat constructor; auto|]. inversion N; subst. destruct (String.eqb_spec a k) as [->|N']; cbn; [now constructor|].
  constructor; auto. rewrite dset_keys. intros [->|X]; auto.
Qed.
Lemma get_Some {A} (d : dict A) k v : NoDup (map fst d) -> get d k = Some v <-> In (k, v) d.
Proof.
  induction d as [|[a w] d IH]; cbn; intros N; [split; [discriminate|tauto]|]. inversion N as [|? ? N1 N2]; subst. specialize (IH N2). destruct (String.eqb_spec a k) as [->|N'].
  - split; [intros [= ->]; auto|]. intros [[= ->]|I]; auto. exfalso. apply N1. change k with (fst (k, v)). now apply in_map.
  - rewrite IH. split; auto. intros [[= -> ->]|I]; auto. congruence.
Qed.
Lemma get_In {A} (d : dict A) k : In k (map fst d) <-> get d k <> None.
Proof. rewrite get_None. destruct (in_dec string_dec k (map fst d)); tauto. Qed.

Section Build.
  Variables (d : tdict) (h : string -> nat).
  Hypothesis H : forall n k b, In (k, b) (kids d n) -> h k < h n.

  Definition cache_ok (c : dict tree) : Prop :=
    NoDup (map fst c) /\ forall k t, get c k = Some t -> tname t = k /\ shape d t /\ kids d k <> [].
  (** From one state of the construction to a later one. *)
  Definition grows (s s' : bstate) : Prop :=
    cache_ok (fst s') /\ (forall k, In k (map fst (fst s)) -> In k (map fst (fst s'))) /\ (forall x, In x (snd s) -> In x (snd s')) /\
    (forall x, In x (snd s') -> In x (snd s) \/ exists k b, In (x, b) (kids d k)) /\
    (forall k, In k (map fst (fst s')) -> In k (map fst (fst s)) \/ forall x b, In (x, b) (kids d k) -> In x (snd s')).
  Lemma grows_refl s : cache_ok (fst s) -> grows s s.
  Proof. intros C. split; [exact C|]. split; auto. Qed.
  Lemma grows_trans a b c : grows a b -> grows b c -> grows a c.
  Proof.
    intros (A1 & A2 & A3 & A4 & A5) (B1 & B2 & B3 & B4 & B5). split; auto. split; auto. split; auto. split.
    - intros x X. apply B4 in X as [X|X]; auto.
    - intros k K. apply B5 in K as [K|K]; auto. apply A5 in K as [K|K]; auto. right. intros x b' X. eauto.
  Qed.

  Lemma build_gen : forall fuel n s, h n < fuel -> cache_ok (fst s) ->
    exists t s', build fuel d s n = Some (t, s') /\ tname t = n /\ shape d t /\ grows s s' /\ (kids d n <> [] -> In n (map fst (fst s'))).
  Proof.
    induction fuel as [|f IH]; intros n s Hf C; [lia|]. cbn [build]. unfold kids at 1. destruct (get d n) as [infos|] eqn:E.
    2:{ exists (Node n []), s. split; auto. split; auto. split; [|split; [now apply grows_refl|congruence]]. constructor; [unfold kids; now rewrite E|intros c []]. }
    assert (K : kids d n = infos) by (unfold kids; now rewrite E).
    destruct infos as [|i0 infos0]. { exists (Node n []), s. split; auto. split; auto. split; [|split; [now apply grows_refl|congruence]]. constructor; [now rewrite K|intros c []]. }
    remember (i0 :: infos0) as infos eqn:Ei.
    assert (G : forall rest done acc s1, infos = done ++ rest -> map (fun c => (tname (snd c), fst c)) acc = done -> (forall c, In c acc -> shape d (snd c)) ->
      cache_ok (fst s1) -> grows s s1 -> (forall x b, In (x, b) done -> In x (snd s1)) ->
      exists t s', (fix go infos acc (st : bstate) :=
         match infos with
         | [] => Some (Node n acc, (dset (fst st) n (Node n acc), snd st))
         | (key, br) :: r =>
           match get (fst st) key with
           | Some c => go r (acc ++ [(br, c)]) (fst st, key :: snd st)
           | None => match build f d st key with
                     | Some (c, st') => go r (acc ++ [(br, c)]) (fst st', key :: snd st')
                     | None => None
                     end
           end
         end) rest acc s1 = Some (t, s') /\ tname t = n /\ shape d t /\ grows s s' /\ In n (map fst (fst s'))).
    { induction rest as [|[key br] rest IHr]; intros done acc s1 E1 E2 Sh C1 G1 D.
      - rewrite app_nil_r in E1. set (t := Node n acc). assert (St : shape d t) by (constructor; auto; rewrite K, E1; exact E2).
        exists t, (dset (fst s1) n t, snd s1). split; [reflexivity|]. split; auto. split; auto. split; [|cbn [fst]; apply dset_keys; auto].
        apply (grows_trans _ s1); auto. split; [|split; [|split; [|split]]]; cbn [fst snd].
        + destruct C1 as [N1 C1]. split; [now apply dset_NoDup|]. intros k u. rewrite get_dset. destruct (String.eqb_spec n k) as [<-|Nk]; [|apply C1].
          intros [= <-]. split; auto. split; auto. rewrite K, Ei. discriminate.
        + intros k X. apply dset_keys. auto.
        + auto.
        + auto.
        + intros k X. apply dset_keys in X as [->|X]; auto. right. intros x b X. rewrite K, E1 in X. eauto.
      - assert (In1 : In (key, br) (kids d n)) by (rewrite K, E1; apply in_or_app; right; now left).
        assert (AddG : forall s2, grows s s2 -> grows s (fst s2, key :: snd s2)).
        { intros s2 (A1 & A2 & A3 & A4 & A5). split; auto. split; auto. cbn [fst snd]. split; [intros x X; right; auto|]. split.
          - intros x [<-|X]; auto. right. eauto.
          - intros k X. apply A5 in X as [X|X]; auto. right. intros x b X'. right. eauto. }
        destruct (get (fst s1) key) as [c|] eqn:Eg.
        + destruct (proj2 C1 _ _ Eg) as (T1 & T2 & _). apply (IHr (done ++ [(key, br)]) (acc ++ [(br, c)]) (fst s1, key :: snd s1)); auto.
          * rewrite <- app_assoc. exact E1.
          * rewrite map_app, E2. cbn. now rewrite T1.
          * intros u U. apply in_app_or in U as [U|[<-|[]]]; auto.
          * intros x b X. cbn. apply in_app_or in X as [X|[[= <- <-]|[]]]; eauto.
        + destruct (IH key s1) as (c & s2 & B & T1 & T2 & G2 & _); auto. { specialize (H n key br In1). lia. }
          rewrite B. apply (IHr (done ++ [(key, br)]) (acc ++ [(br, c)]) (fst s2, key :: snd s2)); auto.
          * rewrite <- app_assoc. exact E1.
          * rewrite map_app, E2. cbn. now rewrite T1.
          * intros u U. apply in_app_or in U as [U|[<-|[]]]; auto.
          * apply G2.
          * apply AddG. now apply (grows_trans _ s1).
          * intros x b X. cbn. destruct G2 as (_ & _ & A3 & _). apply in_app_or in X as [X|[[= <- <-]|[]]]; eauto. }
    destruct (G infos [] [] s) as (t & s' & B & T & Sh & Gr & Kn); auto; [intros c []|now apply grows_refl|intros x b []|].
    exists t, s'. split; [|auto]. rewrite Ei in *. exact B.
  Qed.

  Lemma build_all_gen fuel : (forall n, In n (map fst d) -> h n < fuel) -> forall ks s, (forall k, In k ks -> In k (map fst d) /\ kids d k <> []) -> cache_ok (fst s) ->
    exists s', build_all fuel d s ks = Some s' /\ grows s s' /\ (forall k, In k ks -> In k (map fst (fst s'))).
  Proof.
    intros Hf. induction ks as [|k ks IH]; intros s Hk C; cbn [build_all]; [exists s; split; auto; split; [now apply grows_refl|intros k []]|].
    destruct (get (fst s) k) as [t|] eqn:E.
    - destruct (IH s) as (s' & B & G & I); auto. { intros; apply Hk; now right. } exists s'. split; auto. split; auto. intros x [<-|X]; auto.
      apply G. apply get_In. congruence.
    - destruct (Hk k (or_introl eq_refl)) as [K1 K2]. destruct (build_gen fuel k s) as (t & s1 & B & _ & _ & G & I); auto. rewrite B.
      destruct (IH s1) as (s' & B' & G' & I'); auto. { intros; apply Hk; now right. } { apply G. }
      exists s'. split; auto. split; [now apply (grows_trans _ s1)|]. intros x [<-|X]; auto. apply G'. auto.
  Qed.

  (** The roots are the keys that are nobody's child, with the trees that the dictionary describes. *)
  Lemma from_dict_gen fuel : NoDup (map fst d) -> (forall n, In n (map fst d) -> h n < fuel) -> (forall n, In n (map fst d) -> kids d n <> []) ->
    exists ts, from_dict fuel d = Some ts /\ NoDup (map tname ts) /\ (forall t, In t ts -> shape d t) /\
      (forall n, In n (map tname ts) <-> In n (map fst d) /\ forall k b, ~ In (n, b) (kids d k)).
  Proof.
    intros ND Hf Hk. destruct (build_all_gen fuel Hf (map fst d) ([], [])) as ([c nr] & B & (C & _ & _ & G4 & G5) & I); auto. { split; [constructor|]. cbn. discriminate. }
    unfold from_dict. rewrite B. cbn [option_map]. eexists. split; [reflexivity|]. cbn [fst snd] in *.
    assert (NR : forall x, In x nr <-> exists k b, In (x, b) (kids d k)).
    { intros x. split.
      - intros X. apply G4 in X as [[]|X]; auto.
      - intros (k & b & X). destruct (G5 k) as [[]|Y]; eauto. apply I. apply get_In. unfold kids in X. destruct (get d k); [discriminate|destruct X]. }
    assert (TN : forall k t, In (k, t) c -> tname t = k /\ shape d t).
    { intros k t X. destruct C as [Nc C]. apply get_Some in X; auto. apply C in X. tauto. }
    assert (MT : forall p, In p c -> tname (snd p) = fst p) by (intros [k t] X; apply (TN k t X)).
    set (P := fun p : string * tree => negb (mem (fst p) nr)).
    assert (ET : map tname (map snd (filter P c)) = map fst (filter P c)).
    { rewrite map_map. apply map_ext_in. intros p X. apply filter_In in X as [X _]. auto. }
    split; [|split].
    - rewrite ET. destruct C as [Nc _]. clear - Nc. induction c as [|p c IH]; cbn; [constructor|]. inversion Nc; subst. destruct (P p); cbn; auto. constructor; auto.
      intros X. apply H1. apply in_map_iff in X as (q & <- & X). apply filter_In in X as [X _]. now apply in_map.
    - intros t X. apply in_map_iff in X as ([k u] & <- & X). apply filter_In in X as [X _]. apply (TN k u X).
    - intros n. rewrite ET. split.
      + intros X. apply in_map_iff in X as ([k u] & <- & X). apply filter_In in X as [X Y]. cbn in *. split.
        * destruct C as [Nc C]. apply get_Some in X; auto. apply C in X as (_ & _ & X). apply get_In. unfold kids in X. destruct (get d k); congruence.
        * intros k' b Z. unfold P in Y. cbn in Y. apply negb_true_iff in Y. assert (mem k nr = true) by (apply mem_In; apply NR; eauto). congruence.
      + intros [X Y]. specialize (I n X). apply in_map_iff in I as ([k u] & <- & I). apply in_map_iff. exists (k, u). split; auto. apply filter_In. split; auto.
        unfold P. cbn in *. apply negb_true_iff. destruct (mem k nr) eqn:E; auto. apply mem_In in E. apply NR in E as (k' & b & Z). exfalso. eapply Y; eauto.
  Qed.
End Build.

(** ** Forests *)
Lemma flat_NoDup' {A B K} (f : A -> list B) (key : A -> K) l : NoDup (map key l) -> (forall a, In a l -> NoDup (f a)) ->
  (forall a b x, In a l -> In b l -> key a <> key b -> In x (f a) -> In x (f b) -> False) -> NoDup (flat_map f l).
Proof.
  induction l as [|a l IH]; cbn; intros N F D; [constructor|]. inversion N as [|? ? N1 N2]; subst.
  assert (G : forall x, In x (f a) -> ~ In x (flat_map f l)).
  { intros x X Y. apply in_flat_map in Y as (b & Ib & Y). apply (D a b x); auto. intros E. apply N1. rewrite E. now apply in_map. }
  assert (NA : NoDup (f a)) by auto. assert (NL : NoDup (flat_map f l)) by (apply IH; eauto). clear IH D F N N1 N2. revert G NL.
  induction NA as [|x m X NA IHm]; cbn; intros G NL; auto. constructor; auto. rewrite in_app_iff. intros [Y|Y]; auto. apply (G x); auto.
Qed.
Lemma child_third t : map (fun e : string * string * string => snd e) (edges t) = tl (all_names t).
Proof.
  apply (tree_ind' (fun t => map (fun e : string * string * string => snd e) (edges t) = tl (all_names t))). intros n cs IH. cbn [edges all_names tl].
  induction cs as [|c cs IHc]; cbn [flat_map]; auto. cbn [app map snd]. rewrite map_app, (IH c (or_introl eq_refl)), IHc by (intros; apply IH; now right).
  destruct (snd c) as [m ds] eqn:E. rewrite ?E. reflexivity.
Qed.
Lemma keep_all ns : forall t, (forall x, In x (all_names t) -> In x ns) -> keep ns t = Some t.
Proof.
  apply (tree_ind' (fun t => (forall x, In x (all_names t) -> In x ns) -> keep ns t = Some t)). intros n cs IH Hn. cbn [keep].
  assert (M : mem n ns = true) by (apply mem_In, Hn; now left). rewrite M. f_equal. f_equal.
  assert (Hc : forall c, In c cs -> forall x, In x (all_names (snd c)) -> In x ns). { intros c I x X. apply Hn. right. apply in_flat_map. eauto. }
  clear M Hn. induction cs as [|c cs IHc]; cbn [flat_map]; auto. rewrite (proj2 (mem_In _ _)) by (apply (Hc c (or_introl eq_refl)); apply tname_all).
  rewrite (IH c (or_introl eq_refl)) by (apply Hc; now left). cbn [app]. rewrite IHc; [destruct c; reflexivity|intros; apply IH; auto; now right|intros c' I; apply Hc; now right].
Qed.

Section Trees.
  Variables (d : tdict) (h : string -> nat).
  Hypothesis H : forall n k b, In (k, b) (kids d n) -> h k < h n.

  Inductive reach : string -> string -> Prop :=
  | reach_refl a : reach a a
  | reach_step a p x b : reach a p -> In (x, b) (kids d p) -> reach a x.
  Lemma reach_trans a b c : reach a b -> reach b c -> reach a c.
  Proof. intros R R'. revert R. induction R' as [|? ? ? ? R' IH K]; intros R; auto. exact (reach_step _ _ _ _ (IH R) K). Qed.
  Lemma reach_h a y : reach a y -> h y <= h a.
  Proof. induction 1; auto. specialize (H _ _ _ H1). lia. Qed.

  Lemma shape_kid n cs c : map (fun c => (tname (snd c), fst c)) cs = kids d n -> In c cs -> In (tname (snd c), fst c) (kids d n).
  Proof. intros <- I. apply (in_map (fun c => (tname (snd c), fst c)) cs c I). Qed.

  Lemma names_reach : forall t, shape d t -> forall y, In y (all_names t) -> reach (tname t) y.
  Proof.
    apply (tree_ind' (fun t => shape d t -> forall y, In y (all_names t) -> reach (tname t) y)). intros n cs IH S y [<-|I]; [constructor|].
    inversion S as [? ? E C]; subst. apply in_flat_map in I as (c & Ic & I). apply (reach_trans _ (tname (snd c))); [|now apply IH; auto].
    eapply reach_step; [constructor|]. eapply shape_kid; eauto.
  Qed.
  Lemma names_down : forall t, shape d t -> forall p x b, In p (all_names t) -> In (x, b) (kids d p) -> In x (all_names t).
  Proof.
    apply (tree_ind' (fun t => shape d t -> forall p x b, In p (all_names t) -> In (x, b) (kids d p) -> In x (all_names t))). intros n cs IH S p x b I K.
    inversion S as [? ? E C]; subst. destruct I as [<-|I].
    - rewrite <- E in K. apply in_map_iff in K as (c & [= <- <-] & Ic). right. apply in_flat_map. exists c. split; auto. apply tname_all.
    - apply in_flat_map in I as (c & Ic & I). right. apply in_flat_map. exists c. split; auto. eapply IH; eauto.
  Qed.
  Lemma edges_sound : forall t, shape d t -> forall x c y, In (x, c, y) (edges t) -> In (y, c) (kids d x).
  Proof.
    apply (tree_ind' (fun t => shape d t -> forall x c y, In (x, c, y) (edges t) -> In (y, c) (kids d x))). intros n cs IH S x c y I.
    inversion S as [? ? E C]; subst. cbn [edges] in I. apply in_flat_map in I as (u & Iu & [[= <- <- <-]|I]); [eapply shape_kid; eauto|eapply IH; eauto].
  Qed.
  Lemma edges_complete : forall t, shape d t -> forall x c y, In x (all_names t) -> In (y, c) (kids d x) -> In (x, c, y) (edges t).
  Proof.
    apply (tree_ind' (fun t => shape d t -> forall x c y, In x (all_names t) -> In (y, c) (kids d x) -> In (x, c, y) (edges t))). intros n cs IH S x c y I K.
    inversion S as [? ? E C]; subst. cbn [edges]. destruct I as [<-|I].
    - rewrite <- E in K. apply in_map_iff in K as (u & [= <- <-] & Iu). apply in_flat_map. exists u. split; auto. now left.
    - apply in_flat_map in I as (u & Iu & I). apply in_flat_map. exists u. split; auto. right. eapply IH; eauto.
  Qed.
  (** A node whose children are listed with a repetition repeats a condition. *)
  Lemma edges_twice : forall t, shape d t -> forall x, In x (all_names t) -> ~ NoDup (kids d x) -> ~ NoDup (edges t).
  Proof.
    apply (tree_ind' (fun t => shape d t -> forall x, In x (all_names t) -> ~ NoDup (kids d x) -> ~ NoDup (edges t))). intros n cs IH S x I K N.
    inversion S as [? ? E C]; subst. cbn [edges] in N. destruct I as [<-|I].
    - apply K. rewrite <- E. clear - N. induction cs as [|c cs IHc]; cbn in *; [constructor|]. inversion N as [|? ? N1 N2]; subst. constructor.
      + intros X. apply in_map_iff in X as (c' & [= E1 E2] & X). apply N1. apply in_or_app. right. apply in_flat_map. exists c'. split; auto. left. congruence.
      + apply IHc. eapply NoDup_app_r. exact N2.
    - apply in_flat_map in I as (c & Ic & I). apply (IH c Ic (C c Ic) x I K). clear - N Ic. induction cs as [|c' cs IHc]; [destruct Ic|]. cbn in N. inversion N as [|? ? N1 N2]; subst.
      destruct Ic as [->|Ic]; [eapply NoDup_app_l; exact N2|]. apply IHc; auto. eapply NoDup_app_r. exact N2.
  Qed.

  (** Every key is in one of the trees. *)
  Lemma cover ts fuel : NoDup (map fst d) -> (forall n, In n (map fst d) -> h n < fuel) ->
    (forall n, In n (map tname ts) <-> In n (map fst d) /\ forall k b, ~ In (n, b) (kids d k)) -> (forall t, In t ts -> shape d t) ->
    forall x, In x (map fst d) -> exists t, In t ts /\ In x (all_names t).
  Proof.
    intros ND Hf R Sh. assert (G : forall m x, fuel - h x <= m -> In x (map fst d) -> exists t, In t ts /\ In x (all_names t)).
    { induction m as [|m IH]; intros x L X; [specialize (Hf x X); lia|].
      destruct (in_dec string_dec x (flat_map (fun p => map fst (snd p)) d)) as [I|I].
      - apply in_flat_map in I as ([p l] & Ip & I). cbn in I. apply in_map_iff in I as ([x' b] & <- & I). cbn in *.
        assert (K : In (x', b) (kids d p)). { unfold kids. rewrite (proj2 (get_Some d p l ND)); auto. }
        assert (P : In p (map fst d)) by (change p with (fst (p, l)); now apply in_map).
        destruct (IH p) as (t & T & N); auto. { pose proof (H _ _ _ K). pose proof (Hf x' X). pose proof (Hf p P). lia. }
        exists t. split; auto. eapply names_down; eauto.
      - assert (T : In x (map tname ts)).
        { apply R. split; auto. intros k b K. apply I. unfold kids in K. destruct (get d k) as [l|] eqn:E; [|destruct K]. apply get_Some in E; auto.
          apply in_flat_map. exists (k, l). split; auto. cbn. change x with (fst (x, b)). now apply in_map. }
        apply in_map_iff in T as (t & <- & T). exists t. split; auto. apply tname_all. }
    intros x. apply (G (fuel - h x)); auto.
  Qed.

  Hypothesis UP : forall p q x b c, In (x, b) (kids d p) -> In (x, c) (kids d q) -> p = q.
  Hypothesis UK : forall p, NoDup (map fst (kids d p)).

  Lemma reach_line a b y : reach a y -> reach b y -> reach a b \/ reach b a.
  Proof.
    intros R. revert b. induction R as [a|a p x c R IH K]; intros b Rb; auto. inversion Rb as [|? q ? c' Rq Kq]; subst.
    - left. eapply reach_step; eauto.
    - apply IH. rewrite (UP _ _ _ _ _ K Kq). auto.
  Qed.
  Lemma names_NoDup : forall t, shape d t -> NoDup (all_names t).
  Proof.
    apply (tree_ind' (fun t => shape d t -> NoDup (all_names t))). intros n cs IH S. inversion S as [? ? E C]; subst. cbn [all_names].
    assert (KC : forall c, In c cs -> In (tname (snd c), fst c) (kids d n)) by (intros; eapply shape_kid; eauto).
    constructor.
    - intros I. apply in_flat_map in I as (c & Ic & I). apply (names_reach _ (C c Ic)), reach_h in I. specialize (H _ _ _ (KC c Ic)). lia.
    - apply (flat_NoDup' _ (fun c => tname (snd c))).
      + replace (map (fun c => tname (snd c)) cs) with (map fst (kids d n)); auto. rewrite <- E, map_map. reflexivity.
      + intros c I. apply IH; auto.
      + assert (G : forall a b, In a cs -> In b cs -> tname (snd a) <> tname (snd b) -> reach (tname (snd a)) (tname (snd b)) -> False).
        { intros a b Ia Ib Ne R. inversion R as [|? p ? c' Rp Kp]; subst; [congruence|]. rewrite <- (UP _ _ _ _ _ (KC b Ib) Kp) in Rp.
          apply reach_h in Rp. specialize (H _ _ _ (KC a Ia)). lia. }
        intros a b x Ia Ib Ne Xa Xb. apply (names_reach _ (C a Ia)) in Xa. apply (names_reach _ (C b Ib)) in Xb. destruct (reach_line _ _ _ Xa Xb); eauto.
  Qed.
  Lemma forest_NoDup ts : NoDup (map tname ts) -> (forall t, In t ts -> shape d t) -> (forall n, In n (map tname ts) -> forall k b, ~ In (n, b) (kids d k)) ->
    NoDup (flat_map all_names ts).
  Proof.
    intros N S R. apply (flat_NoDup' _ tname); auto; [intros; now apply names_NoDup, S|].
    assert (G : forall a b, In a ts -> In b ts -> tname a <> tname b -> reach (tname a) (tname b) -> False).
    { intros a b Ia Ib Ne Rab. inversion Rab as [|? p ? c' Rp Kp]; subst; [congruence|]. eapply R; [|exact Kp]. now apply in_map. }
    intros a b x Ia Ib Ne Xa Xb. apply (names_reach _ (S a Ia)) in Xa. apply (names_reach _ (S b Ib)) in Xb. destruct (reach_line _ _ _ Xa Xb); eauto.
  Qed.
  Lemma edges_NoDup ts : NoDup (flat_map all_names ts) -> NoDup (flat_map edges ts).
  Proof.
    intros N. apply (NoDup_map_inv (fun e : string * string * string => snd e)).
    replace (map (fun e : string * string * string => snd e) (flat_map edges ts)) with (flat_map (fun t => tl (all_names t)) ts).
    - induction ts as [|t ts IH]; cbn [flat_map] in *; [constructor|]. destruct t as [n cs]. cbn [all_names tl app] in *. inversion N as [|? ? N1 N2]; subst.
      assert (I : forall x, In x (flat_map (fun t => tl (all_names t)) ts) -> In x (flat_map all_names ts)).
      { intros x X. apply in_flat_map in X as (u & Iu & X). apply in_flat_map. exists u. split; auto. destruct u. now right. }
      specialize (IH (NoDup_app_r _ _ N2)). pose proof (fun x => NoDup_app_dis _ _ x N2) as D. apply NoDup_app_l in N2. clear N N1. revert D IH I. generalize (flat_map (fun t => tl (all_names t)) ts) as m.
      induction N2 as [|a l A N2 IHl]; cbn; intros m D M I; auto. constructor; [|apply IHl; auto; intros x X; apply D; now right].
      rewrite in_app_iff. intros [X|X]; auto. apply (D a); auto.
    - symmetry. induction ts as [|t ts IH]; cbn [flat_map]; auto. rewrite map_app, child_third, IH; auto. apply (NoDup_app_r _ _ N).
  Qed.
End Trees.

(** ** The conditions of the variables *)
Definition own (l : list cvar) (x : string) : list (string * string) :=
  flat_map (fun v => match cc v with Some (x', c) => if String.eqb x' x then [(cn v, c)] else [] | None => [] end) l.
Lemma own_declared l x c y : In (y, c) (own l x) <-> In (x, c, y) (declared l).
Proof.
  unfold own, declared. rewrite !in_flat_map. split; intros (v & I & X); exists v; split; auto; destruct (cc v) as [[x' c']|]; try (now destruct X).
  - destruct (String.eqb_spec x' x) as [->|]; [|destruct X]. destruct X as [[= <- <-]|[]]. now left.
  - destruct X as [[= -> -> <-]|[]]. rewrite String.eqb_refl. now left.
Qed.
Lemma kids_dappend d k i x : kids (dappend d k i) x = kids d x ++ (if String.eqb k x then [i] else []).
Proof.
  unfold kids, dappend. rewrite get_dset. destruct (String.eqb_spec k x) as [->|]; [|now rewrite app_nil_r]. destruct (get d x); reflexivity.
Qed.
Lemma kids_scan l : forall d x, kids (scan d l) x = kids d x ++ own l x.
Proof.
  unfold scan, own. induction l as [|v l IH]; intros d x; cbn [fold_left flat_map]; [now rewrite app_nil_r|]. rewrite IH. destruct (cc v) as [[x' c]|]; auto.
  rewrite kids_dappend, <- app_assoc. reflexivity.
Qed.
Lemma keys_scan l : forall d k, In k (map fst (scan d l)) <-> In k (map fst d) \/ own l k <> [].
Proof.
  unfold scan, own. induction l as [|v l IH]; intros d k; cbn [fold_left flat_map]; [tauto|]. rewrite IH. destruct (cc v) as [[x c]|]; [|reflexivity].
  unfold dappend. rewrite dset_keys. destruct (String.eqb_spec x k) as [->|Ne]; cbn [app].
  - split; [right; discriminate|auto].
  - intuition congruence.
Qed.
Lemma scan_NoDup l : forall d, NoDup (map fst d) -> NoDup (map fst (scan d l)).
Proof. unfold scan. induction l as [|v l IH]; intros d N; cbn [fold_left]; auto. apply IH. destruct (cc v) as [[x c]|]; auto. now apply dset_NoDup. Qed.
Lemma declared_name l x c y : In (x, c, y) (declared l) -> exists v, In v l /\ cn v = y /\ cc v = Some (x, c).
Proof.
  intros I. apply in_flat_map in I as (v & Iv & I). exists v. destruct (cc v) as [[x' c']|]; [|destruct I]. destruct I as [[= -> -> <-]|[]]. auto.
Qed.
Lemma same_var l v w : NoDup (map cn l) -> In v l -> In w l -> cn v = cn w -> v = w.
Proof.
  induction l as [|u l IH]; cbn; intros N; [intros []|]. inversion N as [|? ? N1 N2]; subst. intros [<-|V] [<-|W] E; auto.
  - exfalso. apply N1. rewrite E. now apply in_map.
  - exfalso. apply N1. rewrite <- E. now apply in_map.
Qed.
Lemma declared_unique l x c x' c' y : NoDup (map cn l) -> In (x, c, y) (declared l) -> In (x', c', y) (declared l) -> x = x' /\ c = c'.
Proof.
  intros N A B. apply declared_name in A as (v & V & E & A). apply declared_name in B as (w & W & E' & B). assert (v = w) by (eapply same_var; eauto; congruence). subst w. split; congruence.
Qed.
Lemma own_NoDup l x : NoDup (map cn l) -> NoDup (map fst (own l x)).
Proof.
  unfold own. induction l as [|v l IH]; cbn; intros N; [constructor|]. inversion N as [|? ? N1 N2]; subst. rewrite map_app. apply NoDup_app_intro; auto.
  - destruct (cc v) as [[x' c]|]; [|constructor]. destruct (String.eqb x' x); repeat constructor. cbn. tauto.
  - intros y A B. assert (y = cn v). { destruct (cc v) as [[x' c]|]; [|destruct A]. destruct (String.eqb x' x); cbn in A; [destruct A as [<-|[]]; auto|destruct A]. } subst y.
    apply N1. apply in_map_iff in B as ([y c] & <- & B). change (In (y, c) (own l x)) in B. apply own_declared, declared_name in B as (w & W & E & _). cbn. rewrite <- E. now apply in_map.
Qed.
Lemma declared_NoDup l : NoDup (map cn l) -> NoDup (declared l).
Proof.
  unfold declared. induction l as [|v l IH]; cbn; intros N; [constructor|]. inversion N as [|? ? N1 N2]; subst. apply NoDup_app_intro; auto.
  - destruct (cc v) as [[x c]|]; repeat constructor. intros [].
  - intros [[x c] y] A B. change (In (x, c, y) (declared l)) in B. apply declared_name in B as (w & W & E & _). destruct (cc v) as [[x' c']|]; [|destruct A]. destruct A as [[= <- <- <-]|[]].
    apply N1. rewrite <- E. now apply in_map.
Qed.
Lemma renamed_id l : NoDup (map cn l) -> renamed l = l.
Proof.
  intros N. unfold renamed. rewrite Proofs_Space.new_names_id by auto. clear N. induction l as [|[n c] l IH]; cbn; auto. now rewrite IH.
Qed.

(** Decreasing numbers from increasing ones. *)
Definition down (rank : string -> nat) (l : list cvar) (x : string) : nat := list_max (map rank (map cn l)) - rank x.
Lemma down_lt rank l x c y : (forall x c y, In (x, c, y) (declared l) -> rank x < rank y) -> In (x, c, y) (declared l) -> down rank l y < down rank l x.
Proof.
  intros R I. specialize (R _ _ _ I). unfold down. assert (L : rank y <= list_max (map rank (map cn l))); [|lia].
  apply declared_name in I as (v & V & E & _). pose proof (proj1 (list_max_le (map rank (map cn l)) _) (le_n _)) as F. rewrite Forall_forall in F. apply F. rewrite <- E. now apply in_map, in_map.
Qed.

Lemma flat_single {A} (f : A -> list A) l : (forall t, In t l -> f t = [t]) -> flat_map f l = l.
Proof. induction l as [|t l IH]; cbn; intros B; auto. rewrite (B t (or_introl eq_refl)), IH; auto. Qed.
(** A depth that is enough. *)
Definition depth_of (rank : string -> nat) (l : list cvar) : nat := S (list_max (map (down rank l) (map cn l))).
(** A dictionary in which each key has children and all children are declared. *)
Lemma structure_gen l rank d : NoDup (map cn l) -> closed l -> (forall x c y, In (x, c, y) (declared l) -> rank x < rank y) ->
  NoDup (map fst d) -> (forall k, In k (map fst d) <-> kids d k <> []) -> (forall x c y, In (y, c) (kids d x) <-> In (x, c, y) (declared l)) ->
  forall fuel, depth_of rank l <= fuel -> exists ts, from_dict fuel d = Some ts /\
    flat_map (fun t => match remove (map cn l) true t with Some u => [u] | None => [] end) ts = ts /\ NoDup (map tname ts) /\ (forall t, In t ts -> shape d t) /\
    (forall n, In n (map tname ts) -> forall k b, ~ In (n, b) (kids d k)) /\ (forall x, In x (map fst d) -> exists t, In t ts /\ In x (all_names t)).
Proof.
  intros N C R ND K E. set (h := down rank l).
  assert (Hd : forall n k b, In (k, b) (kids d n) -> h k < h n). { intros n k b I. apply E in I. eapply down_lt; eauto. }
  intros fuel Hf. assert (Hh : forall n, In n (map fst d) -> h n < fuel).
  { intros n I. assert (In n (map cn l)). { apply K in I. destruct (kids d n) as [|[y c] r] eqn:Q; [congruence|]. apply (C n c y). apply E. rewrite Q. now left. }
    pose proof (proj1 (list_max_le (map h (map cn l)) _) (le_n _)) as F. rewrite Forall_forall in F. specialize (F (h n) (in_map h _ _ H)). unfold depth_of in Hf. fold h in Hf. lia. }
  destruct (from_dict_gen d h Hd fuel ND Hh) as (ts & F & N1 & Sh & Rt). { intros n I. now apply K. }
  exists ts. split; auto. split; [|split; [|split; [|split]]]; auto.
  - assert (A : forall t, In t ts -> keep (map cn l) t = Some t).
    { intros t It. apply keep_all. intros x Ix. apply (names_reach d t (Sh t It)) in Ix. inversion Ix as [|? p ? b _ I]; subst.
      - assert (X : In (tname t) (map fst d)) by (apply Rt; now apply in_map). apply K in X. destruct (kids d (tname t)) as [|[y c] r] eqn:Q; [congruence|].
        apply (C (tname t) c y). apply E. rewrite Q. now left.
      - apply E, declared_name in I as (v & V & <- & _). now apply in_map. }
    assert (B : forall t, In t ts -> match remove (map cn l) true t with Some u => [u] | None => [] end = [t]) by (intros t It; unfold remove; now rewrite (A t It)).
    apply flat_single. exact B.
  - intros n I. apply Rt in I. tauto.
  - eapply (cover d h); eauto.
Qed.

(** Constructing a space. *)
Lemma construct_ok l rank : NoDup (map cn l) -> closed l -> (forall x c y, In (x, c, y) (declared l) -> rank x < rank y) ->
  forall fuel, depth_of rank l <= fuel -> exists ts, construct fuel ANone l = Ok (CS l ts) /\ set_structure fuel ANone l = Ok ts /\
    NoDup (flat_map all_names ts) /\ Permutation (flat_map edges ts) (declared l).
Proof.
  intros N C R fuel Hf. set (d := scan [] l).
  assert (K : forall x, kids d x = own l x). { intros x. unfold d. now rewrite kids_scan. }
  assert (ND : NoDup (map fst d)) by (apply scan_NoDup; constructor).
  assert (KN : forall k, In k (map fst d) <-> kids d k <> []). { intros k. rewrite K. unfold d. rewrite keys_scan. cbn. tauto. }
  assert (KD : forall x c y, In (y, c) (kids d x) <-> In (x, c, y) (declared l)). { intros x c y. rewrite K. apply own_declared. }
  destruct (structure_gen l rank d N C R ND KN KD fuel Hf) as (ts & F & Id & N1 & Sh & Rt & Cv).
  assert (Hd : forall n k b, In (k, b) (kids d n) -> down rank l k < down rank l n). { intros n k b I. apply KD in I. eapply down_lt; eauto. }
  assert (UP : forall p q x b c, In (x, b) (kids d p) -> In (x, c) (kids d q) -> p = q). { intros p q x b c A B. apply KD in A. apply KD in B. apply (declared_unique l p b q c x N A B). }
  assert (UK : forall p, NoDup (map fst (kids d p))). { intros p. rewrite K. now apply own_NoDup. }
  assert (SS : set_structure fuel ANone l = Ok ts). { unfold set_structure. cbn [start]. fold d. rewrite F, Id. reflexivity. }
  assert (NN : NoDup (flat_map all_names ts)) by (eapply (forest_NoDup d); eauto).
  exists ts. split; [unfold construct; rewrite renamed_id, SS by auto; reflexivity|]. split; auto. split; auto.
  apply NoDup_Permutation; [now apply edges_NoDup|now apply declared_NoDup|]. intros [[x c] y]. rewrite <- KD. split.
  - intros I. apply in_flat_map in I as (t & It & I). eapply edges_sound; eauto.
  - intros I. assert (X : In x (map fst d)). { apply KN. intros Z. rewrite Z in I. destruct I. } destruct (Cv x X) as (t & It & Ix). apply in_flat_map. exists t. split; auto. eapply edges_complete; eauto.
Qed.

(** ** The dictionary of a forest *)
Lemma edges_flat : forall t x c y, In (x, c, y) (edges t) <-> exists l, In (x, l) (flat t) /\ In (y, c) l.
Proof.
  apply (tree_ind' (fun t => forall x c y, In (x, c, y) (edges t) <-> exists l, In (x, l) (flat t) /\ In (y, c) l)). intros n cs IH x c y.
  assert (G : (exists l, In (x, l) (flat (Node n cs)) /\ In (y, c) l) <-> (x = n /\ In (y, c) (infos cs)) \/ exists l, In (x, l) (flats cs) /\ In (y, c) l).
  { destruct cs as [|c0 cs0]; [cbn; split; [intros (l & [] & _)|intros [[_ []]|(l & [] & _)]]|]. change (flat (Node n (c0 :: cs0))) with ((n, infos (c0 :: cs0)) :: flats (c0 :: cs0)). cbn [In]. split.
    - intros (l & [[= -> <-]|I] & J); [left; auto|right; eauto].
    - intros [[-> J]|(l & I & J)]; eauto. }
  rewrite G. clear G. cbn [edges]. rewrite in_flat_map. unfold infos, flats. split.
  - intros (u & Iu & [[= <- <- <-]|I]).
    + left. split; auto. apply (in_map (fun p => (tname (snd p), fst p)) _ _ Iu).
    + right. apply (IH u Iu) in I as (l & I & J). exists l. split; auto. apply in_flat_map. eauto.
  - intros [[-> I]|(l & I & J)].
    + apply in_map_iff in I as (u & [= <- <-] & Iu). exists u. split; auto. now left.
    + apply in_flat_map in I as (u & Iu & I). exists u. split; auto. right. apply (IH u Iu). eauto.
Qed.
Lemma forest_flat_NoDup ts : NoDup (flat_map all_names ts) -> NoDup (map fst (flat_map flat ts)).
Proof.
  induction ts as [|t ts IH]; cbn; intros N; [constructor|]. rewrite map_app. apply NoDup_app_intro.
  - apply flat_NoDup. eapply NoDup_app_l; eauto.
  - apply IH. eapply NoDup_app_r; eauto.
  - intros x A B. apply flat_keys in A. apply (NoDup_app_dis _ _ x N A). clear - B. induction ts as [|u ts IH]; cbn in *; auto. rewrite map_app, in_app_iff in B. apply in_or_app.
    destruct B as [B|B]; auto. left. now apply flat_keys.
Qed.
Lemma kids_forest ts x c y : NoDup (flat_map all_names ts) -> In (y, c) (kids (forest_dict ts) x) <-> In (x, c, y) (flat_map edges ts).
Proof.
  intros N. rewrite forest_dict_flat by auto. pose proof (forest_flat_NoDup ts N) as NF. rewrite in_flat_map. split.
  - intros I. unfold kids in I. destruct (get (flat_map flat ts) x) as [l|] eqn:E; [|destruct I]. apply get_Some in E; auto. apply in_flat_map in E as (t & It & E). exists t. split; auto. apply edges_flat. eauto.
  - intros (t & It & I). apply edges_flat in I as (l & I & J). unfold kids. rewrite (proj2 (get_Some _ x l NF)); auto. apply in_flat_map. eauto.
Qed.
Lemma forest_keys ts k : NoDup (flat_map all_names ts) -> In k (map fst (forest_dict ts)) <-> kids (forest_dict ts) k <> [].
Proof.
  intros N. rewrite forest_dict_flat by auto. pose proof (forest_flat_NoDup ts N) as NF. split.
  - intros I. apply in_map_iff in I as ([k' l] & <- & I). cbn [fst]. unfold kids. rewrite (proj2 (get_Some _ k' l NF) I). apply in_flat_map in I as (t & _ & I). clear N NF.
    revert I. apply (tree_ind' (fun t => In (k', l) (flat t) -> l <> [])). intros n cs IH I. destruct cs as [|c0 cs0]; [destruct I|].
    change (flat (Node n (c0 :: cs0))) with ((n, infos (c0 :: cs0)) :: flats (c0 :: cs0)) in I. destruct I as [[= <- <-]|I]; [discriminate|]. apply in_flat_map in I as (u & Iu & I). eapply IH; eauto.
  - intros I. apply get_In. unfold kids in I. destruct (get (flat_map flat ts) k); congruence.
Qed.

Lemma nodes_some ts : nodes (map Some ts) = Some ts.
Proof. induction ts as [|t ts IH]; cbn; auto. now rewrite IH. Qed.
Lemma nth_all {A} (l : list A) : flat_map (fun p => match nth_error l p with Some v => [v] | None => [] end) (seq 0 (List.length l)) = l.
Proof.
  induction l as [|a l IH]; cbn [List.length seq flat_map]; auto. cbn [nth_error app]. rewrite <- seq_shift, flat_map_concat_map, map_map, <- flat_map_concat_map. cbn [nth_error]. now rewrite IH.
Qed.

(** Setting the structure again, from its own trees. *)
Lemma again_twice l rank ts : NoDup (map cn l) -> closed l -> (forall x c y, In (x, c, y) (declared l) -> rank x < rank y) -> declared l <> [] ->
  NoDup (flat_map all_names ts) -> Permutation (flat_map edges ts) (declared l) ->
  forall fuel, depth_of rank l <= fuel -> exists ts', set_structure fuel (ATrees (map Some ts)) l = Ok ts' /\ ~ NoDup (flat_map edges ts').
Proof.
  intros N C R NE NT P fuel Hf. set (d := scan (forest_dict ts) l).
  assert (K : forall x, kids d x = kids (forest_dict ts) x ++ own l x) by (intros x; apply kids_scan).
  assert (KF : forall x c y, In (y, c) (kids (forest_dict ts) x) <-> In (x, c, y) (declared l)).
  { intros x c y. rewrite kids_forest by auto. split; apply Permutation_in; auto. now apply Permutation_sym. }
  assert (ND : NoDup (map fst d)). { apply scan_NoDup. rewrite forest_dict_flat by auto. now apply forest_flat_NoDup. }
  assert (KD : forall x c y, In (y, c) (kids d x) <-> In (x, c, y) (declared l)). { intros x c y. rewrite K, in_app_iff, KF, own_declared. tauto. }
  assert (KN : forall k, In k (map fst d) <-> kids d k <> []).
  { intros k. rewrite K. unfold d. rewrite keys_scan, forest_keys by auto. destruct (kids (forest_dict ts) k), (own l k); cbn; split; intros; try (left; congruence); try (right; congruence); try discriminate; tauto. }
  destruct (structure_gen l rank d N C R ND KN KD fuel Hf) as (ts' & F & Id & N1 & Sh & Rt & Cv).
  exists ts'. split. { unfold set_structure. cbn [start]. rewrite nodes_some. cbn [option_map]. fold d. rewrite F, Id. reflexivity. }
  destruct (declared l) as [|[[x c] y] r] eqn:ED; [congruence|]. assert (I : In (x, c, y) (declared l)) by (rewrite ED; now left).
  assert (I2 : In (y, c) (kids d x)) by (apply KD; now left). assert (X : In x (map fst d)). { apply KN. intros Z. rewrite Z in I2. destruct I2. }
  destruct (Cv x X) as (t & It & Ix). intros ND'. apply (edges_twice d t (Sh t It) x Ix).
  - rewrite K. intros ND2. apply (NoDup_app_dis _ _ (y, c) ND2); [apply KF; now left|now apply own_declared].
  - clear - It ND'. induction ts' as [|u ts' IH]; [destruct It|]. cbn in ND'. destruct It as [->|It]; [eapply NoDup_app_l; eauto|]. apply IH; auto. eapply NoDup_app_r; eauto.
Qed.
