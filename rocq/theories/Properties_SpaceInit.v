(** Constructing search spaces of one type (C248-C251). *)
From Coq Require Import List Bool Arith ZArith QArith String Lia.
From Verif Require Import Model_Var Model_Opt Model_Space Model_SpaceDict Model_SpaceInit Spec_SpaceInit Proofs_Space Proofs_SpaceInit.
From Verif Require Proofs_Ask.
Import ListNotations.
Open Scope nat_scope.

Lemma built c lls n d p s t h sp : c <> CBool -> lls <> [] -> names_fit n (List.length lls) -> new_space c (map ESeq lls) n d p s t = Ok (h, sp) ->
  List.length (variables h sp) = List.length lls /\ names sp = map vn (variables h sp) /\
  forall i, i < List.length lls -> exists v, nth_error (variables h sp) i = Some v /\
    make_var c (Row (nth i lls []) (name_at n (List.length lls) i) (raw d i) (raw p i) (raw s i) (raw t i)) = Ok v.
Proof.
  intros NB NE F. unfold new_space. replace (match c with CBool => _ | _ => map ESeq lls end) with (map ESeq lls) by (destruct c; congruence).
  destruct (ready_args _ _ _ _ _ _) as [rows|] eqn:R; [|discriminate]. destruct (mapM (make_var c) rows) as [vs|] eqn:M; [|discriminate].
  intros E0. assert (E : set_data vs (seq 0 (List.length vs)) = (h, sp)) by (injection E0; intros; unfold set_data; cbn zeta; congruence). clear E0. destruct (ready_ok _ _ _ _ _ _ _ NE R) as (Lr & _ & Nr). destruct (mapM_nth _ _ _ M) as (Lv & Nv).
  assert (A : forall i, i < List.length lls -> exists v, nth_error vs i = Some v /\
    make_var c (Row (nth i lls []) (name_at n (List.length lls) i) (raw d i) (raw p i) (raw s i) (raw t i)) = Ok v).
  { intros i Hi. apply (Nv i _ (Nr i Hi)). }
  assert (ND : NoDup (map vn vs)).
  { apply (NoDup_nth _ EmptyString). rewrite map_length, Lv, Lr. intros i j Hi Hj Eq.
    destruct (A i Hi) as (v & Vi & Mi). destruct (A j Hj) as (w & Wj & Mj). apply make_ok in Mi as (Ni & _); auto. apply make_ok in Mj as (Nj & _); auto.
    assert (G : forall k u, nth_error vs k = Some u -> nth k (map vn vs) EmptyString = vn u).
    { intros k u U. apply nth_error_nth. rewrite nth_error_map, U. reflexivity. }
    rewrite (G _ _ Vi), (G _ _ Wj) in Eq. apply (name_at_inj n (List.length lls)); auto. congruence. }
  destruct (fresh_vars vs h sp ND E) as (-> & ->). split; [lia|]. split; auto.
Qed.

(** ** C248: the variables are those that were asked for. *)
Theorem C248_variables c lls n d p s t h sp : c <> CBool -> lls <> [] -> names_fit n (List.length lls) ->
  new_space c (map ESeq lls) n d p s t = Ok (h, sp) ->
  let dim := List.length lls in
  List.length (variables h sp) = dim /\ names sp = map (name_at n dim) (seq 0 dim) /\
  forall i, i < dim -> exists v, nth_error (variables h sp) i = Some v /\
    vn v = name_at n dim i /\ vdef v = given d i /\ described c (nth i lls []) p s t i v.
Proof.
  intros NB NE F E dim. destruct (built _ _ _ _ _ _ _ _ _ NB NE F E) as (L & N & A). split; auto. split.
  - rewrite N. apply (nth_ext _ _ EmptyString EmptyString); [rewrite !map_length, seq_length; auto|]. intros i Hi. rewrite map_length, L in Hi.
    destruct (A i Hi) as (v & Vi & Mi). apply make_ok in Mi as (Ni & _); auto.
    rewrite (nth_indep (map vn _) EmptyString (vn no_var)), map_nth by (rewrite map_length; lia). rewrite (nth_error_nth _ _ _ Vi), Ni.
    rewrite (nth_indep (map (name_at n dim) _) EmptyString (name_at n dim 0)), map_nth by (rewrite map_length, seq_length; auto). now rewrite seq_nth.
  - intros i Hi. destruct (A i Hi) as (v & Vi & Mi). apply make_ok in Mi as (Ni & Di & Ci & _); auto. exists v. auto.
Qed.
Print Assumptions C248_variables.
(** Sensible arguments are accepted. *)
Theorem C248_accepts c lls n d p s t : lls <> [] -> names_fit n (List.length lls) ->
  fits d (List.length lls) -> fits p (List.length lls) -> fits s (List.length lls) -> fits t (List.length lls) ->
  (forall i, i < List.length lls -> sensible c (nth i lls []) d s t i) -> exists h sp, new_space c (map ESeq lls) n d p s t = Ok (h, sp).
Proof.
  intros NE F Fd Fp Fs Ft Sn. assert (NB : c <> CBool). { intros ->. apply (Sn 0). destruct lls; cbn; [congruence|lia]. }
  unfold new_space. replace (match c with CBool => _ | _ => map ESeq lls end) with (map ESeq lls) by (destruct c; congruence).
  destruct (ready_all lls n d p s t NE F Fd Fp Fs Ft) as (rows & R). rewrite R. destruct (ready_ok _ _ _ _ _ _ _ NE R) as (Lr & _ & Nr).
  destruct (mapM_all (make_var c) rows) as (vs & M). { intros i a Hi. assert (I : i < List.length lls) by (rewrite <- Lr; apply nth_error_Some; congruence). rewrite (Nr i I) in Hi. injection Hi as <-. apply make_all; auto. }
  rewrite M. destruct (set_data _ _) as [h sp]. eauto.
Qed.
Print Assumptions C248_accepts.
(** A flat list of numbers, bools or strings is one range. *)
Theorem C248_one_range c v l n d p s t : new_space c (map EVal (v :: l)) n d p s t = new_space c [ESeq (v :: l)] n d p s t.
Proof.
  unfold new_space. destruct c; auto; unfold ready_args, ranges; cbn [map mapM tuple_of value_of]; rewrite map_map; cbn [value_of]; rewrite map_id; reflexivity.
Qed.
Print Assumptions C248_one_range.
Example C248_example : exists h sp, new_space CReal [ESeq [VI 0; VI 1]; ESeq [VR (-(1#2)); VI 3]] (NOne "x") (OList [None; Some (VI 2)]) (OOne 2%Z) ONone ONone = Ok (h, sp) /\
  variables h sp = [mkV "x0" (KReal 0 1 (Some 2%Z)) None "linear"; mkV "x1" (KReal (-(1#2)) 3 (Some 2%Z)) (Some (VI 2)) "linear"].
Proof. eexists. eexists. split; vm_compute; reflexivity. Qed.

(** Refused: no range at all, and a number where a range is expected. *)
Theorem C248_refuses c l b n d p s t : c <> CBool ->
  (exists e, new_space c [] n d p s t = Err e) /\
  ((exists r l', l = ESeq r :: l') -> In (EVal b) l -> (forall x, b <> VS x) -> exists e, new_space c l n d p s t = Err e).
Proof.
  intros C. split; [destruct c; try congruence; eexists; reflexivity|]. intros (r & l' & ->) I NS.
  assert (M : forall m, In (EVal b) m -> exists e, mapM tuple_of m = Err e).
  { induction m as [|a m IH]; intros Im; [destruct Im|]. cbn [mapM]. destruct Im as [->|Im].
    - destruct b; cbn [tuple_of]; eauto. exfalso. eapply NS. reflexivity.
    - destruct (tuple_of a); eauto. destruct (IH Im) as (e & ->). eauto. }
  destruct (M _ I) as (e & E). exists e. unfold new_space. replace (match c with CBool => _ | _ => ESeq r :: l' end) with (ESeq r :: l') by (destruct c; congruence).
  unfold ready_args, ranges. rewrite E. reflexivity.
Qed.
Print Assumptions C248_refuses.
Example C248_refuses_case : new_space CReal [ESeq [VI 0; VI 1]; EVal (VI 3)] (NOne "x") ONone ONone ONone ONone = Err TypeE.
Proof. reflexivity. Qed.
(** ** C249: the default value of a variable is in its range. *)
Theorem C249_default_partial c lls n d p s t h sp i v x : c <> CBool -> lls <> [] -> names_fit n (List.length lls) ->
  new_space c (map ESeq lls) n d p s t = Ok (h, sp) -> in_working_range c (nth i lls []) (scale_at s i) ->
  nth_error (variables h sp) i = Some v -> vdef v = Some x -> contains (vk v) x = Some true.
Proof.
  intros NB NE F E W V D. destruct (built _ _ _ _ _ _ _ _ _ NB NE F E) as (L & N & A).
  assert (Hi : i < List.length lls) by (rewrite <- L; apply nth_error_Some; congruence). destruct (A i Hi) as (v' & Vi & Mi). assert (v' = v) by congruence. subst v'.
  apply make_ok in Mi as (_ & Di & _ & C); auto. apply C; auto. congruence.
Qed.
Print Assumptions C249_default_partial.
(** Refuted: the default value is checked before the scale moves the bounds. *)
Theorem C249_default_refuted : exists h sp v x,
  new_space CReal [ESeq [VI (-5); VI 5]] (NOne "x") (OOne (VI (-1))) ONone (OOne "log"%string) ONone = Ok (h, sp) /\
  nth_error (variables h sp) 0 = Some v /\ vdef v = Some x /\ contains (vk v) x = Some false.
Proof.
  eexists. eexists. eexists. eexists. split; [vm_compute; reflexivity|]. split; [vm_compute; reflexivity|]. split; [reflexivity|]. vm_compute. reflexivity.
Qed.
Print Assumptions C249_default_refuted.
Example C249_example : exists h sp v, new_space CReal [ESeq [VI 1; VI 5]] (NOne "x") (OOne (VI 2)) ONone (OOne "log"%string) ONone = Ok (h, sp) /\
  nth_error (variables h sp) 0 = Some v /\ vdef v = Some (VI 2) /\ in_working_range CReal [VI 1; VI 5] "log".
Proof.
  eexists. eexists. eexists. split; [vm_compute; reflexivity|]. split; [vm_compute; reflexivity|]. split; [reflexivity|].
  intros _ a b rest lb ub [= <- <- <-] [= <-] [= <-]. split; vm_compute; discriminate.
Qed.

(** ** C250: the default value of a subset variable. *)
(** Wrapped in a list it is accepted. *)
Theorem C250_subset_partial elems l n : In l (flat_map (combinations elems) (seq 1 (List.length elems))) -> names_fit n 1 ->
  exists h sp v, new_space CSubset [ESeq elems] n (OList [Some (VT l)]) ONone ONone ONone = Ok (h, sp) /\ variables h sp = [v] /\ vk v = KSubset elems /\ vdef v = Some (VT l).
Proof.
  intros I F. destruct (C248_accepts CSubset [elems] n (OList [Some (VT l)]) ONone ONone ONone) as (h & sp & E); cbn; auto; try discriminate.
  - intros [|i] Hi; [|lia]. cbn. f_equal. apply existsb_exists.
    unfold subset_levels. assert (X : forall seen ls, In (VT l) ls -> (exists w, In w seen /\ val_eqb (VT l) w = true) \/ (exists w, In w (dedup_aux seen ls) /\ val_eqb (VT l) w = true)).
    { intros seen ls. revert seen. induction ls as [|w ls IH]; intros seen J; [destruct J|]; destruct J as [->|J]; cbn [dedup_aux].
      - destruct (existsb (val_eqb (VT l)) seen) eqn:X; [left; now apply existsb_exists in X|right]. exists (VT l). split; [left; auto|]. apply Proofs_Ask.val_eqb_refl.
      - destruct (existsb (val_eqb w) seen) eqn:X; [apply IH; auto|]. destruct (IH (w :: seen) J) as [(u & Hu & Eu)|(u & U & Eu)]; [destruct Hu as [Hu|U]; [subst u|]|].
        + right. exists w. split; [left; auto|auto].
        + left. eauto.
        + right. exists u. split; [right; auto|auto]. }
    destruct (X [] (map VT (flat_map (combinations elems) (seq 1 (List.length elems))))) as [(w & [] & _)|R]; [now apply in_map|]. exact R.
  - destruct (C248_variables CSubset [elems] n (OList [Some (VT l)]) ONone ONone ONone h sp) as (L & _ & A); auto; try discriminate.
    destruct (A 0) as (v & V & _ & D & K); [cbn; lia|]. exists h, sp, v. split; auto. cbn in L. destruct (variables h sp) as [|v' [|]]; try discriminate. injection V as ->. auto.
Qed.
Print Assumptions C250_subset_partial.
(** Refuted: given as it is, a tuple, it is taken for a list with one default value for each variable and raises. *)
Theorem C250_subset_refuted elems l n : List.Forall (fun v => match v with VT _ => False | _ => True end) l -> l <> [] ->
  exists e, new_space CSubset [ESeq elems] n (OList (map Some l)) ONone ONone ONone = Err e.
Proof.
  intros NT NE. destruct (new_space CSubset [ESeq elems] n (OList (map Some l)) ONone ONone ONone) as [[h sp]|e] eqn:E; [|eauto]. exfalso.
  unfold new_space in E. destruct (ready_args [ESeq elems] n (OList (map Some l)) ONone ONone ONone) as [rows|] eqn:R; [|discriminate].
  destruct (ready_ok [elems] n (OList (map Some l)) ONone ONone ONone rows) as (Lr & F & Nr); [discriminate|exact R|].
  destruct (mapM (make_var CSubset) rows) as [vs|] eqn:M; [|discriminate]. destruct (mapM_nth _ _ _ M) as (_ & Nv). destruct (Nv 0 _ (Nr 0 (le_n 1))) as (v & _ & Mk).
  cbn in F. rewrite map_length in F. destruct l as [|x [|]]; try discriminate. 
  assert (X : existsb (val_eqb x) (subset_levels elems) = true).
  { change (match check_default (KSubset elems) (Some x) with Err e => Err e | Ok d => Ok (mkV (name_at n 1 0) (KSubset elems) d "") end = Ok v) in Mk.
    unfold check_default, contains in Mk. change (levels (KSubset elems)) with (subset_levels elems) in Mk. destruct (existsb (val_eqb x) (subset_levels elems)); [reflexivity|discriminate]. }
  apply existsb_exists in X as (w & W & Ew). inversion NT as [|? ? Tx _].
  assert (T : forall seen ls, Forall (fun u => exists k, u = VT k) ls -> Forall (fun u => exists k, u = VT k) (dedup_aux seen ls)).
  { intros seen ls. revert seen. induction ls as [|u ls IH]; intros seen Hf; cbn; auto. inversion Hf. destruct (existsb _ _); auto. }
  assert (Tw : exists k, w = VT k).
  { assert (G : Forall (fun u => exists k, u = VT k) (subset_levels elems)).
    { apply T. apply Forall_forall. intros u U. apply in_map_iff in U as (k & <- & _). eauto. }
    rewrite Forall_forall in G. apply G; auto. }
  destruct Tw as (k & ->). destruct x; cbn in Ew; try discriminate; try contradiction.
Qed.
Print Assumptions C250_subset_refuted.
Example C250_example : In [VS "a"; VS "c"] (flat_map (combinations [VS "a"; VS "b"; VS "c"]) (seq 1 3)) /\ names_fit (NOne "s") 1.
Proof. split; [cbn; tauto|exact I]. Qed.

(** ** C251: Boolean variables. *)
(** One name. *)
Theorem C251_bool_partial n d b : names_fit n 1 -> (d = ONone /\ b = true \/ d = OOne (VB b)) ->
  exists h sp, new_space CBool [] n d ONone ONone ONone = Ok (h, sp) /\ variables h sp = [mkV (name_at n 1 0) KBool (Some (VB b)) ""].
Proof.
  intros F D. assert (G : forall v : vobj, exists h sp, set_data [v] [0] = (h, sp) /\ variables h sp = [v]).
  { intros v. destruct (set_data [v] [0]) as [h sp] eqn:E. exists h, sp. split; auto. apply (fresh_vars [v]); auto. constructor; [intros []|constructor]. }
  destruct (G (mkV (name_at n 1 0) KBool (Some (VB b)) "")) as (h & sp & E & V). exists h, sp. split; auto. rewrite <- E.
  destruct n as [s|[|s [|]]]; cbn in F; try (destruct F; discriminate); destruct D as [(-> & ->)| ->]; reflexivity.
Qed.
Print Assumptions C251_bool_partial.
(** Default values that are no Booleans are refused. *)
Theorem C251_default_refused n v : names_fit n 1 -> (forall b, v <> VB b) -> exists e, new_space CBool [] n (OOne v) ONone ONone ONone = Err e.
Proof.
  intros F NB. destruct n as [x|l]; [|destruct l as [|x [|y l]]; cbn in F; try discriminate]; destruct v; try (eexists; reflexivity); exfalso; eapply NB; reflexivity.
Qed.
Print Assumptions C251_default_refused.
(** Refuted: several names raise, whatever the default values. *)
Theorem C251_bool_refuted l d : List.length l <> 1 -> new_space CBool [] (NList l) d ONone ONone ONone = Err AssertionE.
Proof.
  intros N. unfold new_space, ready_args. cbn [ranges]. cbn [List.length names_of]. destruct (Nat.eqb_spec (List.length l) 1); [congruence|]. reflexivity.
Qed.
Print Assumptions C251_bool_refuted.
Example C251_example : List.length ["a"; "b"]%string <> 1 /\ names_fit (NList ["a"%string]) 1.
Proof. cbn. split; [lia|]. split; auto. repeat constructor. cbn. tauto. Qed.
