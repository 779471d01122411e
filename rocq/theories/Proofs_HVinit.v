(** The multilist after initialisation, and the hypervolume for up to three objectives (C21, C145). *)
From Coq Require Import List Bool Arith ZArith QArith Permutation Sorted Lia Lqa Setoid.
From Verif Require Import Lib_List Model_Pareto Spec_Pareto Model_HV Spec_HV Proofs_HVmeasure Proofs_HV Proofs_HVlevel.
Import ListNotations.
Open Scope nat_scope.

Section Init.
Variables (n m : nat) (data : nat -> nat -> Q).
Notation before := (before data).

(** * Sorting *)
Lemma Qltb_spec a b : Qltb a b = true -> (a < b)%Q.
Proof. intros C. unfold Qltb in C. apply negb_true_iff in C. now apply Qle_bool_false. Qed.
Lemma Qltb_spec' a b : Qltb a b = false -> (b <= a)%Q.
Proof. intros C. unfold Qltb in C. apply negb_false_iff in C. now apply Qle_bool_iff. Qed.
Lemma insert_perm k x l : Permutation (insert data k x l) (x :: l).
Proof.
  induction l as [|a l IH]; simpl; [reflexivity|]. destruct (Qltb _ _); [reflexivity|].
  rewrite IH. apply perm_swap.
Qed.
Lemma insert_sorted k x l : StronglySorted (before k) l -> StronglySorted (before k) (insert data k x l).
Proof.
  induction 1 as [|a l H IH F]; simpl; [repeat constructor|]. destruct (Qltb (data x k) (data a k)) eqn:C.
  - apply Qltb_spec in C. constructor; [constructor; assumption|]. constructor; [unfold Proofs_HVlevel.before; lra|].
    rewrite Forall_forall in *. intros z Hz. specialize (F z Hz). unfold Proofs_HVlevel.before in *. lra.
  - apply Qltb_spec' in C. constructor; [exact IH|]. rewrite Forall_forall in *. intros z Hz.
    apply (Permutation_in z (insert_perm k x l)) in Hz. destruct Hz as [<-|Hz]; [exact C|now apply F].
Qed.
Lemma sort_ok k l : Permutation (sort_by data k l) l /\ StronglySorted (before k) (sort_by data k l).
Proof.
  unfold sort_by. assert (H : forall acc, StronglySorted (before k) acc ->
    Permutation (fold_left (fun acc x => insert data k x acc) l acc) (acc ++ l) /\
    StronglySorted (before k) (fold_left (fun acc x => insert data k x acc) l acc)).
  { induction l as [|a l IH]; intros acc S; simpl; [rewrite app_nil_r; auto|].
    destruct (IH (insert data k a acc) (insert_sorted k a acc S)) as [P Q]. split; [|exact Q].
    rewrite P, (insert_perm k a acc). simpl. apply Permutation_middle. }
  exact (H [] (SSorted_nil _)).
Qed.

(** * append *)
Definition rest_eq (st st' : mlist) : Prop := ign st = ign st' /\ ar st = ar st' /\ vol st = vol st' /\ bd st = bd st'.
Lemma append_ok st x k L : linked n st k L -> NoDup (n :: L ++ [x]) ->
  linked n (append n st x k) k (L ++ [x]).
Proof.
  intros H ND. unfold linked in *. destruct (exists_last (l := n :: L) ltac:(discriminate)) as [L' [p E]].
  assert (Ep : pv st k n = p).
  { rewrite app_comm_cons, E, <- app_assoc in H. simpl app in H. apply chain_app in H. destruct H as [_ [_ [H _]]]. exact H. }
  assert (H1 : chain (nx st k) (pv st k) (L' ++ [p])).
  { rewrite app_comm_cons, E, <- app_assoc in H. simpl app in H. apply chain_app in H. exact (proj1 H). }
  assert (Nx : nx (append n st x k) k = upd (upd (nx st k) x n) p x).
  { unfold append. simpl. rewrite Ep. unfold upd2, upd at 1. rewrite Nat.eqb_refl. unfold upd at 1 2. rewrite Nat.eqb_refl. reflexivity. }
  assert (Px : pv (append n st x k) k = upd (upd (pv st k) x p) n x).
  { unfold append. simpl. rewrite Ep. unfold upd2, upd at 1. rewrite Nat.eqb_refl. unfold upd at 1 2. rewrite Nat.eqb_refl. reflexivity. }
  rewrite Nx, Px. rewrite app_comm_cons in ND. rewrite !app_comm_cons, E, <- !app_assoc. rewrite E in ND. simpl app.
  assert (Dx : ~ In x (L' ++ [p])) by (intros I; exact (NoDup_app_dis _ _ x ND I (or_introl eq_refl))).
  assert (NP : NoDup (L' ++ [p])) by (now apply NoDup_app_l in ND).
  assert (nx' : x <> n) by (intros ->; apply Dx; rewrite <- E; now left).
  assert (px' : x <> p) by (intros ->; apply Dx, in_or_app; right; now left).
  apply chain_app. split.
  - apply chain_upd; [rewrite removelast_last; intros I; exact (NoDup_app_dis _ _ p NP I (or_introl eq_refl))| |].
    + rewrite <- E in *. simpl. inversion NP. assumption.
    + apply chain_upd; [rewrite removelast_last; intros I; apply Dx, in_or_app; now left| |exact H1].
      rewrite <- E in *. simpl. intros I. apply Dx. now right.
  - unfold upd. cbn [chain]. rewrite !Nat.eqb_refl. rewrite (proj2 (Nat.eqb_neq x p) px'), (proj2 (Nat.eqb_neq x n) nx'). auto.
Qed.
Lemma append_other st x k j : j <> k -> forall z, nx (append n st x k) j z = nx st j z /\ pv (append n st x k) j z = pv st j z.
Proof. intros H z. unfold append. simpl. unfold upd2, upd. rewrite (proj2 (Nat.eqb_neq j k) H). auto. Qed.
Lemma append_rest st x k : rest_eq (append n st x k) st.
Proof. repeat split. Qed.

Definition appends st k l := fold_left (fun st x => append n st x k) l st.
Lemma appends_ok k l : forall st L, linked n st k L -> NoDup (n :: L ++ l) ->
  linked n (appends st k l) k (L ++ l) /\ rest_eq (appends st k l) st /\
  forall j, j <> k -> forall z, nx (appends st k l) j z = nx st j z /\ pv (appends st k l) j z = pv st j z.
Proof.
  induction l as [|x l IH]; intros st L H ND; [simpl; rewrite app_nil_r; repeat split; auto|]. simpl.
  assert (ND' : NoDup (n :: (L ++ [x]) ++ l)) by (now rewrite <- app_assoc).
  destruct (IH (append n st x k) (L ++ [x])) as [H1 [H2 H3]].
  { apply append_ok; [exact H|]. rewrite app_comm_cons in ND'. now apply NoDup_app_l in ND'. }
  { exact ND'. }
  rewrite <- app_assoc in H1. split; [exact H1|]. split.
  - destruct H2 as [E1 [E2 [E3 E4]]]. repeat split; [rewrite E1|rewrite E2|rewrite E3|rewrite E4]; reflexivity.
  - intros j Hj z. destruct (H3 j Hj z) as [-> ->]. now apply append_other.
Qed.

(** * initialize *)
Fixpoint order (k : nat) : list nat := sort_by data k (match k with 0 => seq 0 n | S j => order j end).
Lemma order_ok k : Permutation (order k) (seq 0 n) /\ StronglySorted (before k) (order k).
Proof.
  induction k as [|k [IH _]]; simpl order; [apply sort_ok|]. destruct (sort_ok (S k) (order k)) as [H1 H2].
  split; [now rewrite H1|exact H2].
Qed.
Definition clear : mlist := ML (fun _ _ => n) (fun _ _ => n) (fun _ => 0) (fun _ _ => 0%Q) (fun _ _ => 0%Q) (fun _ => None).
Lemma initialize_ok : (forall k, k < m -> linked n (initialize n m data) k (order k)) /\ rest_eq (initialize n m data) clear.
Proof.
  unfold initialize. fold clear.
  set (f := fun (ls : list nat * mlist) k => let nodes := sort_by data k (fst ls) in (nodes, fold_left (fun st x => append n st x k) nodes (snd ls))).
  assert (H : fst (fold_left f (seq 0 m) (seq 0 n, clear)) = match m with 0 => seq 0 n | S j => order j end /\
    let st := snd (fold_left f (seq 0 m) (seq 0 n, clear)) in
    (forall k, k < m -> linked n st k (order k)) /\ rest_eq st clear /\ (forall k z, m <= k -> nx st k z = n /\ pv st k z = n)).
  { induction m as [|j [E1 [E2 [E3 E4]]]]; [simpl; repeat split; auto; intros; lia|].
    rewrite seq_S, fold_left_app. simpl fold_left. set (r := fold_left f (seq 0 j) (seq 0 n, clear)) in *.
    unfold f at 1 2. cbv zeta. cbn [fst snd]. rewrite E1.
    replace (sort_by data j match j with 0 => seq 0 n | S j => order j end) with (order j) by (destruct j; reflexivity).
    split; [reflexivity|].
    assert (L0 : linked n (snd r) j []) by (destruct (E4 j n (le_n j)) as [F1 F2]; split; [exact F1|split; [exact F2|exact I]]).
    assert (NO : NoDup (n :: [] ++ order j)).
    { simpl. pose proof (proj1 (order_ok j)) as P. constructor; [|apply (Permutation_NoDup (Permutation_sym P)), seq_NoDup].
      intros I. apply (Permutation_in n P), in_seq in I. lia. }
    destruct (appends_ok j (order j) (snd r) [] L0 NO) as [H1 [H2 H3]]. unfold appends in H1, H2, H3. simpl app in H1.
    split; [|split].
    - intros k Hk. destruct (Nat.eq_dec k j) as [->|N]; [exact H1|]. specialize (E2 k ltac:(lia)).
      unfold linked in *. revert E2. apply chain_cong; intros z; destruct (H3 k N z); congruence.
    - destruct H2 as [F1 [F2 [F3 F4]]], E3 as [K1 [K2 [K3 K4]]]. repeat split; congruence.
    - intros k z Hk. destruct (H3 k ltac:(lia) z) as [-> ->]. apply E4. lia. }
  destruct H as [_ [H1 [H2 _]]]. split; [exact H1|exact H2].
Qed.
End Init.

(** * Up to three objectives *)
Section Three.
Variables (ref : list Q) (Gs : list (list Q)) (P : list (list Q)).
Notation m := (length ref).
Notation n := (length P).
Definition rf (k : nat) : Q := nth k ref 0%Q.
Definition pt (x : nat) : list Q := nth x P [].
Definition yy (x k : nat) : Q := nth k (pt x) 0%Q.
Definition dat (x k : nat) : Q := (nth k ref 0 - nth k (nth x P []) 0)%Q.
Definition GG (k : nat) : list Q := nth k Gs [].
Hypothesis HP : forall y, In y P -> length y = m /\ forall k, k < m -> (nth k ref 0 <= nth k y 0)%Q.
Hypothesis HGs : grid_for Gs ref P.

Lemma grid_ok k : k < m -> lines GG rf k /\ forall x, x < n -> fine GG rf yy k x.
Proof.
  intros Hk. destruct HGs as [E H]. destruct (lt_nth_error Gs k ltac:(lia)) as [G EG].
  destruct (H k G EG) as [H1 [H2 H3]]. assert (EE : GG k = G) by (unfold GG; now apply nth_error_nth).
  split; [split; rewrite EE; assumption|]. intros x Hx.
  assert (I : In (pt x) P) by (apply nth_In; exact Hx). split; [rewrite EE; exact (H3 _ I)|exact (proj2 (HP _ I) k Hk)].
Qed.
Lemma all_nodes k : act (order n dat) k (seq 0 n) = order n dat k.
Proof.
  unfold act. pose proof (proj1 (order_ok n dat k)) as Pk.
  assert (E : forall l, (forall x, In x l -> In x (seq 0 n)) -> filter (fun x => existsb (Nat.eqb x) (seq 0 n)) l = l).
  { induction l as [|a l IH]; intros H; [reflexivity|]. simpl. rewrite (proj2 (mem_In a (seq 0 n)) (H a (or_introl eq_refl))).
    f_equal. apply IH. intros x Hx. apply H. now right. }
  apply E. intros x Hx. exact (Permutation_in x Pk Hx).
Qed.
Lemma act_perm k T : Permutation T (seq 0 n) -> act (order n dat) k T = order n dat k.
Proof.
  intros PT. rewrite <- all_nodes. unfold act. apply filter_ext. intros x.
  apply eq_true_iff_eq. rewrite !mem_In. split; intros H; [exact (Permutation_in x PT H)|exact (Permutation_in x (Permutation_sym PT) H)].
Qed.
Lemma three_ok : 1 <= m <= 3 ->
  exists v st, hv n m dat (S (S n)) (m - 1) n (initialize n m dat) = Some (v, st) /\ (v == mes GG rf yy m (seq 0 n))%Q.
Proof.
  intros Hm. pose proof grid_ok as GK. pose proof act_perm as AP. clear HP HGs. destruct (Nat.eq_dec n 0) as [E0|N0].
  { rewrite E0. exists 0%Q. eexists. split; [destruct (m - 1); reflexivity|]. simpl seq. rewrite mes_nil. reflexivity. }
  assert (HD : forall x k, dat x k = (rf k - yy x k)%Q) by reflexivity.
  assert (HO : forall k, k < m -> Permutation (order n dat k) (seq 0 n) /\ StronglySorted (before dat k) (order n dat k)) by (intros; apply order_ok).
  destruct (initialize_ok n m dat) as [Lk [R1 [_ [_ R4]]]]. set (st := initialize n m dat) in *.
  assert (OT : forall k, k < m -> nodes n (order n dat k)) by (intros k Hk; exact (proj1 (O_nodes n m dat (order n dat) HO k Hk))).
  assert (ON : forall k, order n dat k <> []).
  { intros k E. pose proof (proj1 (order_ok n dat k)) as Pk. rewrite E in Pk. apply Permutation_length in Pk. rewrite seq_length in Pk. simpl in Pk. lia. }
  assert (OL : forall k, length (order n dat k) = n).
  { intros k. rewrite (Permutation_length (proj1 (order_ok n dat k))). apply seq_length. }
  assert (ME : forall k j, mes GG rf yy j (order n dat k) = mes GG rf yy j (seq 0 n)).
  { intros k j. apply mes_ext. intros x. pose proof (proj1 (order_ok n dat k)) as Pk.
    split; intros H; [exact (Permutation_in x Pk H)|exact (Permutation_in x (Permutation_sym Pk) H)]. }
  assert (EN : (n =? 0) = false) by (now apply Nat.eqb_neq).
  destruct (Nat.eq_dec m 1) as [E1|N1].
  - rewrite E1 in *. cbn [Nat.sub hv]. rewrite EN.
    pose proof (Lk 0 (Nat.lt_0_1)) as L0. specialize (ON 0). specialize (OT 0 Nat.lt_0_1).
    destruct (order n dat 0) as [|q B] eqn:EO; [contradiction|].
    assert (Enx : nx st 0 n = q) by (exact (proj1 L0)). rewrite Enx.
    assert (Hq : q < n) by (apply OT; now left). rewrite (get_ok n dat q 0 Hq).
    exists (- dat q 0)%Q, st. split; [reflexivity|]. rewrite <- (ME 0), EO.
    rewrite (mes_one GG rf yy (q :: B) q).
    + unfold dat, yy, rf, pt. ring.
    + apply GK. lia.
    + intros z Hz. apply GK; [lia|]. now apply OT.
    + now left.
    + intros z [<-|Hz]; [lra|]. pose proof (proj2 (order_ok n dat 0)) as SS. rewrite EO in SS. inversion SS as [|? ? _ F]; subst.
      rewrite Forall_forall in F. specialize (F z Hz). unfold before in F. rewrite !HD in F. lra.
  - destruct (Nat.eq_dec m 2) as [E2|N2].
    + rewrite E2 in *. cbn [Nat.sub hv]. rewrite EN.
      destruct (two_ok n 2 dat GG rf yy HD ltac:(intros k Hk; apply GK; lia) (order n dat 1) st (S (S n))) as [v [-> Ev]].
      * lia. * apply ON. * apply OT. lia. * apply Lk. lia. * apply order_ok. * rewrite OL. lia.
      * exists v, st. split; [reflexivity|]. rewrite Ev, ME. reflexivity.
    + assert (E3 : m = 3) by lia. rewrite E3 in *.
      assert (Hg : forall k, k < 3 -> lines GG rf k /\ forall x, x < n -> fine GG rf yy k x) by (intros k Hk; apply GK; lia).
      change (hv n 3 dat (S (S n)) (3 - 1) n st) with (if n =? 0 then Some (0%Q, st) else level n 3 dat (hv n 3 dat (S (S n)) 1) (S (S n)) 2 n st).
      rewrite EN.
      destruct (level_ok n 3 dat GG rf yy (order n dat) HD HO Hg (hv n 3 dat (S (S n)) 1) 2 (order n dat 2) st) with (fuel := S (S n)) as [v [st' [E Ev]]].
      * lia. * apply OT. lia. * apply order_ok. * apply Lk. lia.
      * intros k Hk. rewrite AP; [apply Lk; lia|apply order_ok].
      * intros s T NT HT HL. cbn [hv]. assert (LT : (length T =? 0) = false) by (apply Nat.eqb_neq; destruct T; [contradiction|discriminate]). rewrite LT.
        assert (NA : nodes n (act (order n dat) 1 T)) by (apply (act_nodes n 3 dat (order n dat) HO); [lia|exact HT]).
        assert (IA : forall x, In x (act (order n dat) 1 T) <-> In x T) by (intros x; apply (act_In n 3 dat (order n dat) HO); [lia|exact HT]).
        destruct (two_ok n 3 dat GG rf yy HD Hg (act (order n dat) 1 T) s (S (S n))) as [v [-> Ev]].
        -- lia.
        -- intros E. destruct T as [|t T]; [contradiction|]. apply (proj2 (IA t) (or_introl eq_refl)) || (assert (F := proj2 (IA t) (or_introl eq_refl)); rewrite E in F; destruct F).
        -- exact NA.
        -- apply HL. lia.
        -- apply (act_sorted n 3 dat (order n dat) HO). lia.
        -- transitivity (length (seq 0 n)); [|rewrite seq_length; lia]. apply NoDup_incl_length; [apply NA|].
           intros x Hx. apply in_seq. pose proof (proj2 NA x Hx). lia.
        -- exists v. split; [reflexivity|]. rewrite Ev. rewrite (mes_ext GG rf yy 2 (act (order n dat) 1 T) T IA). reflexivity.
      * apply ON.
      * rewrite OL. lia.
      * intros z. rewrite R1. reflexivity.
      * rewrite R4. reflexivity.
      * lia.
      * rewrite OL in E. exists v, st'. split; [exact E|]. rewrite Ev, ME. reflexivity.
Qed.
End Three.

Lemma all2_ref ref y : length y = length ref ->
  (all2 (fun a r => Qle_bool r a) y ref = true <-> forall k, k < length ref -> (nth k ref 0 <= nth k y 0)%Q).
Proof.
  revert y. induction ref as [|r ref IH]; intros [|a y] E; try discriminate; cbn [length].
  - split; [intros; lia|reflexivity].
  - change (Qle_bool r a && all2 (fun a r => Qle_bool r a) y ref = true <-> forall k, k < S (length ref) -> (nth k (r :: ref) 0 <= nth k (a :: y) 0)%Q).
    rewrite andb_true_iff, IH by (simpl in E; lia). rewrite Qle_bool_iff. split.
    + intros [H1 H2] [|k] Hk; [exact H1|apply H2; lia].
    + intros H. split; [exact (H 0 ltac:(lia))|]. intros k Hk. exact (H (S k) ltac:(lia)).
Qed.

Lemma hypervolume_ok ref Y Gs : 1 <= length ref <= 3 -> rectangular (length ref) Y -> grid_for Gs ref Y ->
  exists v, hypervolume ref Y = Some v /\ (v == measure Gs ref Y)%Q.
Proof.
  intros Hm HY HG. unfold hypervolume.
  assert (E : forallb (fun y => length y =? length ref) Y = true).
  { apply forallb_forall. intros y Hy. apply Nat.eqb_eq. exact (HY y Hy). }
  rewrite E. set (p := fun y => all2 (fun a r => Qle_bool r a) y ref). set (P := filter p Y).
  assert (HP : forall y, In y P -> length y = length ref /\ forall k, k < length ref -> (nth k ref 0 <= nth k y 0)%Q).
  { intros y Hy. apply filter_In in Hy. destruct Hy as [I C]. split; [exact (HY y I)|]. apply all2_ref; [exact (HY y I)|exact C]. }
  assert (HGP : grid_for Gs ref P).
  { destruct HG as [H1 H2]. split; [exact H1|]. intros k G EG. destruct (H2 k G EG) as [F1 [F2 F3]]. split; [exact F1|]. split; [exact F2|].
    intros y Hy. apply F3. apply filter_In in Hy. tauto. }
  destruct (three_ok ref Gs P HP HGP Hm) as [v [st [Ev EM]]]. unfold dat in Ev. rewrite Ev. exists v. split; [reflexivity|].
  rewrite EM. rewrite (measure_filter Gs ref Y p).
  - fold P. pose proof (measure_mes Gs ref (pt P) (length ref)) as MM. destruct HG as [EG _].
    specialize (MM ltac:(lia) EG (seq 0 (length P))). rewrite <- MM.
    + rewrite <- EG at 1. rewrite !firstn_all. replace (map (fun x => firstn (length ref) (pt P x)) (seq 0 (length P))) with P; [reflexivity|].
      transitivity (map (pt P) (seq 0 (length P))).
      * clear. unfold pt. induction P as [|a P IH]; [reflexivity|]. simpl length. simpl seq. simpl map. f_equal. rewrite <- seq_shift, map_map. exact IH.
      * apply map_ext_in. intros x Hx. apply in_seq in Hx. assert (I : In (pt P x) P) by (apply nth_In; lia).
        rewrite <- (proj1 (HP _ I)). now rewrite firstn_all.
    + intros x Hx. apply in_seq in Hx. apply HP, nth_In. lia.
  - intros G IG. apply In_nth_error in IG. destruct IG as [k Ek]. exact (proj1 (proj2 HG k G Ek)).
  - intros y Hy Ly H. unfold p. apply all2_ref; assumption.
Qed.
