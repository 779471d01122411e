(** Lemmas about Model_Space.v. *)
From Coq Require Import List Bool Arith ZArith QArith String Ascii Lia Permutation.
From Coq Require Import DecimalString DecimalNat.
From Verif Require Import Lib_List Model_Var Model_Opt Proofs_Opt Model_Space.
Import ListNotations.
Open Scope nat_scope.
Notation length := List.length.

(** * The heap *)
Lemma update_at_length {A} (l : list A) i f : length (update_at l i f) = length l.
Proof. revert i. induction l as [|x l IH]; intros [|i]; simpl; auto. Qed.
Lemma update_at_nth {A} (l : list A) i f j d :
  nth j (update_at l i f) d = if (i =? j) && (j <? length l) then f (nth j l d) else nth j l d.
Proof.
  revert i j. induction l as [|x l IH]; intros [|i] [|j]; simpl; try reflexivity.
  - rewrite andb_false_r. reflexivity.
  - rewrite IH. destruct (i =? j) eqn:E; [|reflexivity]. reflexivity.
Qed.
Lemma deref_set_name h r n q : r < length h -> deref (set_name h r n) q = if r =? q then set_vn (deref h q) n else deref h q.
Proof.
  intro H. unfold deref, set_name. rewrite update_at_nth. destruct (r =? q) eqn:E; [|reflexivity].
  apply Nat.eqb_eq in E. subst q. destruct (r <? length h) eqn:E'; [reflexivity|]. apply Nat.ltb_ge in E'. lia.
Qed.
Lemma set_name_length h r n : length (set_name h r n) = length h.
Proof. apply update_at_length. Qed.

Lemma write_names_length : forall ps h, length (write_names h ps) = length h.
Proof.
  induction ps as [|p ps IH]; intro h; simpl; [reflexivity|]. unfold write_names in *. simpl. rewrite IH. apply set_name_length.
Qed.
Lemma write_names_other : forall ps h q,
  (forall r n, In (r, n) ps -> r < length h) -> ~ In q (map fst ps) -> deref (write_names h ps) q = deref h q.
Proof.
  induction ps as [|[r n] ps IH]; intros h q V N; [reflexivity|]. unfold write_names in *. simpl in *.
  rewrite IH.
  - rewrite deref_set_name by (eapply V; left; reflexivity). destruct (r =? q) eqn:E; [|reflexivity].
    apply Nat.eqb_eq in E. tauto.
  - intros r' n' H. rewrite set_name_length. eapply V. right. exact H.
  - tauto.
Qed.
Lemma write_names_at : forall ps h r n,
  (forall r n, In (r, n) ps -> r < length h) -> NoDup (map fst ps) -> In (r, n) ps ->
  deref (write_names h ps) r = set_vn (deref h r) n.
Proof.
  induction ps as [|[r0 n0] ps IH]; intros h r n V ND H; [contradiction|].
  inversion ND as [|? ? N1 N2]; subst. unfold write_names in *. simpl in *.
  assert (V' : forall r n, In (r, n) ps -> r < length (set_name h r0 n0)).
  { intros r' n' H'. rewrite set_name_length. eapply V. right. exact H'. }
  destruct H as [E|H].
  - injection E as -> ->. fold (write_names (set_name h r n) ps).
    rewrite write_names_other by assumption. rewrite deref_set_name by (eapply V; left; reflexivity).
    rewrite Nat.eqb_refl. reflexivity.
  - rewrite (IH _ r n V' N2 H). rewrite deref_set_name by (eapply V; left; reflexivity).
    destruct (r0 =? r) eqn:E; [|reflexivity]. apply Nat.eqb_eq in E. subst. exfalso. apply N1.
    change r with (fst (r, n)). apply in_map. exact H.
Qed.
(** Kind, default and scale never change, whatever is written. *)
Definition strip (v : vobj) : kind * option val * string := (vk v, vdef v, vscale v).
Lemma strip_set_vn v n : strip (set_vn v n) = strip v.
Proof. reflexivity. Qed.
Lemma write_names_strip : forall ps h q, strip (deref (write_names h ps) q) = strip (deref h q).
Proof.
  induction ps as [|[r n] ps IH]; intros h q; [reflexivity|]. unfold write_names in *. simpl. rewrite IH.
  unfold deref, set_name. rewrite update_at_nth. destruct (_ && _); reflexivity.
Qed.

Lemma new_names_length l : length (new_names l) = length l.
Proof. unfold new_names. rewrite map_length, seq_length. reflexivity. Qed.

Lemma count_name_NoDup n l : NoDup l -> count_name n l <= 1.
Proof.
  induction 1 as [|x l N H IH]; unfold count_name in *; simpl; [lia|].
  destruct (String.eqb n x) eqn:E; simpl; [|exact IH]. apply String.eqb_eq in E. subst.
  assert (filter (String.eqb x) l = []); [|rewrite H0; simpl; lia].
  destruct (filter (String.eqb x) l) as [|y t] eqn:F; [reflexivity|]. exfalso.
  assert (In y (filter (String.eqb x) l)) by (rewrite F; left; reflexivity).
  apply filter_In in H0. destruct H0 as [H1 H2]. apply String.eqb_eq in H2. subst. contradiction.
Qed.
Lemma new_names_id l : NoDup l -> new_names l = l.
Proof.
  intro H. unfold new_names. apply nth_error_ext. intro j. rewrite nth_error_map, nth_error_seq.
  destruct (j <? length l) eqn:E; simpl.
  - apply Nat.ltb_lt in E. rewrite (nth_error_nth' l EmptyString) by exact E. f_equal. unfold new_name.
    pose proof (count_name_NoDup (nth j l EmptyString) l H). destruct (1 <? _) eqn:F; [|reflexivity].
    apply Nat.ltb_lt in F. lia.
  - apply Nat.ltb_ge in E. symmetry. apply nth_error_None. exact E.
Qed.

Definition valid (h : heap) (rs : list ref) : Prop := forall r, In r rs -> r < length h.
Definition get_names (h : heap) (rs : list ref) : list string := map (fun r => vn (deref h r)) rs.

Lemma get_names_length h rs : length (get_names h rs) = length rs.
Proof. apply map_length. Qed.

Section SetData.
  Variables (h : heap) (rs : list ref) (h' : heap) (s : space).
  Hypothesis HS : set_data h rs = (h', s).
  Hypothesis HV : valid h rs.

  Let ps := combine rs (new_names (get_names h rs)).
  Lemma ps_fst : map fst ps = rs.
  Proof.
    unfold ps. assert (L : length (new_names (get_names h rs)) = length rs)
      by (rewrite new_names_length; unfold get_names; apply map_length).
    clear - L. revert L. generalize (new_names (get_names h rs)). induction rs as [|r t IH]; intros [|n l] L; simpl in *; try discriminate; auto.
    f_equal. apply IH. congruence.
  Qed.
  Lemma ps_valid r n : In (r, n) ps -> r < length h.
  Proof. intro H. apply HV. rewrite <- ps_fst. change r with (fst (r, n)). apply in_map. exact H. Qed.
  Lemma sd_data : data s = rs.
  Proof. unfold set_data in HS. injection HS as <- <-. reflexivity. Qed.
  Lemma sd_length : length h' = length h.
  Proof. unfold set_data in HS. injection HS as <- <-. apply write_names_length. Qed.
  Lemma sd_other q : ~ In q rs -> deref h' q = deref h q.
  Proof.
    intro N. unfold set_data in HS. injection HS as <- <-.
    apply write_names_other; [exact ps_valid|]. intro I. apply N. rewrite <- ps_fst. exact I.
  Qed.
  Lemma sd_strip q : strip (deref h' q) = strip (deref h q).
  Proof. unfold set_data in HS. injection HS as <- <-. apply write_names_strip. Qed.
  Lemma sd_cached : names s = map vn (variables h' s).
  Proof. unfold variables. rewrite sd_data. unfold set_data in HS. injection HS as <- <-. rewrite map_map. reflexivity. Qed.
  Hypothesis HN : NoDup rs.
  Lemma sd_at k r : nth_error rs k = Some r ->
    deref h' r = set_vn (deref h r) (new_name (get_names h rs) k).
  Proof.
    intro H. unfold set_data in HS. injection HS as <- <-.
    apply write_names_at; [exact ps_valid|exact (eq_ind_r (fun l => NoDup l) HN ps_fst)|].
    assert (K : k < length rs) by (apply nth_error_Some; congruence).
    assert (E : nth_error (combine rs (new_names (get_names h rs))) k = Some (r, new_name (get_names h rs) k)).
    { rewrite nth_error_combine, H. unfold new_names. rewrite nth_error_map, nth_error_seq.
      rewrite get_names_length. apply Nat.ltb_lt in K. rewrite K. reflexivity. }
    eapply nth_error_In. exact E.
  Qed.
  Lemma sd_vars : variables h' s = map2 set_vn (map (deref h) rs) (new_names (get_names h rs)).
  Proof.
    unfold variables. rewrite sd_data. apply nth_error_ext. intro k. unfold map2.
    rewrite !nth_error_map, nth_error_combine, nth_error_map. unfold new_names. rewrite nth_error_map, nth_error_seq.
    rewrite get_names_length.
    destruct (nth_error rs k) as [r|] eqn:E; simpl; [|reflexivity].
    assert (K : k < length rs) by (apply nth_error_Some; congruence). apply Nat.ltb_lt in K. rewrite K. simpl.
    rewrite (sd_at k r E). reflexivity.
  Qed.
  Lemma sd_names : names s = new_names (get_names h rs).
  Proof.
    rewrite sd_cached, sd_vars. unfold map2. rewrite map_map.
    assert (L : length (new_names (get_names h rs)) = length (map (deref h) rs))
      by (rewrite new_names_length; unfold get_names; rewrite !map_length; reflexivity).
    clear -L. revert L. generalize (new_names (get_names h rs)), (map (deref h) rs).
    intros l. induction l as [|n l IH]; intros [|v t] L; simpl in *; try discriminate; auto. f_equal. apply IH. congruence.
  Qed.
  Lemma sd_id : NoDup (get_names h rs) -> h' = h.
  Proof.
    intro ND. assert (L := sd_length). apply (nth_ext h' h no_var no_var L). intros q Hq. fold (deref h' q) (deref h q).
    destruct (in_dec Nat.eq_dec q rs) as [I|N]; [|apply sd_other; exact N].
    apply In_nth_error in I. destruct I as [k Hk]. rewrite (sd_at k q Hk).
    assert (new_name (get_names h rs) k = vn (deref h q)); [|rewrite H; destruct (deref h q); reflexivity].
    pose proof (new_names_id _ ND) as E. apply (f_equal (fun l => nth_error l k)) in E.
    unfold new_names in E. rewrite nth_error_map, nth_error_seq, get_names_length in E.
    assert (EG : nth_error (get_names h rs) k = Some (vn (deref h q))) by exact (map_nth_error (fun r => vn (deref h r)) k rs Hk).
    rewrite EG in E.
    assert (K : k < length rs) by (apply nth_error_Some; congruence). apply Nat.ltb_lt in K. rewrite K in E.
    simpl in E. injection E as E. exact E.
  Qed.
  Lemma sd_vars_id : NoDup (get_names h rs) -> variables h' s = map (deref h) rs.
  Proof. intro ND. unfold variables. rewrite sd_data, (sd_id ND). reflexivity. Qed.
End SetData.

Lemma sd_vars_strip h rs h' s : set_data h rs = (h', s) ->
  map strip (variables h' s) = map (fun r => strip (deref h r)) rs.
Proof.
  intro H. unfold variables. rewrite (sd_data _ _ _ _ H), map_map. apply map_ext. intro r. apply (sd_strip _ _ _ _ H).
Qed.

Lemma copies_deref h rs h1 cs : copies h rs = (h1, cs) ->
  map (deref h1) cs = map (deref h) rs /\ (forall q, q < length h -> deref h1 q = deref h q) /\
  cs = seq (length h) (length rs) /\ length h1 = length h + length rs.
Proof.
  intro H. unfold copies in H. injection H as <- <-. repeat split.
  - apply nth_error_ext. intro k. rewrite !nth_error_map, nth_error_seq.
    destruct (k <? length rs) eqn:E; simpl.
    + apply Nat.ltb_lt in E. rewrite (nth_error_nth' rs 0) by exact E. simpl. f_equal. unfold deref at 1.
      rewrite app_nth2 by lia. replace (length h + k - length h) with k by lia.
      rewrite (nth_indep _ no_var (deref h 0)) by (rewrite map_length; exact E). apply map_nth.
    + apply Nat.ltb_ge in E. symmetry. rewrite (proj2 (nth_error_None rs k)) by exact E. reflexivity.
  - intros q Hq. unfold deref. apply app_nth1. exact Hq.
  - rewrite app_length, map_length. reflexivity.
Qed.

(** * Names *)
Fixpoint all_digits (s : string) : Prop :=
  match s with
  | EmptyString => True
  | String c r => In c (list_ascii_of_string "0123456789") /\ all_digits r
  end.
Definition extends (n m : string) : Prop := exists d, d <> EmptyString /\ all_digits d /\ m = (n ++ d)%string.

Lemma string_of_uint_digits u : all_digits (NilEmpty.string_of_uint u).
Proof. induction u; simpl; auto 15. Qed.
Lemma str_nat_digits i : all_digits (str_nat i).
Proof. apply string_of_uint_digits. Qed.
Lemma string_of_uint_nonempty u : u <> Decimal.Nil -> NilEmpty.string_of_uint u <> EmptyString.
Proof. destruct u; simpl; congruence. Qed.
Lemma str_nat_nonempty i : str_nat i <> EmptyString.
Proof.
  intro E. assert (H : NilEmpty.uint_of_string (str_nat i) = NilEmpty.uint_of_string EmptyString) by (f_equal; exact E).
  unfold str_nat in H. rewrite NilEmpty.usu in H. simpl in H. injection H as H.
  assert (Nat.of_uint (Nat.to_uint i) = Nat.of_uint Decimal.Nil) by (f_equal; exact H).
  rewrite Unsigned.of_to in H0. simpl in H0. subst. discriminate.
Qed.

Lemma str_app_cancel (n s t : string) : (n ++ s = n ++ t)%string -> s = t.
Proof. induction n as [|c n IH]; simpl; intro H; [exact H|]. injection H as H. auto. Qed.
Lemma str_app_nil (n : string) : (n ++ "" = n)%string.
Proof. induction n as [|c n IH]; simpl; congruence. Qed.
Lemma str_app_split : forall n m s t : string, all_digits s -> all_digits t -> (n ++ s = m ++ t)%string ->
  n = m \/ extends n m \/ extends m n.
Proof.
  induction n as [|c n IH]; intros [|c' m] s t Ds Dt H; simpl in *.
  - auto.
  - right. left. subst s. exists (String c' m). split; [discriminate|]. split; [|reflexivity].
    clear -Ds. change (String c' (m ++ t)) with (String c' m ++ t)%string in Ds. revert Ds. generalize (String c' m).
    induction s as [|a s IH]; simpl; [auto|]. intros [H1 H2]. auto.
  - right. right. subst t. exists (String c n). split; [discriminate|]. split; [|reflexivity].
    clear -Dt. change (String c (n ++ s)) with (String c n ++ s)%string in Dt. revert Dt. generalize (String c n).
    induction s0 as [|a s0 IH]; simpl; [auto|]. intros [H1 H2]. auto.
  - injection H as -> H. destruct (IH m s t Ds Dt H) as [->|[(d&A&B&->)|(d&A&B&->)]]; auto.
    + right. left. exists d. auto.
    + right. right. exists d. auto.
Qed.

Lemma count_firstn_lt n : forall l k k', k < k' -> nth_error l k = Some n ->
  count_name n (firstn k l) < count_name n (firstn k' l).
Proof.
  unfold count_name. induction l as [|x l IH]; intros [|k] [|k'] L H; simpl in *; try discriminate; try lia.
  - injection H as ->. rewrite String.eqb_refl. simpl. lia.
  - specialize (IH k k' ltac:(lia) H). destruct (String.eqb n x); simpl; lia.
Qed.
Lemma count_two n l : forall k k', k < k' -> nth_error l k = Some n -> nth_error l k' = Some n -> 1 < count_name n l.
Proof.
  unfold count_name. induction l as [|x l IH]; intros [|k] [|k'] L H H'; simpl in *; try discriminate; try lia.
  - injection H as ->. rewrite String.eqb_refl. simpl.
    assert (In n (filter (String.eqb n) l)) by (apply filter_In; split; [eapply nth_error_In; exact H'|apply String.eqb_refl]).
    destruct (filter (String.eqb n) l); [contradiction|simpl; lia].
  - specialize (IH k k' ltac:(lia) H H'). destruct (String.eqb n x); simpl; lia.
Qed.

Lemma new_names_NoDup l :
  (forall n m, In n l -> In m l -> 1 < count_name n l -> ~ extends n m) -> NoDup (new_names l).
Proof.
  intro HE. apply NoDup_nth_error. intros i j Hi E. rewrite new_names_length in Hi.
  unfold new_names in E. rewrite !nth_error_map, !nth_error_seq in E.
  assert (Hi' := proj2 (Nat.ltb_lt _ _) Hi). rewrite Hi' in E. simpl in E.
  destruct (j <? length l) eqn:Hj'; [|discriminate]. simpl in E. injection E as E. apply Nat.ltb_lt in Hj'.
  set (n := nth i l EmptyString). set (m := nth j l EmptyString).
  assert (Ni : nth_error l i = Some n) by (apply nth_error_nth'; exact Hi).
  assert (Nj : nth_error l j = Some m) by (apply nth_error_nth'; exact Hj').
  assert (In n l) by (eapply nth_error_In; exact Ni). assert (In m l) by (eapply nth_error_In; exact Nj).
  unfold new_name in E. fold n m in E.
  destruct (1 <? count_name n l) eqn:Cn, (1 <? count_name m l) eqn:Cm.
  - apply Nat.ltb_lt in Cn. apply Nat.ltb_lt in Cm.
    destruct (str_app_split _ _ _ _ (str_nat_digits _) (str_nat_digits _) E) as [En|[X|X]].
    + rewrite En in E. apply str_app_cancel in E. apply str_nat_inj in E. rewrite <- En in *.
      destruct (Nat.lt_trichotomy i j) as [L|[?|L]]; auto; exfalso.
      * pose proof (count_firstn_lt n l i j L Ni). lia.
      * pose proof (count_firstn_lt n l j i L Nj). lia.
    + exfalso. eapply (HE n m); eauto.
    + exfalso. eapply (HE m n); eauto.
  - apply Nat.ltb_lt in Cn. exfalso. apply (HE n m); auto. exists (str_nat (count_name n (firstn i l))).
    split; [apply str_nat_nonempty|]. split; [apply str_nat_digits|]. symmetry. exact E.
  - apply Nat.ltb_lt in Cm. exfalso. apply (HE m n); auto. exists (str_nat (count_name m (firstn j l))).
    split; [apply str_nat_nonempty|]. split; [apply str_nat_digits|exact E].
  - destruct (Nat.lt_trichotomy i j) as [L|[?|L]]; auto; exfalso; apply Nat.ltb_ge in Cn.
    + rewrite <- E in Nj. pose proof (count_two n l i j L Ni Nj). lia.
    + rewrite <- E in Nj. pose proof (count_two n l j i L Nj Ni). lia.
Qed.

(** * filter, sub *)
Lemma nth_data_select (s : space) idx : (forall i, In i idx -> i < length (data s)) ->
  map Some (map (fun i => nth i (data s) 0) idx) = map (nth_error (data s)) idx.
Proof.
  intro H. rewrite map_map. apply map_ext_in. intros i Hi. symmetry. apply nth_error_nth'. auto.
Qed.
Lemma select_filter {A} (P : nat -> bool) (Q : A -> bool) (l : list A) d :
  (forall i x, nth_error l i = Some x -> P i = Q x) ->
  map (fun i => nth i l d) (filter P (seq 0 (length l))) = filter Q l.
Proof.
  intro H.
  assert (G : forall l' k, (forall i x, nth_error l' i = Some x -> nth_error l (k + i) = Some x) ->
            map (fun i => nth i l d) (filter P (seq k (length l'))) = filter Q l').
  { induction l' as [|y l' IH]; intros k HK; simpl; [reflexivity|].
    assert (Hy : nth_error l k = Some y) by (rewrite <- (Nat.add_0_r k); apply HK; reflexivity).
    rewrite (H _ _ Hy). assert (IH' := IH (S k)). rewrite <- IH'.
    - destruct (Q y); simpl; [|reflexivity]. f_equal. apply nth_error_nth. exact Hy.
    - intros i x Hx. replace (S k + i) with (k + S i) by lia. apply HK. exact Hx. }
  apply G. intros i x Hx. exact Hx.
Qed.

Definition proper_space (h : heap) (s : space) : Prop :=
  valid h (data s) /\ NoDup (data s) /\ names s = map vn (variables h s).
Lemma proper_names h s : proper_space h s -> names s = get_names h (data s).
Proof. intros (_&_&E). rewrite E. unfold variables. apply map_map. Qed.
Lemma set_data_proper h rs h' s : set_data h rs = (h', s) -> valid h rs -> NoDup rs -> proper_space h' s.
Proof.
  intros H V N. split; [|split].
  - intros r Hr. rewrite (sd_data _ _ _ _ H) in Hr. rewrite (sd_length _ _ _ _ H). auto.
  - rewrite (sd_data _ _ _ _ H). exact N.
  - exact (sd_cached _ _ _ _ H).
Qed.

Lemma mask_data h s keys invert : proper_space h s ->
  map (fun i => nth i (data s) 0) (mask_of keys invert s) =
  filter (fun r => xorb invert (existsb (String.eqb (vn (deref h r))) keys)) (data s).
Proof.
  intro HP. unfold mask_of. rewrite (proper_names h s HP), get_names_length. apply select_filter.
  intros i r Hr. assert (nth i (get_names h (data s)) EmptyString = vn (deref h r)).
  { apply nth_error_nth. exact (map_nth_error (fun r => vn (deref h r)) i (data s) Hr). }
  rewrite H. reflexivity.
Qed.
Lemma NoDup_map_filter {A B} (f : A -> B) (P : A -> bool) l : NoDup (map f l) -> NoDup (map f (filter P l)).
Proof.
  induction l as [|x l IH]; simpl; intro H; [constructor|]. inversion H as [|? ? N D]; subst.
  destruct (P x); simpl; [|auto]. constructor; [|auto]. intro I. apply N. apply in_map_iff in I.
  destruct I as (y&E&Hy). apply filter_In in Hy. rewrite <- E. apply in_map. apply Hy.
Qed.

Lemma index_of_nth n : forall l i, index_of n l = Some i -> nth_error l i = Some n /\ forall j, j < i -> nth_error l j <> Some n.
Proof.
  induction l as [|x l IH]; intros i H; simpl in H; [discriminate|].
  destruct (String.eqb n x) eqn:E.
  - injection H as <-. apply String.eqb_eq in E. subst. split; [reflexivity|]. intros; lia.
  - destruct (index_of n l) as [j|]; [|discriminate]. injection H as <-. destruct (IH j eq_refl) as [H1 H2].
    split; [exact H1|]. intros [|k] Hk; simpl; [|apply H2; lia]. intro F. injection F as <-. rewrite String.eqb_refl in E. discriminate.
Qed.
Lemma index_of_none n l : index_of n l = None <-> ~ In n l.
Proof.
  induction l as [|x l IH]; simpl; [tauto|]. destruct (String.eqb n x) eqn:E.
  - apply String.eqb_eq in E. subst. split; [discriminate|tauto].
  - apply String.eqb_neq in E. destruct (index_of n l); simpl.
    + split; [discriminate|]. intro H. assert (Some n0 = None) by (apply IH; tauto). discriminate.
    + split; auto. intros _ [F|F]; [congruence|]. apply (proj1 IH); auto.
Qed.
Lemma index_of_NoDup n l i : NoDup l -> nth_error l i = Some n -> index_of n l = Some i.
Proof.
  intros ND H. destruct (index_of n l) as [j|] eqn:E.
  - destruct (index_of_nth _ _ _ E) as [H1 _]. f_equal. eapply NoDup_nth_error; [exact ND| |congruence].
    apply nth_error_Some. congruence.
  - apply index_of_none in E. exfalso. apply E. eapply nth_error_In. exact H.
Qed.
Lemma existsb_names n l : existsb (String.eqb n) l = true <-> In n l.
Proof.
  rewrite existsb_exists. split.
  - intros (x&H&E). apply String.eqb_eq in E. subst. exact H.
  - intro H. exists n. split; [exact H|apply String.eqb_refl].
Qed.

Lemma sub_data h a b : proper_space h a -> NoDup (names a) ->
  map (fun i => nth i (data a) 0) (sub_index a b) =
  filter (fun r => negb (existsb (String.eqb (vn (deref h r))) (names b))) (data a).
Proof.
  intros HP ND. unfold sub_index. apply select_filter. intros i r Hr.
  rewrite (proper_names h a HP) in *.
  assert (Hn : nth_error (get_names h (data a)) i = Some (vn (deref h r))) by exact (map_nth_error (fun r => vn (deref h r)) i (data a) Hr).
  apply eq_true_iff_eq. rewrite existsb_exists. split.
  - intros (n&Hin&E). apply andb_true_iff in E. destruct E as [E1 E2].
    destruct (index_of n (get_names h (data a))) as [j|] eqn:Ej; [|discriminate]. apply Nat.eqb_eq in E2. subst j.
    destruct (index_of_nth _ _ _ Ej) as [H1 _]. assert (n = vn (deref h r)) by congruence. subst. exact E1.
  - intro E. exists (vn (deref h r)). split; [eapply nth_error_In; exact Hn|].
    rewrite E, (index_of_NoDup _ _ _ ND Hn). simpl. apply Nat.eqb_refl.
Qed.
