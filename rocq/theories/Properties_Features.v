(** Properties C74, C75, C76, C78, C108, C109, C110, C111. *)
From Coq Require Import Bool Arith ZArith QArith Lia Lqa Permutation Sorted String List.
From Verif Require Import Lib_List Model_Features Proofs_Features.
Import ListNotations.
Open Scope nat_scope.

Section Wrapped.
  Context {V R : Type}.
  Variables (names : list string) (fixed : list (string * V)).

  (** The full point for the proposed values x: a fixed variable has its fixed value, the other
      variables have the proposed values in the order of the names. *)
  Definition full_point (x row : list V) : Prop :=
    length row = length names /\
    forall i v, nth_error names i = Some v ->
      nth_error row i = match dlookup fixed v with
                        | Some w => Some w
                        | None => nth_error x (length (filter (fun u => match dlookup fixed u with Some _ => false | None => true end) (firstn i names)))
                        end.
  Definition free_variables : list string := filter (fun u => match dlookup fixed u with Some _ => false | None => true end) names.

  (** C75: a function wrapped for fixed variables, called with one value per free variable, is
      called once, with the full point; constraint functions receive it as a list or as a
      dictionary with the name of each variable, and their result is passed on. *)
  Theorem C75_one_point :
    forall x, length x = length free_variables ->
      exists row, full_point x row /\
        partial_argument names fixed (Row x) = Some [row] /\
        (forall func : list V -> list R, constraint_list func names fixed (Row x) = Some (func row)) /\
        (forall func : list (string * V) -> list R, constraint_dict func names fixed (Row x) = Some (func (combine names row))).
  Proof.
    intros x L. destruct (place_spec fixed names x L) as (row & P & Ln & H). exists row. split; [split; auto|].
    assert (E : partial_argument names fixed (Row x) = Some [row]) by (unfold partial_argument; cbn; now rewrite P).
    split; auto. unfold constraint_list, constraint_dict. rewrite E. cbn.
    split; intros func; unfold call_list, call_dict; cbn; now rewrite app_nil_r.
  Qed.
  (** ... and a wrong number of values is refused. *)
  Theorem C75_wrong_length : forall x, length x <> length free_variables -> partial_argument names fixed (Row x) = None.
  Proof. intros x L. unfold partial_argument. cbn. now rewrite (place_none fixed names x L). Qed.

  (** The fixed values are filled into all proposals (fillin_fixed_value). *)
  Theorem C75_fill_in :
    forall X, (forall x, In x X -> length x = length free_variables) ->
      exists rows, fillin names fixed X = Some rows /\ Forall2 full_point X rows.
  Proof.
    intros X H. unfold fillin. induction X as [|x X IH]; [exists []; split; [reflexivity|constructor]|].
    destruct IH as (rows & E & F); [intros; apply H; now right|]. destruct (place_spec fixed names x) as (row & P & Ln & G); [apply H; now left|].
    exists (row :: rows). cbn. rewrite P, E. split; auto. constructor; auto. split; auto.
  Qed.

  (** C108, full statement (refuted): the same for a matrix of points, one per row.  A matrix whose
      number of rows is neither one nor the number of free variables is refused, and a matrix with
      a single row makes the function see that point as many times as there are free variables. *)
  Theorem C108_matrix_refuted :
    (forall rows, length rows <> length free_variables -> length rows <> 1 ->
       partial_argument names fixed (Matrix rows (length free_variables)) = None) /\
    (forall x, length x = length free_variables ->
       exists row, full_point x row /\
         partial_argument names fixed (Matrix [x] (length free_variables)) = Some (repeat row (length free_variables))).
  Proof.
    split.
    - intros rows H1 H2. unfold partial_argument, broadcast. destruct (length rows =? length free_variables) eqn:E; [apply Nat.eqb_eq in E; contradiction|].
      destruct rows as [|a [|b rows]]; auto. now elim H2.
    - intros x L. destruct (place_spec fixed names x L) as (row & P & Ln & H). exists row. split; [split; auto|].
      unfold partial_argument, broadcast. destruct (length [x] =? length free_variables) eqn:E.
      + apply Nat.eqb_eq in E. rewrite <- E. cbn. now rewrite P.
      + clear E. clear L. induction (length free_variables) as [|n IH]; [reflexivity|]. cbn. rewrite P. cbn in IH. now rewrite IH.
  Qed.
  (** What does hold: as many points as free variables. *)
  Theorem C108_square_partial :
    forall X, (forall x, In x X -> length x = length free_variables) -> length X = length free_variables ->
      exists rows, partial_argument names fixed (Matrix X (length free_variables)) = Some rows /\ Forall2 full_point X rows.
  Proof.
    intros X H L. unfold partial_argument, broadcast. rewrite L, Nat.eqb_refl. apply (C75_fill_in X H).
  Qed.

  (** C109: a gradient that is returned as a vector, a column or a row is reduced to its components
      for the free variables, in order. *)
  Definition component_wise {A} (g r : list A) : Prop :=
    length r = length free_variables /\
    forall i v, nth_error names i = Some v -> dlookup fixed v = None ->
      nth_error r (length (filter (fun u => match dlookup fixed u with Some _ => false | None => true end) (firstn i names))) = nth_error g i.
  Lemma unmasked_spec {A} (g : list A) : length g = length names -> component_wise g (unmasked (masks names fixed) g).
  Proof.
    unfold component_wise, free_variables, unmasked, masks. revert g. induction names as [|v l IH]; intros g L.
    - destruct g; [|discriminate]. split; auto. intros [|i] v; discriminate.
    - destruct g as [|a g]; [discriminate|]. cbn in L. destruct (IH g) as [A1 A2]; [lia|]. cbn. destruct (dlookup fixed v) as [w|] eqn:E; cbn.
      + split; auto. intros [|i] u Hu N; cbn in *; [injection Hu as <-; congruence|]. rewrite E. now apply A2 with (v := u).
      + split; [now rewrite A1|]. intros [|i] u Hu N; cbn in *; auto. rewrite E. cbn. now apply A2 with (v := u).
  Qed.
  Theorem C109_gradient :
    1 < length names ->
    (forall g : list V, length g = length names ->
       exists r, reduce (masks names fixed) (Vec g) = Vec r /\ component_wise g r) /\
    (forall rows c, length rows = length names ->
       exists r, reduce (masks names fixed) (@Mat V rows c) = Mat r c /\ component_wise rows r) /\
    (forall g : list V, length g = length names ->
       exists r, reduce (masks names fixed) (Mat [g] (length names)) = Mat [r] (length free_variables) /\ component_wise g r).
  Proof.
    intros N. assert (Lm : length (masks names fixed) = length names) by (unfold masks; now rewrite map_length). repeat split.
    - intros g L. exists (unmasked (masks names fixed) g). cbn [reduce]. rewrite L. apply Nat.ltb_lt in N. rewrite N. split; auto. now apply unmasked_spec.
    - intros rows c L. exists (unmasked (masks names fixed) rows). cbn [reduce]. rewrite Lm, L, Nat.eqb_refl. split; auto. now apply unmasked_spec.
    - intros g L. exists (unmasked (masks names fixed) g). split; [|now apply unmasked_spec]. cbn [reduce]. rewrite Lm.
      destruct (length [g] =? length names) eqn:E; [apply Nat.eqb_eq in E; cbn in E; lia|]. rewrite Nat.eqb_refl. cbn [map]. f_equal.
      unfold masks, free_variables. clear. induction names as [|v l IH]; cbn; auto. destruct (dlookup fixed v); cbn; auto.
  Qed.
End Wrapped.
Print Assumptions C75_one_point.
Print Assumptions C75_wrong_length.
Print Assumptions C75_fill_in.
Print Assumptions C108_matrix_refuted.
Print Assumptions C108_square_partial.
Print Assumptions C109_gradient.
Example wrapped_case :
  partial_argument ["a"; "b"; "c"]%string [("b"%string, 7)] (Row [1; 2]) = Some [[1; 7; 2]] /\
  partial_argument ["a"; "b"; "c"]%string [("b"%string, 7)] (Matrix [[1; 2]; [3; 4]; [5; 6]] 2) = None /\
  partial_argument ["a"; "b"; "c"]%string [("b"%string, 7)] (Matrix [[1; 2]] 2) = Some [[1; 7; 2]; [1; 7; 2]] /\
  reduce (masks ["a"; "b"; "c"]%string [("b"%string, 7)]) (Vec [5; 6; 8]) = Vec [5; 8].
Proof. repeat split; reflexivity. Qed.

Lemma list_sum_perm l m : Permutation l m -> list_sum l = list_sum m.
Proof. induction 1; unfold list_sum in *; cbn in *; lia. Qed.
(** C74: the one-hot encoding. *)
Section Encoding.
  Context {V : Type} (eqb : V -> V -> bool) (to_float : V -> option Q).
  Hypothesis eqb_sym : forall a b, eqb a b = true -> eqb b a = true.
  Hypothesis eqb_trans : forall a b c, eqb a b = true -> eqb b c = true -> eqb a c = true.

  (** a point of a space with n variables, of which those with levels are categorical *)
  Definition point (n : nat) (levels : list (nat * list V)) (x : list V) : Prop :=
    length x = n /\
    (forall k cats v, In (k, cats) levels -> nth_error x k = Some v -> exists c, In c cats /\ eqb v c = true) /\
    (forall i v, ~ In i (map fst levels) -> nth_error x i = Some v -> exists q, to_float v = Some q).
  Definition well_formed (n : nat) (levels : list (nat * list V)) : Prop :=
    NoDup (map fst levels) /\ forall k, In k (map fst levels) -> k < n.

  (** Every point is encoded; the width of the code is the number of non-categorical variables plus
      the total number of levels; the code consists of the numbers and one block per categorical
      variable, in the order of the variables, with a single 1 that marks the level of the point. *)
  Theorem C74_code :
    forall n levels x, well_formed n levels -> point n levels x ->
      exists num blocks sorted,
        encode eqb to_float levels x = Some (num ++ concat blocks) /\
        length (num ++ concat blocks) + length levels = n + list_sum (map (fun kv => length (snd kv)) levels) /\
        Permutation sorted levels /\ StronglySorted (fun a b => fst a <= fst b) sorted /\
        Forall2 (fun v q => to_float v = Some q) (delete_cols (map fst levels) x) num /\
        Forall2 (fun kv b => length b = length (snd kv) /\
                   exists v p c, nth_error x (fst kv) = Some v /\ nth_error (snd kv) p = Some c /\ eqb v c = true /\
                     forall j, j < length b -> nth_error b j = Some (if j =? p then 1%Q else 0%Q)) sorted blocks.
  Proof.
    intros n levels x [Nk Hk] (L & Hc & Hn). unfold encode. set (S := sort_levels levels).
    assert (PS : Permutation S levels) by apply sort_perm.
    assert (D : delete_cols (map fst S) x = delete_cols (map fst levels) x).
    { unfold delete_cols. f_equal. apply filter_ext. intros [i a]. cbn. f_equal.
      destruct (existsb (Nat.eqb i) (map fst S)) eqn:A, (existsb (Nat.eqb i) (map fst levels)) eqn:B; auto; exfalso.
      - apply existsb_eqb_In in A. apply (Permutation_in _ (Permutation_map fst PS)) in A. apply existsb_eqb_In in A. congruence.
      - apply existsb_eqb_In in B. apply (Permutation_in _ (Permutation_map fst (Permutation_sym PS))) in B. apply existsb_eqb_In in B. congruence. }
    rewrite D.
    assert (A1 : exists num, all_ok (map to_float (delete_cols (map fst levels) x)) = Some num /\ Forall2 (fun v q => to_float v = Some q) (delete_cols (map fst levels) x) num).
    { assert (H : forall v, In v (delete_cols (map fst levels) x) -> exists q, to_float v = Some q).
      { intros v Hv. apply delete_in in Hv as (i & Ni & Hi). eauto. }
      clear - H. induction (delete_cols (map fst levels) x) as [|v l IH]; [exists []; split; [reflexivity|constructor]|].
      destruct IH as (num & E & F); [intros; apply H; now right|]. destruct (H v (or_introl eq_refl)) as [q Hq]. exists (q :: num). cbn. rewrite Hq, E. split; auto. }
    destruct A1 as (num & En & Fn). rewrite En.
    assert (A2 : exists blocks, all_ok (map (fun kv => match nth_error x (fst kv) with Some v => encode1 eqb (snd kv) v | None => None end) S) = Some blocks /\
       Forall2 (fun kv b => length b = length (snd kv) /\
                   exists v p c, nth_error x (fst kv) = Some v /\ nth_error (snd kv) p = Some c /\ eqb v c = true /\
                     forall j, j < length b -> nth_error b j = Some (if j =? p then 1%Q else 0%Q)) S blocks).
    { assert (H : forall kv, In kv S -> In kv levels) by (intros kv; apply Permutation_in, PS).
      clear - H Hc Hk L. induction S as [|[k cats] S IH]; [exists []; split; [reflexivity|constructor]|].
      destruct IH as (bl & E & F); [intros; apply H; now right|]. pose proof (H _ (or_introl eq_refl)) as Hi.
      destruct (lt_nth_error x k) as [v Hv]; [rewrite L; apply Hk; change k with (fst (k, cats)); now apply in_map|].
      destruct (position_defined eqb v cats (Hc _ _ _ Hi Hv)) as [p Hp]. exists (unit_row (length cats) p :: bl). cbn [map all_ok fst snd]. rewrite Hv.
      unfold encode1 at 1. rewrite Hp. cbn [option_map]. rewrite E. split; auto. constructor; auto. cbn. rewrite unit_row_length. split; auto.
      destruct (position_spec _ _ _ _ Hp) as (c & Hc1 & Hc2). exists v, p, c. repeat split; auto. intros j Hj. now apply unit_row_nth. }
    destruct A2 as (blocks & Eb & Fb). rewrite Eb. exists num, blocks, S. split; auto. split; [|repeat split; auto; apply sort_sorted].
    rewrite app_length. rewrite <- (F2_len _ _ _ Fn). pose proof (delete_length (map fst levels) x Nk) as DL. rewrite map_length, L in DL.
    specialize (DL Hk). assert (W : length (concat blocks) = list_sum (map (fun kv => length (snd kv)) levels)).
    { transitivity (list_sum (map (fun kv : nat * list V => length (snd kv)) S)).
      - clear - Fb. induction Fb as [|kv b S bl [H _] F IH]; auto. cbn. rewrite app_length, IH, H. reflexivity.
      - apply list_sum_perm, Permutation_map, PS. }
    rewrite W. lia.
  Qed.

  (** Two points have the same code iff they have the same level in every categorical variable and
      the same number in every other one. *)
  Theorem C74_injective :
    forall n levels x y, well_formed n levels -> point n levels x -> point n levels y ->
      (encode eqb to_float levels x = encode eqb to_float levels y <->
       forall i a b, nth_error x i = Some a -> nth_error y i = Some b ->
         if in_dec Nat.eq_dec i (map fst levels) then eqb a b = true else to_float a = to_float b).
  Proof.
    intros n levels x y W Px Py.
    pose proof (C74_code n levels x W Px) as (nx & bx & sx & Ex & _ & _ & _ & Fx & _).
    pose proof (C74_code n levels y W Py) as (ny & by_ & sy & Ey & _ & _ & _ & Fy & _).
    destruct W as [Nk Hk]. destruct Px as (Lx & Cx & Dx). destruct Py as (Ly & Cy & Dy).
    unfold encode in *. set (S := sort_levels levels) in *. assert (PS : Permutation S levels) by apply sort_perm.
    set (num := fun x => all_ok (map to_float (delete_cols (map fst S) x))) in *.
    set (cat := fun x => all_ok (map (fun kv => match nth_error x (fst kv) with Some v => encode1 eqb (snd kv) v | None => None end) S)) in *.
    change (all_ok (map to_float (delete_cols (map fst S) x))) with (num x) in *. change (all_ok (map to_float (delete_cols (map fst S) y))) with (num y) in *.
    fold (cat x) (cat y) in *.
    destruct (num x) as [n1|] eqn:N1; [|discriminate]. destruct (cat x) as [c1|] eqn:C1; [|discriminate].
    destruct (num y) as [n2|] eqn:N2; [|discriminate]. destruct (cat y) as [c2|] eqn:C2; [|discriminate].
    clear Ex Ey Fx Fy nx ny bx by_ sx sy. unfold num in N1, N2. unfold cat in C1, C2. apply all_ok_map in N1, N2, C1, C2.
    assert (Hin : forall i, In i (map fst S) <-> In i (map fst levels)).
    { intros i. split; apply Permutation_in, Permutation_map; [exact PS|now apply Permutation_sym]. }
    assert (LN : length n1 = length n2).
    { rewrite <- (F2_len _ _ _ N1), <- (F2_len _ _ _ N2).
      assert (F2 : Forall2 (fun _ _ => True) (delete_cols (map fst S) x) (delete_cols (map fst S) y)) by (apply delete_forall2; auto; congruence).
      eapply F2_len; eauto. }
    assert (LB : forall z c, length z = n -> Forall2 (fun kv b => match nth_error z (fst kv) with Some v => encode1 eqb (snd kv) v | None => None end = Some b) S c ->
                 Forall2 (fun kv b => length b = length (snd kv)) S c).
    { intros z c _ F. eapply F2_imp; [|exact F]. intros kv b _ H. cbn in H. destruct (nth_error z (fst kv)); [|discriminate]. unfold encode1 in H.
      destruct (position eqb v (snd kv)); [|discriminate]. injection H as <-. apply unit_row_length. }
    transitivity (n1 = n2 /\ c1 = c2).
    { split; [|intros [-> ->]; auto]. intros [= H]. 
      assert (E1 : n1 = n2 /\ concat c1 = concat c2).
      { clear - H LN. revert n2 H LN. induction n1 as [|a n1 IH]; intros [|b n2] H L; try discriminate; auto. cbn in *. injection H as -> H. destruct (IH _ H) as [-> ->]; auto. }
      destruct E1 as [-> E2]. split; auto. pose proof (LB _ _ Lx C1) as B1. pose proof (LB _ _ Ly C2) as B2. clear - E2 B1 B2.
      revert c2 E2 B2. induction B1 as [|kv b S c H B IH]; intros c2 E2 B2; inversion B2; subst; auto. cbn in E2.
      assert (X : b = y /\ concat c = concat l').
      { assert (L : length b = length y) by congruence. clear - E2 L. revert y E2 L. induction b as [|a b IH]; intros [|d y] E L; try discriminate; auto.
        cbn in *. injection E as -> E. destruct (IH _ E) as [-> ->]; auto. }
      destruct X as [-> X]. f_equal. now apply IH. }
    assert (Q1 : n1 = n2 <-> forall i a b, ~ In i (map fst levels) -> nth_error x i = Some a -> nth_error y i = Some b -> to_float a = to_float b).
    { assert (G : n1 = n2 <-> Forall2 (fun a b => to_float a = to_float b) (delete_cols (map fst S) x) (delete_cols (map fst S) y)).
      { clear - N1 N2. revert N2. generalize (delete_cols (map fst S) y) as dy. revert n2. induction N1 as [|a q dx n1 Ha F IH]; intros n2 dy N2.
        - split; [intros <-; inversion N2; constructor|]. intros H. inversion H; subst. inversion N2; auto.
        - split.
          + intros <-. inversion N2; subst. constructor; [congruence|]. eapply IH; eauto.
          + intros H. inversion H; subst. inversion N2; subst. f_equal; [congruence|]. eapply IH; eauto. }
      rewrite G, delete_forall2 by congruence. split; intros H i a b Ni; apply H; rewrite ?Hin in *; auto. }
    assert (Q2 : c1 = c2 <-> forall i a b, In i (map fst levels) -> nth_error x i = Some a -> nth_error y i = Some b -> eqb a b = true).
    { assert (G : c1 = c2 <-> forall kv a b, In kv S -> nth_error x (fst kv) = Some a -> nth_error y (fst kv) = Some b -> eqb a b = true).
      { clear - C1 C2 eqb_sym eqb_trans. revert c2 C2. induction C1 as [|[k cats] b S c1 Hb F IH]; intros c2 C2.
        - inversion C2; subst. split; [intros _ kv a b []|auto].
        - inversion C2 as [|? b2 ? c2' Hb2 F2]; subst. specialize (IH _ F2). cbn in Hb, Hb2.
          destruct (nth_error x k) as [vx|] eqn:Ex; [|discriminate]. destruct (nth_error y k) as [vy|] eqn:Ey; [|discriminate].
          unfold encode1 in Hb, Hb2. destruct (position eqb vx cats) as [p|] eqn:Pp; [|discriminate]. destruct (position eqb vy cats) as [q|] eqn:Pq; [|discriminate].
          injection Hb as <-. injection Hb2 as <-.
          assert (K : unit_row (length cats) p = unit_row (length cats) q <-> eqb vx vy = true).
          { split.
            - intros E. destruct (position_spec _ _ _ _ Pp) as (c & A1 & A2). destruct (position_spec _ _ _ _ Pq) as (d & B1 & B2).
              apply unit_row_inj in E; [|eapply nth_error_lt; eauto]. subst q. rewrite A1 in B1. injection B1 as <-. eauto.
            - intros E. enough (p = q) by congruence. enough (position eqb vx cats = position eqb vy cats) by congruence. clear - E eqb_sym eqb_trans.
              induction cats as [|c cats IH]; auto. cbn. assert (X : eqb vx c = eqb vy c).
              { destruct (eqb vx c) eqn:A, (eqb vy c) eqn:B; auto; exfalso.
                - rewrite (eqb_trans vy vx c) in B; auto; discriminate.
                - rewrite (eqb_trans vx vy c) in A; auto; discriminate. }
              rewrite X, IH. reflexivity. }
          split.
          + intros [= E1 E2]. intros kv a b [<-|Hkv] Ha Hb; [cbn in *; apply K in E1; congruence|]. apply IH with (kv := kv); auto.
          + intros H. f_equal; [apply K, (H (k, cats)); auto; now left|]. apply IH. intros kv a b Hkv. apply H. now right. }
      rewrite G. split.
      - intros H i a b Hi Ha Hb. apply Hin, in_map_iff in Hi as (kv & <- & Hkv). eauto.
      - intros H kv a b Hkv Ha Hb. apply (H (fst kv)); auto. apply Hin. now apply in_map. }
    rewrite Q1, Q2. split.
    - intros [H1 H2] i a b Ha Hb. destruct (in_dec Nat.eq_dec i (map fst levels)); eauto.
    - intros H. split; intros i a b Hi Ha Hb; specialize (H i a b Ha Hb); destruct (in_dec Nat.eq_dec i (map fst levels)); auto; contradiction.
  Qed.
End Encoding.
Print Assumptions C74_code.
Print Assumptions C74_injective.
Definition ex_float (v : Z + string) : option Q := match v with inl z => Some (inject_Z z) | inr _ => None end.
Definition ex_eqb (a b : Z + string) : bool := match a, b with inl x, inl y => Z.eqb x y | inr s, inr t => String.eqb s t | _, _ => false end.
Example encode_case :
  encode ex_eqb ex_float [(2, [inr "r"; inr "g"]%string); (0, [inr "no"; inr "yes"; inr "maybe"]%string)] [inr "yes"%string; inl 5%Z; inr "g"%string]
  = Some [5; 0; 1; 0; 0; 1]%Q.
Proof. reflexivity. Qed.

(** C76: proportional selection without replacement returns as many indices as requested, pairwise
    different and of existing candidates.  (When it returns: C111.) *)
Lemma without_replacement_spec : forall N perf idx rs res, NoDup idx -> length idx = length perf -> N <= length perf ->
  without_replacement N perf idx rs = Some res -> length res = N /\ NoDup res /\ forall i, In i res -> In i idx.
Proof.
  induction N as [|N IH]; intros perf idx rs res Nd L HN H; cbn in H; [destruct rs; injection H as <-; repeat split; auto; try constructor; intros ? []|].
  destruct rs as [|r rs]; [discriminate|]. destruct (length perf =? 1) eqn:E1.
  - apply Nat.eqb_eq in E1. assert (N = 0) by lia. subst N. destruct idx as [|i idx]; [discriminate|]. cbn in H. destruct rs; injection H as <-;
      (repeat split; [repeat constructor; auto|intros j [<-|[]]; now left]).
  - destruct (select perf r) as [k|] eqn:Es; [|discriminate]. destruct (nth_error idx k) as [i|] eqn:Ei; [|discriminate]. cbn [option_map] in H.
    destruct (without_replacement N (remove_at k perf) (remove_at k idx) rs) as [res'|] eqn:Ew; [|discriminate]. injection H as <-.
    pose proof (remove_at_perm k idx i Ei) as P. assert (Ni : NoDup (i :: remove_at k idx)) by (eapply Permutation_NoDup; eauto). inversion Ni; subst.
    pose proof (select_lt _ _ _ Es) as Lk. pose proof (remove_at_length k perf Lk). pose proof (nth_error_lt _ _ _ Ei) as Li.
    pose proof (remove_at_length k idx Li). destruct (IH (remove_at k perf) (remove_at k idx) rs res' H2 ltac:(lia) ltac:(lia) Ew) as (A & B & C).
    split; [cbn; lia|]. split; [constructor; auto|]. intros j [<-|Hj]; [eapply nth_error_In; eauto|].
    apply (Permutation_in _ (Permutation_sym P)). right. auto.
Qed.
Lemma oriented_length m perf : length (oriented m perf) = length perf.
Proof. unfold oriented. destruct m; now rewrite ?map_length. Qed.
Theorem C76_distinct :
  forall perf N minimize rs res, proportional_selection perf N minimize false rs = Some res ->
    length res = N /\ NoDup res /\ forall i, In i res -> i < length perf.
Proof.
  intros perf N m rs res H. unfold proportional_selection in H. rewrite oriented_length in H. destruct (N <=? length perf) eqn:E; [|discriminate].
  apply Nat.leb_le in E. apply without_replacement_spec in H as (A & B & C); [|apply seq_NoDup|now rewrite seq_length, oriented_length|now rewrite oriented_length].
  repeat split; auto. intros i Hi. apply C, in_seq in Hi. lia.
Qed.
Print Assumptions C76_distinct.
Example selection_case :
  proportional_selection [3; 1; 2]%Q 3 true false [1#2; 1#2; 1#2]%Q = Some [1; 2; 0] /\
  proportional_selection [3; 1; 2]%Q 2 true true [1#2; 9#10]%Q = Some [1; 2].
Proof. vm_compute. auto. Qed.

(** C111, full statement (refuted): for N at most the number of candidates, proportional selection
    without replacement returns.  It raises whenever the candidates are equally good. *)
Lemma equal_shares perf q : (forall x, In x perf -> x == q)%Q -> shares perf = None.
Proof.
  intros H. destruct (shares perf) as [s|] eqn:E; auto. exfalso. destruct (shares_spec _ _ E) as (L & S1 & _ & t & T & ->).
  assert (Z : (qsum (map (fun p => (p - minimum perf) / t) perf) == 0)%Q); [|lra].
  assert (M : forall p, In p perf -> (p - minimum perf == 0)%Q).
  { intros p Hp. destruct perf as [|a l]; [destruct Hp|]. rewrite (H _ Hp), (H (minimum (a :: l))) by (apply minimum_in; discriminate). ring. }
  clear - M T. set (m := minimum perf) in *. clearbody m. induction perf as [|a l IH]; [reflexivity|]. cbn. fold (qsum (map (fun p => ((p - m) / t)%Q) l)).
  rewrite IH by (intros; apply M; now right). rewrite (M a) by now left. field. lra.
Qed.
Theorem C111_equal_candidates_refuted :
  forall perf q N minimize rs, (forall x, In x perf -> (x == q)%Q) -> 1 < length perf -> 0 < N ->
    proportional_selection perf N minimize false rs = None.
Proof.
  intros perf q N m rs H L HN. unfold proportional_selection. rewrite oriented_length. destruct (N <=? length perf); auto.
  assert (S : shares (oriented m perf) = None).
  { destruct m; [|now apply (equal_shares perf q)]. unfold oriented. set (p := map Qopp perf).
    assert (Hp : forall x, In x p -> (x == - q)%Q) by (intros x Hx; apply in_map_iff in Hx as (y & <- & Hy); now rewrite (H y Hy)).
    apply (equal_shares _ 0%Q). intros x Hx. apply in_map_iff in Hx as (y & <- & Hy). rewrite (Hp y Hy).
    rewrite (Hp (minimum p)); [ring|]. apply minimum_in. intros E. rewrite E in Hy. destruct Hy. }
  destruct N as [|N]; [lia|]. cbn. destruct rs as [|r rs]; auto. rewrite oriented_length. destruct (length perf =? 1) eqn:E1; [apply Nat.eqb_eq in E1; lia|].
  unfold select. now rewrite S.
Qed.
Print Assumptions C111_equal_candidates_refuted.
(** What does hold: candidates that are pairwise different are always selected, for all draws. *)
Lemma fop_in l : distinct l -> forall a b m, Permutation l (a :: b :: m) -> ~ (a == b)%Q.
Proof. intros D a b m P. apply (distinct_perm _ _ P) in D. inversion D; subst. now inversion H1. Qed.
Lemma select_defined perf r : distinct perf -> 1 < length perf -> (r <= 1)%Q -> exists k, select perf r = Some k.
Proof.
  intros D L R. destruct perf as [|a [|b l]]; cbn in L; try lia. destruct (shares_defined (a :: b :: l)) as [s Hs].
  { exists a, b. split; [now left|]. split; [right; now left|]. apply (fop_in (a :: b :: l) D a b l). reflexivity. }
  unfold select. rewrite Hs. destruct (shares_spec _ _ Hs) as (Ls & S1 & _). apply first_reaching_some; [lra|]. destruct s; discriminate.
Qed.
Theorem C111_distinct_partial :
  forall perf N minimize rs, distinct perf -> N <= length perf -> N <= length rs -> (forall r, In r rs -> (0 <= r < 1)%Q) ->
    exists res, proportional_selection perf N minimize false rs = Some res.
Proof.
  intros perf N m rs D HN HR Hr. unfold proportional_selection. rewrite oriented_length. apply Nat.leb_le in HN as HN'. rewrite HN'.
  assert (D' : distinct (oriented m perf)).
  { destruct m; auto. unfold oriented. set (c := minimum _). clearbody c. clear - D. induction D as [|x l F D IH]; cbn; constructor; auto.
    apply Forall_forall. intros y Hy. rewrite map_map in Hy. apply in_map_iff in Hy as (z & <- & Hz). rewrite Forall_forall in F. specialize (F z Hz). intros E. apply F. lra. }
  rewrite <- (oriented_length m perf) in HN |- *. revert D' HN HR. generalize (oriented m perf) as p. intros p D' HN HR.
  assert (G : forall N p idx rs, distinct p -> length idx = length p -> N <= length p -> N <= length rs -> (forall r, In r rs -> (0 <= r < 1)%Q) ->
     exists res, without_replacement N p idx rs = Some res).
  { clear. induction N as [|N IH]; intros p idx rs D L HN HR Hr; [destruct rs; cbn; eauto|]. destruct rs as [|r rs]; [cbn in HR; lia|].
    cbn [without_replacement]. destruct (length p =? 1) eqn:E1.
    - apply Nat.eqb_eq in E1. destruct idx as [|i idx]; [cbn in L; lia|]. assert (N = 0) by lia. subst N. cbn. destruct rs; cbn; eauto.
    - apply Nat.eqb_neq in E1. destruct (select_defined p r D) as [k Hk]; [lia|specialize (Hr r (or_introl eq_refl)); lra|]. rewrite Hk.
      pose proof (select_lt _ _ _ Hk) as Lk. destruct (lt_nth_error idx k) as [i Hi]; [lia|]. rewrite Hi. cbn [option_map].
      destruct (lt_nth_error p k) as [v Hv]; auto.
      assert (exists res, without_replacement N (remove_at k p) (remove_at k idx) rs = Some res) as [res E].
      { apply IH; [|..|intros; apply Hr; now right].
        - apply (distinct_perm _ _ (remove_at_perm k p v Hv)) in D. now inversion D.
        - pose proof (remove_at_length k p Lk). pose proof (remove_at_length k idx ltac:(lia)). lia.
        - pose proof (remove_at_length k p Lk). lia.
        - cbn in HR. lia. }
      rewrite E. cbn. eauto. }
  apply G; auto. now rewrite seq_length.
Qed.
Print Assumptions C111_distinct_partial.
Example distinct_case : distinct [3; 1; 2]%Q.
Proof. repeat constructor; intros E; vm_compute in E; discriminate. Qed.

(** C110: the selection probability is proportional to the lead over the worst candidate: with a
    draw r > 0 the candidate k is selected exactly when r lies in an interval whose length is its
    lead divided by the sum of all leads; the worst candidates are never selected. *)
Theorem C110_proportional :
  forall perf, (exists x y, In x perf /\ In y perf /\ ~ (x == y)%Q) ->
    exists bounds : list (Q * Q),
      length bounds = length perf /\
      (forall r k lo hi, (0 < r <= 1)%Q -> nth_error bounds k = Some (lo, hi) -> (select perf r = Some k <-> lo < r <= hi)%Q) /\
      (forall k p lo hi, nth_error perf k = Some p -> nth_error bounds k = Some (lo, hi) ->
         ((hi - lo) * (qsum (map (fun q => q - minimum perf) perf)) == p - minimum perf)%Q) /\
      (forall r k p, (0 < r)%Q -> select perf r = Some k -> nth_error perf k = Some p -> (minimum perf < p)%Q).
Proof.
  intros perf H. destruct (shares_defined perf H) as [s Hs]. destruct (shares_spec _ _ Hs) as (Ls & S1 & Sn & t & T & Es).
  assert (Ht : (qsum (map (fun q => q - minimum perf) perf) == t)%Q).
  { rewrite Es in S1. rewrite <- (map_map (fun p => (p - minimum perf)%Q) (fun p => (p / t)%Q)) in S1. rewrite qsum_div in S1 by lra.
    assert (X : (qsum (map (fun p => p - minimum perf) perf) == qsum (map (fun p => p - minimum perf) perf) / t * t)%Q) by (field; lra).
    rewrite X, S1. ring. }
  set (B := map (fun k => (qsum (firstn k s), qsum (firstn (S k) s))) (seq 0 (length s))).
  assert (NB : forall k lo hi, nth_error B k = Some (lo, hi) -> k < length s /\ lo = qsum (firstn k s) /\ hi = qsum (firstn (S k) s)).
  { intros k lo hi Hk. unfold B in Hk. rewrite nth_error_map, nth_error_seq in Hk. destruct (k <? length s) eqn:E; [|discriminate].
    apply Nat.ltb_lt in E. cbn [option_map] in Hk. injection Hk as <- <-. auto. }
  assert (Q1 : forall k v, nth_error s k = Some v -> (qsum (firstn (S k) s) == qsum (firstn k s) + v)%Q).
  { clear. induction s as [|a s IH]; intros [|k] v Hv; try discriminate; cbn in *; [injection Hv as ->; ring|].
    fold (qsum (firstn k s)). destruct s as [|b s]; [destruct k; discriminate|]. specialize (IH k v Hv). cbn in IH. fold (qsum (firstn k s)) in *. cbn.
    change (fold_right Qplus 0%Q (firstn k s)) with (qsum (firstn k s)) in *. rewrite IH. ring. }
  assert (SEL : forall r k, (0 < r)%Q -> select perf r = Some k -> exists v, nth_error s k = Some v /\ (qsum (firstn k s) < r <= qsum (firstn k s) + v)%Q).
  { intros r k R E. unfold select in E. rewrite Hs in E. apply first_reaching_spec in E as (v & A & C & D). exists v. split; auto. split; [|lra].
    destruct D as [->|D]; [cbn; lra|lra]. }
  assert (MON : forall j k, j <= k -> (qsum (firstn j s) <= qsum (firstn k s))%Q).
  { clear - Sn. induction s as [|a s IH]; intros j k L; [rewrite !firstn_nil; apply Qle_refl|]. destruct k; [replace j with 0 by lia; apply Qle_refl|].
    destruct j as [|j]; cbn; fold (qsum (firstn k s)).
    - assert (0 <= a)%Q by (apply Sn; now left). assert (0 <= qsum (firstn k s))%Q; [|lra]. apply qsum_nonneg. intros x Hx. apply Sn. right.
      rewrite <- (firstn_skipn k s). apply in_app_iff. auto.
    - fold (qsum (firstn j s)). assert (qsum (firstn j s) <= qsum (firstn k s))%Q; [|lra]. apply IH; [|lia]. intros; apply Sn; now right. }
  exists B. split; [unfold B; now rewrite map_length, seq_length|]. split; [|split].
  - intros r k lo hi R Hk. destruct (NB _ _ _ Hk) as (Lk & -> & ->). split.
    + intros E. destruct (SEL r k ltac:(lra) E) as (v & A & C). rewrite (Q1 _ _ A). exact C.
    + intros C. assert (exists j, select perf r = Some j) as [j Hj].
      { unfold select. rewrite Hs. apply first_reaching_some; [lra|]. intros X. rewrite X in Lk. cbn in Lk. lia. }
      destruct (SEL r j ltac:(lra) Hj) as (v & A & E). rewrite Hj. f_equal. rewrite <- (Q1 _ _ A) in E. destruct (lt_eq_lt_dec j k) as [[X|X]|X]; auto; exfalso.
      * assert (qsum (firstn (S j) s) <= qsum (firstn k s))%Q by (apply MON; lia). lra.
      * assert (qsum (firstn (S k) s) <= qsum (firstn j s))%Q by (apply MON; lia). lra.
  - intros k p lo hi Hp Hk. destruct (NB _ _ _ Hk) as (Lk & -> & ->). destruct (lt_nth_error s k Lk) as [v Hv]. rewrite (Q1 _ _ Hv), Ht.
    rewrite Es, nth_error_map, Hp in Hv. cbn in Hv. injection Hv as <-. field. lra.
  - intros r k p R E Hp. destruct (SEL r k R E) as (v & A & C). rewrite Es, nth_error_map, Hp in A. cbn in A. injection A as <-.
    assert (V0 : (0 < (p - minimum perf) / t)%Q) by lra.
    assert (X : (p - minimum perf == (p - minimum perf) / t * t)%Q) by (field; lra).
    assert (Y : (0 < (p - minimum perf) / t * t)%Q) by (apply Qmult_lt_0_compat; auto). lra.
Qed.
Print Assumptions C110_proportional.

(** C78: the trends have as many basis functions as advertised; the quadratic one consists of the
    constant, the variables and all products of two variables. *)
Lemma quad_fold x : forall ks f,
  fold_left (fun f k => f ++ map (fun y => (nth k x 0 * y)%Q) (skipn k x)) ks f =
  f ++ flat_map (fun k => map (fun y => (nth k x 0 * y)%Q) (skipn k x)) ks.
Proof. induction ks as [|k ks IH]; intros f; cbn; [now rewrite app_nil_r|]. rewrite IH. now rewrite app_assoc. Qed.
Theorem C78_size : forall t x, length (basis t x) = n_dim t (length x).
Proof.
  intros [] x; cbn [basis n_dim]; [reflexivity|cbn [length]; lia|]. rewrite quad_fold. cbn [length app]. rewrite app_length.
  assert (G : forall a, a <= length x -> 2 * length (flat_map (fun k => map (fun y => (nth k x 0 * y)%Q) (skipn k x)) (seq (length x - a) a)) = a * (a + 1)).
  { induction a as [|a IH]; intros L; [reflexivity|]. cbn [seq flat_map]. rewrite app_length, map_length, skipn_length.
    replace (S (length x - S a)) with (length x - a) by lia. rewrite Nat.mul_add_distr_l, IH by lia. nia. }
  specialize (G (length x) ltac:(lia)). rewrite Nat.sub_diag in G. revert G. generalize (length (flat_map (fun k => map (fun y => (nth k x 0 * y)%Q) (skipn k x)) (seq 0 (length x)))). generalize (length x). intros n w G.
  replace ((n + 1) * (n + 2)) with ((n + 1 + w) * 2) by nia. rewrite Nat.div_mul by lia. lia.
Qed.
Print Assumptions C78_size.
Theorem C78_quadratic :
  forall x, 
    (forall q, In q (basis Quadratic x) <->
       q = 1%Q \/ In q x \/ exists i j a b, i <= j /\ nth_error x i = Some a /\ nth_error x j = Some b /\ q = (a * b)%Q).
Proof.
  intros x q. cbn. rewrite quad_fold. cbn. rewrite in_app_iff, in_flat_map.
  assert (N : forall i a, nth_error x i = Some a -> nth i x 0%Q = a) by (intros i a H; now apply nth_error_nth).
  assert (K : forall k j, nth_error (skipn k x) j = nth_error x (k + j)).
  { clear. induction x as [|a x IH]; intros [|k] j; cbn; auto. destruct j; auto. }
  split.
  - intros [<-|[H|H]]; auto. destruct H as (k & Hk & H). apply in_map_iff in H as (y & <- & Hy). apply In_nth_error in Hy as [j Hj]. rewrite K in Hj.
    apply in_seq in Hk. destruct (lt_nth_error x k) as [a Ha]; [lia|]. right. right. exists k, (k + j), a, y. repeat split; auto; [lia|]. now rewrite (N _ _ Ha).
  - intros [->|[H|(i & j & a & b & L & Ha & Hb & ->)]]; auto. right. right. exists i. split; [apply in_seq; apply nth_error_lt in Ha; lia|].
    apply in_map_iff. exists b. rewrite (N _ _ Ha). split; auto. apply nth_error_In with (n := j - i). rewrite K. now replace (i + (j - i)) with j by lia.
Qed.
Print Assumptions C78_quadratic.
(** Every pair of variables occurs once: the basis has exactly 1 + n + n (n + 1) / 2 functions
    (C78_size), and the Jacobian of the constant and linear trends is exact. *)
Theorem C78_jacobian :
  forall t J beta x h, jacobian t (length x) = Some J -> length h = length x ->
    (trend_value t beta (map (fun p => fst p + snd p) (combine x h)) - trend_value t beta x ==
     dotQ (map (fun row => dotQ row h) J) beta)%Q.
Proof.
  assert (Z : forall n h, (dotQ (repeat 0 n) h == 0)%Q).
  { induction n as [|n IH]; intros [|a h]; try reflexivity. unfold dotQ in *. cbn. rewrite IH. ring. }
  assert (U : forall h n k i, length h = n -> k <= i < k + n -> (dotQ (map (fun j => if j =? i then 1 else 0) (seq k n)) h == nth (i - k) h 0)%Q).
  { induction h as [|a h IH]; intros n k i L Hi; [cbn in L; lia|]. destruct n as [|n]; [discriminate|]. cbn [seq map]. unfold dotQ in *. cbn [combine fold_right fst snd].
    destruct (k =? i) eqn:E.
    - apply Nat.eqb_eq in E. subst k. rewrite Nat.sub_diag. cbn [nth].
      assert (X : forall n k (h : list Q), i < k -> (fold_right (fun p s => fst p * snd p + s) 0 (combine (map (fun j => if j =? i then 1 else 0) (seq k n)) h) == 0)%Q).
      { clear. induction n as [|n IH]; intros k [|b h] L; try reflexivity. cbn. destruct (k =? i) eqn:E; [apply Nat.eqb_eq in E; lia|]. rewrite IH by lia. ring. }
      rewrite X by lia. ring.
    - apply Nat.eqb_neq in E. cbn in L. rewrite (IH n (S k) i) by lia. replace (i - k) with (S (i - S k)) by lia. cbn [nth]. ring. }
  intros [] J beta x h HJ L; cbn in HJ; [| |discriminate].
  - injection HJ as <-. unfold trend_value. cbn. destruct beta as [|b beta]; [reflexivity|]. unfold dotQ. cbn. fold (dotQ (repeat 0%Q (length x)) h). rewrite Z. ring.
  - injection HJ as <-. unfold trend_value. cbn [basis map]. destruct beta as [|b beta]; [reflexivity|]. unfold dotQ at 1 2 3. cbn [combine fold_right fst snd].
    fold (dotQ (map (fun p => (fst p + snd p)%Q) (combine x h)) beta). fold (dotQ x beta).
    fold (dotQ (map (fun row => dotQ row h) (map (fun i => map (fun j => if j =? i then 1%Q else 0%Q) (seq 0 (length x))) (seq 0 (length x)))) beta). rewrite Z.
    rewrite map_map.
    assert (G : forall (x h : list Q) k beta D, length h = length x -> (forall i, i < length x -> (nth i h 0 == D (k + i)%nat)%Q) ->
       (dotQ (map (fun p => fst p + snd p) (combine x h)) beta - dotQ x beta == dotQ (map D (seq k (length x))) beta)%Q).
    { clear. induction x as [|a x IH]; intros [|c h] k beta D L H; try discriminate; [cbn; destruct beta; reflexivity|]. destruct beta as [|b beta]; [reflexivity|].
      cbn in L. specialize (IH h (S k) beta D ltac:(lia)). cbn [combine map length seq]. unfold dotQ in *. cbn [combine fold_right fst snd].
      rewrite <- IH. 2:{ intros i Hi. specialize (H (S i)). cbn in H. replace (S k + i) with (k + S i) by lia. apply H. cbn. lia. }
      specialize (H 0 ltac:(cbn; lia)). cbn in H. rewrite Nat.add_0_r in H. rewrite <- H. ring. }
    assert (G' := G x h 0 beta (fun i => dotQ (map (fun j => if j =? i then 1%Q else 0%Q) (seq 0 (length x))) h) L). rewrite <- G'; [ring|].
    intros i Hi. cbn. rewrite U by lia. now rewrite Nat.sub_0_r.
Qed.
Print Assumptions C78_jacobian.
Example trend_case :
  basis Quadratic [2; 3]%Q = [1; 2; 3; 2 * 2; 2 * 3; 3 * 3]%Q /\ n_dim Quadratic 2 = 6 /\
  jacobian LinearT 2 = Some [[0; 0]; [1; 0]; [0; 1]]%Q.
Proof. repeat split; reflexivity. Qed.
