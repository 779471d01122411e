(** Lemmas about the constructors of variables and search spaces. *)
From Coq Require Import List Bool Arith ZArith QArith String Lia.
From Verif Require Import Model_Var Model_Opt Model_Space Model_SpaceDict Model_SpaceInit Spec_SpaceInit Proofs_Space.
From Verif Require Proofs_Opt.
Import ListNotations.
Open Scope nat_scope.

Lemma mapM_nth {A B} (f : A -> res B) l r : mapM f l = Ok r -> List.length r = List.length l /\
  forall i a, nth_error l i = Some a -> exists b, nth_error r i = Some b /\ f a = Ok b.
Proof.
  revert r. induction l as [|a l IH]; intros r H; cbn in H.
  - injection H as <-. split; auto. intros [|i] ? E; discriminate.
  - destruct (f a) eqn:F; [|discriminate]. destruct (mapM f l) eqn:M; [|discriminate]. injection H as <-. destruct (IH _ eq_refl) as (L & N). split; [cbn; lia|].
    intros [|i] x E; cbn in *; [injection E as <-; eauto|eauto].
Qed.
Lemma mapM_all {A B} (f : A -> res B) l : (forall i a, nth_error l i = Some a -> exists b, f a = Ok b) -> exists r, mapM f l = Ok r.
Proof.
  induction l as [|a l IH]; intros H; cbn; eauto. destruct (H 0 a eq_refl) as (b & E). rewrite E.
  destruct IH as (r & R). { intros i x Hx. apply (H (S i) x Hx). } rewrite R. eauto.
Qed.
Lemma mapM_seqs lls : mapM tuple_of (map ESeq lls) = Ok lls.
Proof. induction lls as [|l lls IH]; cbn; auto. now rewrite IH. Qed.
Lemma ranges_seqs lls : lls <> [] -> ranges (map ESeq lls) = Ok lls.
Proof. intros N. destruct lls as [|l lls]; [congruence|]. unfold ranges. cbn [map]. apply (mapM_seqs (l :: lls)). Qed.

(** The keywords of one variable. *)
Definition raw {A} (o : oarg A) (i : nat) : option (option A) :=
  match o with ONone => None | OOne a => Some (Some a) | OList l => nth_error l i end.
Lemma column_ok {A} (o : oarg A) dim r : column o dim = Ok r -> fits o dim /\ List.length r = dim /\ forall i, i < dim -> nth_error r i = Some (raw o i).
Proof.
  destruct o as [|a|l]; cbn.
  - intros [= <-]. split; auto. split; [apply repeat_length|]. intros i Hi. now apply nth_error_repeat.
  - intros [= <-]. split; auto. split; [apply repeat_length|]. intros i Hi. now apply nth_error_repeat.
  - destruct (Nat.eqb_spec (List.length l) dim); [|discriminate]. intros [= <-]. split; auto. split; [rewrite map_length; auto|].
    intros i Hi. rewrite nth_error_map. destruct (nth_error l i) eqn:E; auto. apply nth_error_None in E. lia.
Qed.
Lemma column_fits {A} (o : oarg A) dim : fits o dim -> exists r, column o dim = Ok r.
Proof. destruct o; cbn; eauto. intros ->. rewrite Nat.eqb_refl. eauto. Qed.
Lemma passed_raw {A} (o : oarg A) i : passed (raw o i) = given o i.
Proof. destruct o as [|a|l]; cbn; auto. revert i. induction l as [|[x|] l IH]; intros [|i]; cbn; auto. Qed.
Lemma raw_none {A} (o : oarg A) i : raw o i = Some None <-> none_in o i.
Proof. destruct o; cbn; split; try discriminate; try tauto. Qed.

Lemma names_ok n dim r : names_of n dim = Ok r -> dim <> 0 -> List.length r = dim /\ forall i, i < dim -> nth_error r i = Some (name_at n dim i).
Proof.
  destruct n as [s|l]; cbn [names_of name_at].
  - intros [= <-] N. destruct (Nat.ltb_spec 1 dim) as [L|L].
    + split; [now rewrite map_length, seq_length|]. intros i Hi. rewrite nth_error_map. rewrite (nth_error_nth' _ 0) by (now rewrite seq_length).
      rewrite seq_nth by auto. cbn. destruct (Nat.eqb_spec dim 1); [lia|reflexivity].
    + replace dim with 1 by lia. cbn. split; auto. intros [|i] Hi; [reflexivity|lia].
  - destruct (Nat.eqb_spec (List.length l) dim); [|discriminate]. intros [= <-] _. split; auto. intros i Hi. apply nth_error_nth'. lia.
Qed.
Lemma name_at_inj n dim i j : names_fit n dim -> i < dim -> j < dim -> name_at n dim i = name_at n dim j -> i = j.
Proof.
  destruct n as [s|l]; cbn; intros F Hi Hj E.
  - destruct (Nat.eqb_spec dim 1); [lia|]. apply str_app_cancel in E. now apply Proofs_Opt.str_nat_inj in E.
  - destruct F as (L & D). apply (proj1 (NoDup_nth l EmptyString) D); [lia|lia|exact E].
Qed.

Lemma zip_nth bs : forall ns ds ps ss ts i,
  List.length ns = List.length bs -> List.length ds = List.length bs -> List.length ps = List.length bs -> List.length ss = List.length bs -> List.length ts = List.length bs ->
  List.length (zip_rows bs ns ds ps ss ts) = List.length bs /\
  (i < List.length bs -> forall b n d p s t, nth_error bs i = Some b -> nth_error ns i = Some n -> nth_error ds i = Some d -> nth_error ps i = Some p -> nth_error ss i = Some s -> nth_error ts i = Some t ->
   nth_error (zip_rows bs ns ds ps ss ts) i = Some (Row b n d p s t)).
Proof.
  induction bs as [|b bs IH]; intros [|n ns] [|d ds] [|p ps] [|s ss] [|t ts] i L1 L2 L3 L4 L5; cbn in *; try lia.
  destruct (IH ns ds ps ss ts (pred i)) as (A & B); try lia. split; [lia|]. intros Hi b' n' d' p' s' t'. destruct i as [|i]; cbn; [congruence|].
  intros. apply B; auto. lia.
Qed.
Lemma ready_ok lls n d p s t rows : lls <> [] -> ready_args (map ESeq lls) n d p s t = Ok rows ->
  List.length rows = List.length lls /\ fits d (List.length lls) /\ forall i, i < List.length lls ->
    nth_error rows i = Some (Row (nth i lls []) (name_at n (List.length lls) i) (raw d i) (raw p i) (raw s i) (raw t i)).
Proof.
  intros N. unfold ready_args. rewrite ranges_seqs by auto. set (dim := List.length lls). assert (D : dim <> 0) by (unfold dim; destruct lls; cbn; congruence).
  destruct (names_of n dim) as [ns|] eqn:En; [|discriminate]. destruct (column d dim) as [ds|] eqn:Ed; [|discriminate]. destruct (column p dim) as [ps|] eqn:Ep; [|discriminate].
  destruct (column s dim) as [ss|] eqn:Es; [|discriminate]. destruct (column t dim) as [ts|] eqn:Et; [|discriminate]. intros [= <-].
  destruct (names_ok _ _ _ En D) as (Ln & Nn). destruct (column_ok _ _ _ Ed) as (F & Ld & Nd). destruct (column_ok _ _ _ Ep) as (_ & Lp & Np). destruct (column_ok _ _ _ Es) as (_ & Ls & Ns). destruct (column_ok _ _ _ Et) as (_ & Lt & Nt).
  pose proof (zip_nth lls ns ds ps ss ts) as Z. split; [apply (Z 0); auto|]. split; auto. intros i Hi. apply (Z i); auto; [apply nth_error_nth'; auto].
Qed.
Lemma ready_all lls n d p s t : lls <> [] -> names_fit n (List.length lls) -> fits d (List.length lls) -> fits p (List.length lls) -> fits s (List.length lls) -> fits t (List.length lls) ->
  exists rows, ready_args (map ESeq lls) n d p s t = Ok rows.
Proof.
  intros N F Fd Fp Fs Ft. unfold ready_args. rewrite ranges_seqs by auto. destruct (column_fits _ _ Fd) as (? & ->). destruct (column_fits _ _ Fp) as (? & ->). destruct (column_fits _ _ Fs) as (? & ->). destruct (column_fits _ _ Ft) as (? & ->).
  destruct n as [nm|nl]; cbn [names_of]; eauto. destruct F as (L & _). rewrite L, Nat.eqb_refl. eauto.
Qed.

Lemma map_deref_seq (vs : list vobj) : map (deref vs) (seq 0 (List.length vs)) = vs.
Proof.
  apply (nth_ext _ _ no_var no_var); [now rewrite map_length, seq_length|]. intros i Hi. rewrite map_length, seq_length in Hi.
  rewrite (nth_indep _ no_var (deref vs 0)) by (now rewrite map_length, seq_length). rewrite map_nth, seq_nth by auto. reflexivity.
Qed.
Lemma fresh_vars (vs : list vobj) h sp : NoDup (map vn vs) -> set_data vs (seq 0 (List.length vs)) = (h, sp) -> variables h sp = vs /\ names sp = map vn vs.
Proof.
  intros D E. assert (V : valid vs (seq 0 (List.length vs))) by (intros r Hr; apply in_seq in Hr; lia).
  assert (G : get_names vs (seq 0 (List.length vs)) = map vn vs) by (unfold get_names; rewrite <- (map_map (deref vs) vn), map_deref_seq; reflexivity).
  assert (W : variables h sp = vs). { rewrite (sd_vars_id _ _ _ _ E V (seq_NoDup _ _)); [apply map_deref_seq|now rewrite G]. }
  split; auto. rewrite (sd_cached _ _ _ _ E), W. reflexivity.
Qed.

Lemma check_default_ok k d r : check_default k d = Ok r -> r = d /\ default_ok k d.
Proof. destruct d as [v|]; cbn; [|intros [= <-]; auto]. destruct (contains k v) as [[|]|]; try discriminate. intros [= <-]. auto. Qed.
Lemma check_default_all k d : default_ok k d -> check_default k d = Ok d.
Proof. destruct d as [v|]; cbn; auto. intros ->. reflexivity. Qed.
Lemma scales_known s : existsb (String.eqb s) scales = true <-> known_scale s.
Proof.
  rewrite existsb_exists. unfold known_scale, scales. split; [intros (x & I & E); apply String.eqb_eq in E; now subst|intros I; exists s; split; auto; apply String.eqb_refl].
Qed.

(** One variable. *)
Lemma make_ok c b n d p s t i v : c <> CBool -> make_var c (Row b n (raw d i) (raw p i) (raw s i) (raw t i)) = Ok v ->
  vn v = n /\ vdef v = given d i /\ described c b p s t i v /\
  (forall x, given d i = Some x -> in_working_range c b (scale_at s i) -> contains (vk v) x = Some true).
Proof.
  intros NB. destruct c; try congruence; cbn [make_var described]; unfold make_Real, make_Integer, make_levels; cbn [r_bounds r_name r_default r_prec r_scale r_step]; rewrite ?passed_raw.
  - destruct b as [|x [|y rest]]; try discriminate. destruct (as_num x) as [lb|] eqn:Ex; [|discriminate]. destruct (as_num y) as [ub|] eqn:Ey; [|discriminate].
    destruct (Qle_bool ub lb) eqn:O; [discriminate|]. assert (LT : (lb < ub)%Q). { apply Qnot_le_lt. intros H. apply Qle_bool_iff in H. congruence. }
    fold (scale_at s i). intros H.
    assert (H' : (if negb (existsb (String.eqb (scale_at s i)) scales) then Err AssertionE
                  else match check_default (KReal lb ub (given p i)) (given d i) with
                       | Ok d0 => let '(lb', ub') := adjust (scale_at s i) (lb, ub) in Ok (mkV n (KReal lb' ub' (given p i)) d0 (scale_at s i))
                       | Err e => Err e end) = Ok v) by (destruct (raw s i) as [[?|]|]; [exact H|discriminate|exact H]).
    clear H. destruct (existsb (String.eqb (scale_at s i)) scales) eqn:Sc; [|discriminate]. cbn [negb] in H'. destruct (check_default _ _) as [d0|] eqn:C; [|discriminate].
    apply check_default_ok in C as (-> & C). destruct (adjust (scale_at s i) (lb, ub)) as [lb' ub'] eqn:A. injection H' as <-. cbn [vn vk vdef vscale].
    split; auto. split; auto. split.
    + exists x, y, rest, lb, ub. rewrite A. repeat split; auto. now apply scales_known.
    + intros w W R. destruct (R eq_refl x y rest lb ub eq_refl Ex Ey) as (R1 & R2). rewrite W in C. cbn [default_ok] in C.
      unfold adjust in A. destruct (working_range (scale_at s i)) as [lo hi]. cbn [fst snd] in *.
      assert (lb' = lb /\ ub' = ub) as (-> & ->).
      { assert (Q1 : qlt lb lo = false) by (unfold qlt; apply negb_false_iff, Qle_bool_iff; auto).
        assert (Q2 : qlt hi lb = false) by (unfold qlt; apply negb_false_iff, Qle_bool_iff; apply Qlt_le_weak in LT; eapply Qle_trans; eauto).
        assert (Q3 : qlt ub lo = false) by (unfold qlt; apply negb_false_iff, Qle_bool_iff; apply Qlt_le_weak in LT; eapply Qle_trans; eauto).
        assert (Q4 : qlt hi ub = false) by (unfold qlt; apply negb_false_iff, Qle_bool_iff; auto).
        rewrite Q1, Q2, Q3, Q4 in A. cbn in A. split; congruence. }
      exact C.
  - destruct (dedup b) as [|[ | lb | | | ] [|[ | ub | | | ] [|]]] eqn:D; try discriminate. destruct (check_default _ _) as [d0|] eqn:C; [|discriminate]. apply check_default_ok in C as (-> & C).
    destruct (Z.leb_spec ub lb); [discriminate|]. fold (step_at t i). intros H'.
    assert (K : (if (step_at t i =? 0)%Z then Err ZeroDivisionE else Ok (mkV n (KInt lb ub (step_at t i)) (given d i) "")) = Ok v) by (destruct (raw t i) as [[?|]|]; [exact H'|discriminate|exact H']).
    destruct (step_at t i =? 0)%Z; [discriminate|]. injection K as <-. cbn [vn vk vdef]. split; auto. split; auto. split; [exists lb, ub; auto|]. intros w W _. rewrite W in C. exact C.
  - destruct (check_default _ _) as [d0|] eqn:C; [|discriminate]. apply check_default_ok in C as (-> & C). intros [= <-]. cbn [vn vk vdef]. repeat split; auto. intros w W _. rewrite W in C. exact C.
  - destruct (check_default _ _) as [d0|] eqn:C; [|discriminate]. apply check_default_ok in C as (-> & C). intros [= <-]. cbn [vn vk vdef]. repeat split; auto. intros w W _. rewrite W in C. exact C.
  - destruct (check_default _ _) as [d0|] eqn:C; [|discriminate]. apply check_default_ok in C as (-> & C). intros [= <-]. cbn [vn vk vdef]. repeat split; auto. intros w W _. rewrite W in C. exact C.
Qed.
Lemma make_all c b n d p s t i : sensible c b d s t i -> exists v, make_var c (Row b n (raw d i) (raw p i) (raw s i) (raw t i)) = Ok v.
Proof.
  destruct c; cbn [make_var sensible]; unfold make_Real, make_Integer, make_levels; cbn [r_bounds r_name r_default r_prec r_scale r_step]; rewrite ?passed_raw.
  - intros (x & y & rest & lb & ub & -> & -> & -> & LT & NN & KS & D). replace (Qle_bool ub lb) with false.
    2:{ symmetry. apply not_true_iff_false. intros H. apply Qle_bool_iff in H. now apply Qlt_not_le in LT. }
    assert (R : raw s i <> Some None) by (rewrite raw_none; auto). fold (scale_at s i).
    assert (E : exists v, (if negb (existsb (String.eqb (scale_at s i)) scales) then Err AssertionE
                  else match check_default (KReal lb ub (given p i)) (given d i) with
                       | Ok d0 => let '(lb', ub') := adjust (scale_at s i) (lb, ub) in Ok (mkV n (KReal lb' ub' (given p i)) d0 (scale_at s i))
                       | Err e => Err e end) = Ok v).
    { apply scales_known in KS. rewrite KS. cbn [negb]. rewrite check_default_all by exact D. destruct (adjust (scale_at s i) (lb, ub)). eauto. }
    destruct E as (v & E). exists v. destruct (raw s i) as [[?|]|]; [exact E|congruence|exact E].
  - intros (lb & ub & -> & LT & NN & NZ & D). rewrite check_default_all by exact D. destruct (Z.leb_spec ub lb); [lia|]. fold (step_at t i).
    assert (R : raw t i <> Some None) by (rewrite raw_none; auto). destruct (Z.eqb_spec (step_at t i) 0); [congruence|].
    destruct (raw t i) as [[?|]|]; [eauto|congruence|eauto].
  - intros D. rewrite check_default_all by exact D. eauto.
  - intros D. rewrite check_default_all by exact D. eauto.
  - intros D. rewrite check_default_all by exact D. eauto.
  - intros [].
Qed.
