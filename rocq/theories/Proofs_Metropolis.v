From Coq Require Import Reals ZArith List Bool Arith Lia Lra.
From Coquelicot Require Import Coquelicot.
From Verif Require Import Lib_Sum Lib_Normal Model_Metropolis Spec_Metropolis.
Import ListNotations.
Open Scope R_scope.

(** ** Sums over lists of points *)
Lemma over_app {V} (S T : list V) h : over (S ++ T) h = over S h + over T h.
Proof. unfold over; induction S; cbn; [lra|]. rewrite IHS. lra. Qed.
Lemma over_ext {V} (S : list V) h k : (forall x, In x S -> h x = k x) -> over S h = over S k.
Proof. unfold over; induction S; cbn; intros H; [lra|]. rewrite IHS by auto. rewrite H by auto. lra. Qed.
Lemma over_plus {V} (S : list V) h k : over S (fun x => h x + k x) = over S h + over S k.
Proof. unfold over; induction S; cbn; [lra|]. rewrite IHS. lra. Qed.
Lemma over_scal {V} (S : list V) c h : over S (fun x => c * h x) = c * over S h.
Proof. unfold over; induction S; cbn; [lra|]. rewrite IHS. lra. Qed.
Lemma over_map {V W} (f : V -> W) S h : over (map f S) h = over S (fun x => h (f x)).
Proof. unfold over; induction S; cbn; [lra|]. rewrite IHS. lra. Qed.
Lemma over_flat {V W} (f : V -> list W) S h : over (flat_map f S) h = over S (fun x => over (f x) h).
Proof. induction S; [reflexivity|]. cbn [flat_map]. rewrite over_app, IHS. reflexivity. Qed.
Lemma over_swap {V W} (S : list V) (T : list W) (h : V -> W -> R) : over S (fun x => over T (h x)) = over T (fun y => over S (fun x => h x y)).
Proof.
  induction S as [|a S IH].
  - cbn. symmetry. unfold over. induction T; cbn; [lra|]. rewrite IHT. lra.
  - cbn [over fold_right]. change (over T (h a) + over S (fun x => over T (h x)) = over T (fun y => h a y + over S (fun x => h x y))). rewrite IH, over_plus. reflexivity.
Qed.
Lemma over_nth {V} (L : list V) h d : over L h = sumn (length L) (fun j => h (nth j L d)).
Proof.
  unfold sumn, over. induction L as [|a L IH]; [reflexivity|]. cbn [length seq map fold_right]. rewrite IH. f_equal. rewrite <- seq_shift, map_map. reflexivity.
Qed.
Lemma over_product {V} (L1 : list (list V)) L L2 (h : list V -> R) : over (product (L1 ++ L :: L2)) h = over (product L1) (fun p => over (product L2) (fun q => over L (fun a => h (p ++ a :: q)))).
Proof.
  revert h. induction L1 as [|L0 L1 IH]; intros h; cbn [app product].
  - unfold over at 2. cbn [fold_right app]. rewrite Rplus_0_r. rewrite over_flat. rewrite (over_ext L _ (fun a => over (product L2) (fun q => h (a :: q)))) by (intros; apply over_map). apply over_swap.
  - rewrite !over_flat. apply over_ext. intros a _. rewrite !over_map. rewrite IH. reflexivity.
Qed.
Lemma product_length {V} (Ls : list (list V)) x : In x (product Ls) -> length x = length Ls.
Proof. revert x. induction Ls; cbn; intros x H; [destruct H as [<-|[]]; auto|]. apply in_flat_map in H as (b & _ & H). apply in_map_iff in H as (y & <- & H). cbn. f_equal. auto. Qed.

(** ** Uniform numbers *)
Lemma RInt_split (f : R -> R) p a b : 0 <= p <= 1 -> (forall u, 0 < u < p -> f u = a) -> (forall u, p < u < 1 -> f u = b) -> RInt f 0 1 = p * a + (1 - p) * b.
Proof.
  intros Hp Ha Hb.
  assert (A : is_RInt f 0 p (scal (p - 0) a)). { apply (is_RInt_ext (fun _ => a)); [|apply @is_RInt_const]. intros u Hu. rewrite Rmin_left, Rmax_right in Hu by lra. symmetry. apply Ha. lra. }
  assert (B : is_RInt f p 1 (scal (1 - p) b)). { apply (is_RInt_ext (fun _ => b)); [|apply @is_RInt_const]. intros u Hu. rewrite Rmin_left, Rmax_right in Hu by lra. symmetry. apply Hb. lra. }
  apply is_RInt_unique. assert (C := is_RInt_Chasles _ _ _ _ _ _ A B). revert C. unfold scal, plus; cbn; unfold mult; cbn. intros C. replace (p * a + (1 - p) * b) with ((p - 0) * a + (1 - p) * b) by ring. exact C.
Qed.
Lemma expect_accept p (a b : R) : 0 <= p <= 1 -> expect01 (fun u => if Rle_dec u p then a else b) = p * a + (1 - p) * b.
Proof. intros Hp. apply RInt_split; auto; intros u Hu; destruct (Rle_dec u p); auto; lra. Qed.
Lemma expect_change p (a b : R) : 0 <= p <= 1 -> expect01 (fun u => if Rlt_dec u p then a else b) = p * a + (1 - p) * b.
Proof. intros Hp. apply RInt_split; auto; intros u Hu; destruct (Rlt_dec u p); auto; lra. Qed.
Lemma expect01_ext f g : (forall u, 0 < u < 1 -> f u = g u) -> expect01 f = expect01 g.
Proof. intros H. unfold expect01. apply RInt_ext. intros u Hu. rewrite Rmin_left, Rmax_right in Hu by lra. auto. Qed.
Lemma change_probability_range t N : (0 < N)%nat -> 0 <= change_probability t N <= 1.
Proof.
  intros HN. apply lt_0_INR in HN as HP. assert (1 <= INR N) by (apply (le_INR 1); lia). unfold change_probability. split.
  - apply Rle_trans with (1 / INR N); [|apply Rmax_r]. left. apply Rdiv_lt_0_compat; lra.
  - apply Rmax_lub.
    + assert (exp (-1 * INR t) <= 1); [|lra]. rewrite <- exp_0. pose proof (pos_INR t). destruct (Req_dec (-1 * INR t) 0) as [->|]; [lra|]. left. apply exp_increasing. lra.
    + apply (Rmult_le_reg_r (INR N)); auto. unfold Rdiv. rewrite Rmult_assoc, Rinv_l by lra. lra.
Qed.

(** ** Lists *)
Lemma zip_map {T A B C} (f : A -> B -> C) (a : T -> A) (b : T -> B) P : zip f (map a P) (map b P) = map (fun p => f (a p) (b p)) P.
Proof. induction P; cbn; congruence. Qed.
Lemma all_some_map {T A} (f : T -> option A) (g : T -> A) P : (forall p, In p P -> f p = Some (g p)) -> all_some (map f P) = Some (map g P).
Proof. induction P; cbn; intros H; auto. rewrite H by auto. rewrite IHP by auto. reflexivity. Qed.
Lemma combine_map {T A B} (a : T -> A) (b : T -> B) P : combine (map a P) (map b P) = map (fun p => (a p, b p)) P.
Proof. induction P; cbn; congruence. Qed.
Lemma in_product {V} (Ls : list (list V)) x : In x (product Ls) <-> Forall2 (fun a L => In a L) x Ls.
Proof.
  revert x. induction Ls as [|L Ls IH]; intros x; cbn; split; intros H.
  - destruct H as [<-|[]]. constructor.
  - inversion H. auto.
  - apply in_flat_map in H as (a & Ha & H). apply in_map_iff in H as (y & <- & H). constructor; auto. now apply IH.
  - inversion H; subst. apply in_flat_map. exists x0. split; auto. apply in_map_iff. exists l. split; auto. now apply IH.
Qed.
Lemma nth_error_forall2 {A B} (P : A -> B -> Prop) l m i a : Forall2 P l m -> nth_error l i = Some a -> exists b, nth_error m i = Some b /\ P a b.
Proof. intros H. revert i. induction H; intros [|i] E; cbn in *; try discriminate; eauto. inversion E; subst. eauto. Qed.

Section Sampler.
Variable V : Type.
Notation point := (list V).
Variable target : point -> R.
Variable constraints : point -> option (list R).
Variable xmax nu : R.
Variable Ls : list (list V).
Variable t : nat.
Notation S := (product Ls).
Notation post := (posterior target constraints nu).
Notation proposal := (propose_discrete t (length Ls) (fun i => nth i Ls [])).
Hypothesis DEF : forall x, In x S -> 0 < target x /\ constraints x <> None.
Hypothesis NOV : forall x y, In x S -> In y S -> ln (post y) - ln (post x) <= xmax.
Notation lpv := (fun x => ln (post x)).

Lemma post_pos x : In x S -> 0 < post x.
Proof.
  intros H. destruct (DEF x H) as (T & _). unfold posterior. apply Rmult_lt_0_compat; auto. destruct (constraints x) as [c|]; [|cbn; lra]. induction c; cbn; [lra|]. apply Rmult_lt_0_compat; auto. apply cdf_bounds.
Qed.
Lemma log_posterior_ln x : In x S -> log_posterior V target constraints nu x = Some (ln (post x)).
Proof.
  intros H. destruct (DEF x H) as (T & C). unfold log_posterior, posterior. destruct (constraints x) as [c|]; [|congruence]. destruct (Rlt_dec 0 (target x)); [|contradiction]. f_equal.
  assert (P : forall c, 0 < fold_right (fun v p => cdf (- v / nu) * p) 1 c /\ total (map (fun v => ln (cdf (-1 * v / nu))) c) = ln (fold_right (fun v p => cdf (- v / nu) * p) 1 c)).
  { clear. induction c as [|v c (IH1 & IH2)]; cbn; [rewrite ln_1; lra|]. pose proof (cdf_bounds (- v / nu)) as B. split; [apply Rmult_lt_0_compat; lra|]. rewrite ln_mult by lra. unfold total in IH2. rewrite IH2. replace (-1 * v / nu) with (- v / nu) by (unfold Rdiv; ring). reflexivity. }
  destruct (P c) as (P1 & P2). rewrite ln_mult by auto. rewrite P2. reflexivity.
Qed.
Definition acc (x y : point) : R := Rmin (Rmax (exp (ln (post y) - ln (post x))) 0) 1.
Lemma acc_range x y : 0 <= acc x y <= 1.
Proof. unfold acc. split; [apply Rmin_glb; [apply Rmax_r|lra]|apply Rmin_r]. Qed.
Lemma acc_same x : acc x x = 1.
Proof. unfold acc. rewrite Rminus_diag_eq by auto. rewrite exp_0, Rmax_left by lra. apply Rmin_right. lra. Qed.
Lemma acc_balance x y : In x S -> In y S -> post x * acc x y = Rmin (post x) (post y).
Proof.
  intros Hx Hy. apply post_pos in Hx, Hy. unfold acc. rewrite Rmax_left by (left; apply exp_pos). unfold Rminus. rewrite exp_plus, exp_Ropp, !exp_ln by auto. unfold Rmin.
  destruct (Rle_dec (post y * / post x) 1) as [L|L]; destruct (Rle_dec (post x) (post y)) as [M|M].
  - assert (post y = post x). { apply Rle_antisym; auto. apply (Rmult_le_compat_r (post x)) in L; [|lra]. rewrite Rmult_assoc, Rinv_l in L by lra. lra. } rewrite H. field. lra.
  - field. lra.
  - lra.
  - exfalso. apply L. apply (Rmult_le_reg_r (post x)); auto. rewrite Rmult_assoc, Rinv_l by lra. lra.
Qed.
Definition upd (i : nat) (x_ : point) (u : R) (x : point) : point := if Rle_dec u (acc x (put_from V i x x_)) then put_from V i x x_ else x.
(** Proposed points stay in the space. *)
Definition inside (x_ : point) : Prop := forall i a, nth_error x_ i = Some a -> exists L, nth_error Ls i = Some L /\ In a L.
Lemma put_in i a x L Ks : Forall2 (fun a L => In a L) x Ks -> nth_error Ks i = Some L -> In a L -> Forall2 (fun a L => In a L) (put V i a x) Ks.
Proof. intros H. revert i. induction H; intros [|i] E Ha; cbn in *; try discriminate; constructor; auto. congruence. Qed.
Lemma put_from_in i x x_ : inside x_ -> In x S -> In (put_from V i x x_) S.
Proof. intros I H. unfold put_from. destruct (nth_error x_ i) as [a|] eqn:E; auto. destruct (I i a E) as (L & EL & Ha). apply in_product. apply in_product in H. eapply put_in; eauto. Qed.
Lemma upd_in i x_ u x : inside x_ -> In x S -> In (upd i x_ u x) S.
Proof. intros I H. unfold upd. destruct (Rle_dec _ _); auto. now apply put_from_in. Qed.

Lemma column_rows {T} (P : list T) (x x_ : T -> point) (u : T -> R) i : (forall p, In p P -> In (x p) S) -> (forall p, In p P -> inside (x_ p)) ->
  column V target constraints xmax nu (map x_ P) (map u P) i (map x P, map (fun p => lpv (x p)) P)
  = Some (map (fun p => upd i (x_ p) (u p) (x p)) P, map (fun p => lpv (upd i (x_ p) (u p) (x p))) P).
Proof.
  intros HX HI. unfold column. rewrite zip_map, map_map. rewrite (all_some_map _ (fun p => lpv (put_from V i (x p) (x_ p)))) by (intros p Hp; apply log_posterior_ln, put_from_in; auto).
  unfold probabilities. rewrite zip_map. replace (existsb _ _) with false.
  - rewrite map_map, zip_map, !combine_map, !zip_map. cbn [fst snd]. f_equal. f_equal; apply map_ext; intros p; unfold upd; change (Rmin (Rmax (exp (ln (post (put_from V i (x p) (x_ p))) - ln (post (x p)))) 0) 1) with (acc (x p) (put_from V i (x p) (x_ p))); destruct (Rle_dec _ _); reflexivity.
  - symmetry. apply not_true_is_false. intros E. apply existsb_exists in E as (e & He & E). apply in_map_iff in He as (p & <- & Hp). destruct (Rlt_dec _ _); [|discriminate]. pose proof (NOV (x p) (put_from V i (x p) (x_ p)) (HX p Hp) (put_from_in _ _ _ (HI p Hp) (HX p Hp))). lra.
Qed.
Definition acc_of (ds : list draw) (i : nat) : R := match nth_error ds i with Some d => accept d | None => 0 end.
Lemma columns_rows {T} (P : list T) (x_ : T -> point) (w : T -> list draw) is : (forall p, In p P -> inside (x_ p)) -> forall x : T -> point, (forall p, In p P -> In (x p) S) ->
  columns V target constraints xmax nu (map x_ P) (map w P) is (map x P, map (fun p => lpv (x p)) P)
  = Some (map (fun p => fold_left (fun y i => upd i (x_ p) (acc_of (w p) i) y) is (x p)) P, map (fun p => lpv (fold_left (fun y i => upd i (x_ p) (acc_of (w p) i) y) is (x p))) P).
Proof.
  intros HI. induction is as [|i is IH]; intros x HX; [reflexivity|]. cbn [columns]. rewrite map_map. assert (C := column_rows P x x_ (fun p => acc_of (w p) i) i HX HI). match goal with |- match ?a with _ => _ end = _ => match type of C with _ = ?r => replace a with r by (symmetry; exact C) end end.
  rewrite (IH (fun p => upd i (x_ p) (acc_of (w p) i) (x p))); [reflexivity|]. intros p Hp. apply upd_in; auto.
Qed.
Notation propose := (propose V proposal).
Lemma nth_error_zip {A B C} (f : A -> B -> C) l m i c : nth_error (zip f l m) i = Some c -> exists a b, nth_error l i = Some a /\ nth_error m i = Some b /\ c = f a b.
Proof. revert m i. induction l; intros [|b m] [|i] E; cbn in *; try discriminate; eauto. inversion E; eauto. Qed.
Lemma nth_error_combine_seq {A} (ds : list A) k i p : nth_error (combine (seq k (length ds)) ds) i = Some p -> fst p = (k + i)%nat /\ nth_error ds i = Some (snd p).
Proof. revert k i. induction ds; intros k [|i] E; cbn in *; try discriminate; [inversion E; cbn; split; auto; lia|]. apply IHds in E as (E1 & E2). split; auto. lia. Qed.
Lemma propose_inside ds x : In x S -> inside (propose ds x).
Proof.
  intros H i a E. unfold Model_Metropolis.propose in E. apply nth_error_zip in E as (p & b & E1 & E2 & ->). apply nth_error_combine_seq in E1 as (F1 & _). cbn in F1. apply in_product in H. destruct (nth_error_forall2 _ _ _ _ _ H E2) as (L & EL & Hb). exists L. split; auto.
  unfold propose_discrete. destruct (Rlt_dec _ _); auto. rewrite F1. rewrite (nth_error_nth _ _ [] EL). destruct (Nat.lt_ge_cases (level (snd p)) (length L)); [apply nth_In; auto|rewrite nth_overflow; auto].
Qed.
Definition row_step (ds : list draw) (x : point) : point := fold_left (fun y i => upd i (propose ds x) (acc_of ds i) y) (seq 0 (length Ls)) x.
Lemma fold_upd_in x_ ds is x : inside x_ -> In x S -> In (fold_left (fun y i => upd i x_ (acc_of ds i) y) is x) S.
Proof. intros I. revert x. induction is; intros x H; cbn; auto. apply IHis. now apply upd_in. Qed.
Lemma row_step_in ds x : In x S -> In (row_step ds x) S.
Proof. intros H. apply fold_upd_in; auto. now apply propose_inside. Qed.
Lemma zip_combine {A B C} (f : A -> B -> C) l m : zip f l m = map (fun p => f (fst p) (snd p)) (combine l m).
Proof. revert m. induction l; intros [|b m]; cbn; congruence. Qed.
Lemma combine_fst {A B} (l : list A) (m : list B) : length l = length m -> map fst (combine l m) = l.
Proof. revert m. induction l; intros [|b m]; cbn; intros; try discriminate; f_equal; auto. Qed.
Lemma combine_snd {A B} (l : list A) (m : list B) : length l = length m -> map snd (combine l m) = m.
Proof. revert m. induction l; intros [|b m]; cbn; intros; try discriminate; f_equal; auto. Qed.
Lemma one_step W X : length W = length X -> (forall x, In x X -> In x S) ->
  columns V target constraints xmax nu (zip propose W X) W (seq 0 (length Ls)) (X, map lpv X) = Some (zip row_step W X, map lpv (zip row_step W X)).
Proof.
  intros E HX. set (P := combine W X). assert (EX : X = map snd P) by (unfold P; now rewrite combine_snd). assert (EW : W = map fst P) by (unfold P; now rewrite combine_fst).
  clearbody P. subst X W. rewrite !zip_map, !map_map. clear E.
  apply (columns_rows P (fun p => propose (fst p) (snd p)) fst (seq 0 (length Ls))).
  - intros p Hp. apply propose_inside. apply HX. now apply in_map.
  - intros p Hp. apply HX. now apply in_map.
Qed.
Lemma zip_length {A B C} (f : A -> B -> C) l m : length l = length m -> length (zip f l m) = length m.
Proof. revert m. induction l; intros [|b m]; cbn; intros; try discriminate; auto. Qed.
Lemma in_zip {A B C} (f : A -> B -> C) l m c : In c (zip f l m) -> exists a b, In a l /\ In b m /\ c = f a b.
Proof. revert m. induction l; intros [|b m]; cbn; try tauto. intros [<-|H]; [exists a, b; auto|]. destruct (IHl _ H) as (a' & b' & ? & ? & ->). exists a', b'. auto. Qed.
Lemma all_steps Ws X : List.Forall (fun W => length W = length X) Ws -> (forall x, In x X -> In x S) ->
  steps V target constraints xmax proposal nu (length Ls) Ws (X, map lpv X) = Some (fold_left (fun X W => zip row_step W X) Ws X, map lpv (fold_left (fun X W => zip row_step W X) Ws X)).
Proof.
  intros H. revert X H. induction Ws as [|W Ws IH]; intros X H HX; [reflexivity|]. inversion H; subst. cbn [steps fst fold_left]. rewrite one_step by auto. apply IH.
  - rewrite zip_length by auto. auto.
  - intros x Hx. apply in_zip in Hx as (ds & y & _ & Hy & ->). apply row_step_in. auto.
Qed.
Lemma run_rows Ws X : List.Forall (fun W => length W = length X) Ws -> (forall x, In x X -> In x S) ->
  metropolis_hastings V target constraints xmax proposal nu (length Ls) Ws X = Some (fold_left (fun X W => zip row_step W X) Ws X).
Proof.
  intros H HX. unfold metropolis_hastings. rewrite (all_some_map _ lpv) by (intros; apply log_posterior_ln; auto). rewrite all_steps by auto. reflexivity.
Qed.
Lemma fold_single w x : fold_left (fun X W => zip row_step W X) (map (fun ds => [ds]) w) [x] = [fold_left (fun y ds => row_step ds y) w x].
Proof. revert x. induction w; intros x; [reflexivity|]. cbn [map fold_left zip]. apply IHw. Qed.
Lemma fold_rows Ws X r x : List.Forall (fun W => length W = length X) Ws -> nth_error X r = Some x ->
  nth_error (fold_left (fun X W => zip row_step W X) Ws X) r = Some (fold_left (fun y ds => row_step ds y) (map (fun W => nth r W []) Ws) x).
Proof.
  intros H. revert X x H. induction Ws as [|W Ws IH]; intros X x H E; [exact E|]. inversion H as [|? ? HW HWs]; subst. cbn [map fold_left]. apply IH; [rewrite zip_length; auto|].
  clear IH H HWs. revert W X E HW. induction r; intros [|ds W] [|y X] E HL; cbn in *; try discriminate; [congruence|]. apply (IHr W X); auto.
Qed.

(** ** One component at a time *)
Definition upd1 (i : nat) (d : draw) (y : point) : point :=
  match nth_error y i with
  | Some a => let z := put V i (proposal i d a) y in if Rle_dec (accept d) (acc y z) then z else y
  | None => y
  end.
Fixpoint go (i : nat) (ds : list draw) (y : point) : point := match ds with [] => y | d :: ds' => go (Datatypes.S i) ds' (upd1 i d y) end.
Lemma put_nth_other i j a (x : point) : i <> j -> nth_error (put V i a x) j = nth_error x j.
Proof. revert i j. induction x; intros [|i] [|j] H; cbn; auto; try lia. Qed.
Lemma put_length i a (x : point) : length (put V i a x) = length x.
Proof. revert i. induction x; intros [|i]; cbn; auto. Qed.
Lemma upd1_later i d y j : (i < j)%nat -> nth_error (upd1 i d y) j = nth_error y j.
Proof. intros H. unfold upd1. destruct (nth_error y i); auto. destruct (Rle_dec _ _); auto. apply put_nth_other. lia. Qed.
Lemma nth_error_propose ds x i d a : nth_error ds i = Some d -> nth_error x i = Some a -> nth_error (propose ds x) i = Some (proposal i d a).
Proof.
  unfold Model_Metropolis.propose. intros Hd Ha. change i with (0 + i)%nat at 2. generalize 0%nat as k. revert x i Hd Ha. induction ds as [|d0 ds IH]; intros [|a0 x] [|i] Hd Ha k; cbn in *; try discriminate.
  - inversion Hd; inversion Ha. rewrite Nat.add_0_r. reflexivity.
  - rewrite (IH x i Hd Ha (Datatypes.S k)). do 2 f_equal. lia.
Qed.
Lemma fold_go ds0 x ds2 : forall ds1 y, ds0 = ds1 ++ ds2 -> length x = length ds0 -> (forall j, (length ds1 <= j)%nat -> nth_error y j = nth_error x j) ->
  fold_left (fun y i => upd i (propose ds0 x) (acc_of ds0 i) y) (seq (length ds1) (length ds2)) y = go (length ds1) ds2 y.
Proof.
  induction ds2 as [|d ds2 IH]; intros ds1 y E LX HY; [reflexivity|]. cbn [length seq fold_left go]. set (i := length ds1) in *.
  assert (Ed : nth_error ds0 i = Some d) by (rewrite E; unfold i; rewrite nth_error_app2 by auto; now rewrite Nat.sub_diag).
  destruct (nth_error x i) as [a|] eqn:Ea; [|apply nth_error_None in Ea; apply nth_error_None in Ea; exfalso; assert (i < length ds0)%nat by (rewrite E, app_length; cbn; unfold i; lia); apply nth_error_None in Ea; lia].
  assert (U : upd i (propose ds0 x) (acc_of ds0 i) y = upd1 i d y). { unfold upd, upd1, put_from, acc_of. rewrite (nth_error_propose _ _ _ _ _ Ed Ea), Ed, (HY i (le_n _)), Ea. reflexivity. }
  rewrite U. specialize (IH (ds1 ++ [d]) (upd1 i d y)). rewrite app_length in IH. cbn [length] in IH. rewrite Nat.add_1_r in IH. apply IH; auto; [rewrite <- app_assoc; exact E|].
  intros j Hj. rewrite upd1_later by (fold i in Hj; lia). apply HY. fold i in Hj. lia.
Qed.
Lemma row_step_go ds x : In x S -> length ds = length Ls -> row_step ds x = go 0 ds x.
Proof. intros H L. unfold row_step. replace (seq 0 (length Ls)) with (seq 0 (length ds)) by now rewrite L. apply (fold_go ds x ds [] x); auto. rewrite L. now apply product_length. Qed.

(** ** The posterior is preserved *)
Hypothesis NE : List.Forall (fun L => L <> []) Ls.
Lemma put_app (p : point) a b q : put V (length p) b (p ++ a :: q) = p ++ b :: q.
Proof. induction p; cbn; congruence. Qed.
Lemma put_same i a (x : point) : nth_error x i = Some a -> put V i a x = x.
Proof. revert i. induction x; intros [|i] E; cbn in *; try discriminate; [congruence|]. f_equal. auto. Qed.
Lemma expect_upd1 i L x a g : nth_error Ls i = Some L -> nth_error x i = Some a ->
  expect_draw (length L) (fun d => g (upd1 i d x)) = g x + change_probability t (length Ls) / INR (length L) * over L (fun b => acc x (put V i b x) * (g (put V i b x) - g x)).
Proof.
  intros EL Ea. assert (LN : (0 < length L)%nat). { rewrite Forall_forall in NE. specialize (NE L (nth_error_In _ _ EL)). destruct L; [congruence|cbn; lia]. }
  assert (DN : (0 < length Ls)%nat) by (destruct Ls; [destruct i; discriminate|cbn; lia]). apply lt_0_INR in LN as LP.
  set (pc := change_probability t (length Ls)). assert (PC := change_probability_range t _ DN). fold pc in PC.
  assert (SAME : put V i a x = x) by now apply put_same.
  unfold expect_draw. rewrite (expect01_ext _ (fun c => if Rlt_dec c pc then g x + / INR (length L) * over L (fun b => acc x (put V i b x) * (g (put V i b x) - g x)) else g x)).
  - rewrite expect_change by auto. unfold Rdiv. ring.
  - intros c Hc. unfold expect_position. destruct (Rlt_dec c pc) as [Lt|Lt].
    + rewrite (over_nth L _ a). rewrite (sumn_ext _ _ (fun j => g x + acc x (put V i (nth j L a) x) * (g (put V i (nth j L a) x) - g x))).
      * rewrite sumn_plus, sumn_const. field. lra.
      * intros j Hj. rewrite (expect01_ext _ (fun u => if Rle_dec u (acc x (put V i (nth j L a) x)) then g (put V i (nth j L a) x) else g x)); [rewrite expect_accept by apply acc_range; ring|].
        intros u Hu. unfold upd1. rewrite Ea. unfold propose_discrete. cbn [change level accept]. rewrite (nth_error_nth _ _ [] EL). fold pc. destruct (Rlt_dec c pc); [|contradiction]. cbv zeta. destruct (Rle_dec _ _); reflexivity.
    + rewrite (sumn_ext _ _ (fun _ => g x)); [rewrite sumn_const; field; lra|]. intros j Hj. rewrite (expect01_ext _ (fun _ => g x)); [unfold expect01; rewrite RInt_const; unfold scal; cbn; unfold mult; cbn; ring|].
      intros u Hu. unfold upd1. rewrite Ea. unfold propose_discrete. cbn [change level accept]. fold pc. destruct (Rlt_dec c pc); [contradiction|]. cbv zeta. rewrite SAME. destruct (Rle_dec _ _); reflexivity.
Qed.
Lemma column_preserves L1 L L2 g : Ls = L1 ++ L :: L2 -> over S (fun x => post x * expect_draw (length L) (fun d => g (upd1 (length L1) d x))) = over S (fun x => post x * g x).
Proof.
  intros EL. assert (NL : nth_error Ls (length L1) = Some L) by (rewrite EL, nth_error_app2 by auto; now rewrite Nat.sub_diag).
  set (k := change_probability t (length Ls) / INR (length L)). set (i := length L1) in *.
  rewrite (over_ext S _ (fun x => post x * g x + k * over L (fun b => Rmin (post x) (post (put V i b x)) * (g (put V i b x) - g x)))).
  - rewrite over_plus, over_scal. enough (Z0 : over S (fun x => over L (fun b => Rmin (post x) (post (put V i b x)) * (g (put V i b x) - g x))) = 0) by (rewrite Z0; ring). rewrite EL at 1. rewrite over_product.
    assert (Z : forall p q, length p = i -> over L (fun a => over L (fun b => Rmin (post (p ++ a :: q)) (post (put V i b (p ++ a :: q))) * (g (put V i b (p ++ a :: q)) - g (p ++ a :: q)))) = 0).
    { intros p q Hp. rewrite (over_ext L _ (fun a => over L (fun b => Rmin (post (p ++ a :: q)) (post (p ++ b :: q)) * (g (p ++ b :: q) - g (p ++ a :: q))))) by (intros a _; apply over_ext; intros b _; rewrite <- Hp, put_app; reflexivity).
      set (h := fun a b => Rmin (post (p ++ a :: q)) (post (p ++ b :: q)) * (g (p ++ b :: q) - g (p ++ a :: q))). change (over L (fun a => over L (h a)) = 0).
      assert (E1 : over L (fun a => over L (h a)) = over L (fun b => over L (fun a => h a b))) by apply over_swap.
      assert (E2 : over L (fun b => over L (fun a => h a b)) = - 1 * over L (fun a => over L (h a))).
      { rewrite <- over_scal. apply over_ext. intros b _. rewrite <- over_scal. apply over_ext. intros a _. unfold h. rewrite Rmin_comm. ring. }
      lra. }
    rewrite (over_ext (product L1) _ (fun _ => 0 * 0)); [rewrite over_scal; ring|]. intros p Hp. rewrite (over_ext (product L2) _ (fun _ => 0 * 0)); [rewrite over_scal; ring|]. intros q Hq. rewrite Z by (now apply product_length). ring.
  - intros x Hx. destruct (nth_error x i) as [a|] eqn:Ea.
    + rewrite (expect_upd1 i L x a g NL Ea). fold k. rewrite Rmult_plus_distr_l. f_equal. rewrite <- Rmult_assoc, (Rmult_comm (post x) k), Rmult_assoc. f_equal. rewrite <- over_scal. apply over_ext. intros b Hb. rewrite <- Rmult_assoc. f_equal. apply acc_balance; auto.
      apply in_product. apply in_product in Hx. eapply put_in; eauto.
    + exfalso. apply nth_error_None in Ea. rewrite (product_length _ _ Hx) in Ea. apply nth_error_None in Ea. congruence.
Qed.
Lemma row_preserves f L2 : forall L1, Ls = L1 ++ L2 -> over S (fun x => post x * expect_row (map (@length V) L2) (fun ds => f (go (length L1) ds x))) = over S (fun x => post x * f x).
Proof.
  induction L2 as [|L L2 IH]; intros L1 E; [reflexivity|]. cbn [map expect_row].
  rewrite (over_ext S _ (fun x => post x * expect_draw (length L) (fun d => (fun y => expect_row (map (@length V) L2) (fun ds => f (go (Datatypes.S (length L1)) ds y))) (upd1 (length L1) d x)))) by reflexivity.
  rewrite (column_preserves L1 L L2 (fun y => expect_row (map (@length V) L2) (fun ds => f (go (Datatypes.S (length L1)) ds y))) E).
  specialize (IH (L1 ++ [L])). rewrite app_length in IH. cbn [length] in IH. rewrite Nat.add_1_r in IH. apply IH. rewrite <- app_assoc. exact E.
Qed.
Lemma expect_row_ext ms g h : (forall ds, length ds = length ms -> g ds = h ds) -> expect_row ms g = expect_row ms h.
Proof.
  revert g h. induction ms as [|m ms IH]; intros g h H; cbn; [apply H; reflexivity|]. unfold expect_draw. apply expect01_ext. intros a _. unfold expect_position. f_equal. apply sumn_ext. intros j _. apply expect01_ext. intros u _. apply IH. intros ds Hd. apply H. cbn. auto.
Qed.
Lemma steps_preserve n f : over S (fun x => post x * expect_steps n (map (@length V) Ls) (fun w => f (fold_left (fun y ds => row_step ds y) w x))) = over S (fun x => post x * f x).
Proof.
  revert f. induction n as [|n IH]; intros f; [reflexivity|]. cbn [expect_steps fold_left].
  rewrite (over_ext S _ (fun x => post x * expect_row (map (@length V) Ls) (fun ds => (fun y => expect_steps n (map (@length V) Ls) (fun w => f (fold_left (fun y ds => row_step ds y) w y))) (go 0 ds x)))).
  - etransitivity; [exact (row_preserves (fun y => expect_steps n (map (@length V) Ls) (fun w => f (fold_left (fun y ds => row_step ds y) w y))) Ls [] eq_refl)|]. apply IH.
  - intros x Hx. f_equal. apply expect_row_ext. intros ds Hd. rewrite map_length in Hd. rewrite (row_step_go ds x Hx Hd). reflexivity.
Qed.
End Sampler.
