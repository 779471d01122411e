(** Lemmas about Model_MoAcq.v. *)
From Coq Require Import Reals List Bool Arith ZArith QArith Qreals Qminmax Lia Lqa.
From Verif Require Import Lib_List Model_Pareto Spec_Pareto Proofs_Pareto Model_Boxes Spec_Boxes Proofs_Boxes Proofs_BoxFront Proofs_Box2D Proofs_BoxRuns
  Model_MOBO Proofs_MOBO Model_MoAcq Spec_Expect Proofs_Expect Model_EHVI Properties_EHVI Proofs_ExpectPos Proofs_Region Proofs_IndexProper.
Import ListNotations.
Open Scope nat_scope.


Lemma two_real : Q2R 2 = 2%R.
Proof. unfold Q2R. cbn. now rewrite Rinv_1, Rmult_1_r. Qed.

Section Acq.
  Variables (cast : Q -> Q) (argsort : list Q -> list nat) (argmax : list nat -> nat).
  Hypothesis HC : forall q, (-(1) <= q <= 1)%Q -> (cast q <= 2)%Q.
  Hypothesis HS : sorts argsort.
  Hypothesis HM : finds_max argmax.
  Variables (mn : list bool) (F : list vec).
  Hypothesis NF : F <> [].

  Lemma outcomes_rect : rectangular (length (mobo_reference cast mn F)) (mobo_outcomes cast mn F).
  Proof.
    intros y Hy. apply in_map_iff in Hy as (v & <- & Hv). apply in_map_iff in Hv as (r & <- & _). unfold mobo_reference, ref_point. now rewrite !map_length.
  Qed.
  Lemma reference_length : length (mobo_reference cast mn F) = length mn.
  Proof. unfold mobo_reference, ref_point. now rewrite !map_length, seq_length. Qed.
  Lemma scaled_le_1 y v : In y (y_of mn F) -> In v y -> (-(1) <= v <= 1)%Q.
  Proof.
    intros Hy Hv. apply in_map_iff in Hy as (r & <- & Hr). apply in_map_iff in Hv as (j & <- & Hj). assert (R := minmax_range (column j F) (nth j r 0%Q) ltac:(apply in_map_iff; exists r; auto)).
    unfold orient. destruct (nth j mn true); lra.
  Qed.
  Lemma outcome_le y v : In y (mobo_outcomes cast mn F) -> In v y -> (v <= 2)%Q.
  Proof. intros Hy Hv. apply in_map_iff in Hy as (u & <- & Hu). apply in_map_iff in Hv as (w & <- & Hw). apply HC. now apply (scaled_le_1 u). Qed.
  Lemma reference_le v : In v (mobo_reference cast mn F) -> (v <= 2)%Q.
  Proof.
    intros Hv. apply in_map_iff in Hv as (w & <- & Hw). apply HC. apply in_map_iff in Hw as (j & <- & Hj). apply in_seq in Hj.
    assert (N : column j (y_of mn F) <> []) by (intros E; apply map_eq_nil, map_eq_nil in E; contradiction). destruct (col_min_in _ N) as (x & Hx & E). unfold column in Hx. apply in_map_iff in Hx as (y & <- & Hy).
    assert (L : (-(1) <= nth j y 0 <= 1)%Q). { destruct (Nat.lt_ge_cases j (length y)) as [H|H]; [apply (scaled_le_1 y); [exact Hy|now apply nth_In]|rewrite nth_overflow by exact H; lra]. } lra.
  Qed.
  Lemma mobo_defined big : (2 <= big)%R -> exists cs, mobo_cells cast argsort argmax mn F = Some cs /\ partitions cs (mobo_reference cast mn F) (mobo_outcomes cast mn F) /\
    nothing_below cs (mobo_reference cast mn F) /\ proper_cells big (length mn) cs.
  Proof.
    intros B. destruct (updates_good argsort argmax HS 0%Q (mobo_reference cast mn F) [mobo_outcomes cast mn F]) as (d & E & G & EY); [intros Y [<-|[]]; apply outcomes_rect|discriminate|].
    cbn [concat] in EY. rewrite app_nil_r in EY.
    destruct (good_proper argsort argmax 0%Q (mobo_reference cast mn F) d big HS HM (Qle_refl 0) G) as (bs & Eb & PA & NB & PR).
    - intros q Hq. apply Rle_trans with 2%R; [|exact B]. rewrite <- two_real. now apply Qle_Rle, reference_le.
    - rewrite EY. intros y Hy q Hq. apply Rle_trans with 2%R; [|exact B]. rewrite <- two_real. apply Qle_Rle. now apply (outcome_le y).
    - rewrite EY in PA. rewrite reference_length in PR. exists bs. split; [unfold mobo_cells; now rewrite E|]. auto.
  Qed.
End Acq.

(** Changing the units of an objective. *)
Definition affine (a b : nat -> Q) (n : nat) (F : list vec) : list vec := map (fun r => map (fun j => (a j * nth j r 0 + b j)%Q) (seq 0 n)) F.
Lemma affine_nth a b n r j : j < n -> nth j (map (fun j => (a j * nth j r 0 + b j)%Q) (seq 0 n)) 0%Q = (a j * nth j r 0 + b j)%Q.
Proof. intros H. apply nth_error_nth. rewrite nth_error_map, nth_error_seq. now destruct (Nat.ltb_spec j n); [|lia]. Qed.
Lemma affine_column a b n F j : j < n -> column j (affine a b n F) = map (fun v => (a j * v + b j)%Q) (column j F).
Proof. intros H. unfold column, affine. rewrite !map_map. apply map_ext. intros r. now apply affine_nth. Qed.
Lemma affine_min a b c : (0 < a)%Q -> c <> [] -> (col_min (map (fun v => a * v + b) c) == a * col_min c + b)%Q.
Proof.
  intros A N. assert (N' : map (fun v => (a * v + b)%Q) c <> []) by (intros E; now apply map_eq_nil in E). apply Qle_antisym.
  - destruct (col_min_in c N) as (v & Hv & ->). apply col_min_le. apply in_map_iff. now exists v.
  - destruct (col_min_in _ N') as (v & Hv & ->). apply in_map_iff in Hv as (w & <- & Hw). assert (L := col_min_le c w Hw). nra.
Qed.
Lemma affine_max a b c : (0 < a)%Q -> c <> [] -> (col_max (map (fun v => a * v + b) c) == a * col_max c + b)%Q.
Proof.
  intros A N. assert (N' : map (fun v => (a * v + b)%Q) c <> []) by (intros E; now apply map_eq_nil in E). apply Qle_antisym.
  - destruct (col_max_in _ N') as (v & Hv & ->). apply in_map_iff in Hv as (w & <- & Hw). assert (L := col_max_ge c w Hw). nra.
  - destruct (col_max_in c N) as (v & Hv & ->). apply col_max_ge. apply in_map_iff. now exists v.
Qed.
Lemma affine_minmax a b c v : (0 < a)%Q -> In v c -> (minmax (map (fun v => a * v + b) c) (a * v + b) == minmax c v)%Q.
Proof.
  intros A Hv. assert (N : c <> []) by (intros ->; destruct Hv). assert (W := width_pos c N). rewrite !minmax_eq. assert (Emin := affine_min a b c A N). assert (Emax := affine_max a b c A N).
  unfold width in *. cbv zeta in *.
  destruct (Qeq_bool (col_max c - col_min c) 0) eqn:E1.
  - apply Qeq_bool_iff in E1. assert (E2 : Qeq_bool (col_max (map (fun v => a * v + b)%Q c) - col_min (map (fun v => a * v + b)%Q c)) 0 = true) by (apply Qeq_bool_iff; rewrite Emax, Emin; nra). rewrite E2, Emin.
    assert (V : (v == col_min c)%Q) by (assert (L1 := col_min_le c v Hv); assert (L2 := col_max_ge c v Hv); lra). rewrite V. field.
  - apply Qeq_bool_neq in E1. assert (E2 : Qeq_bool (col_max (map (fun v => a * v + b)%Q c) - col_min (map (fun v => a * v + b)%Q c)) 0 = false).
    { destruct (Qeq_bool _ _) eqn:E; [|reflexivity]. apply Qeq_bool_iff in E. exfalso. apply E1. rewrite Emax, Emin in E. nra. }
    rewrite E2, Emin, Emax. field. split; [lra|]. nra.
Qed.
Lemma affine_outcomes a b mn F : (forall j, j < length mn -> (0 < a j)%Q) ->
  Forall2 (Forall2 Qeq) (y_of mn (affine a b (length mn) F)) (y_of mn F).
Proof.
  intros A. unfold y_of. unfold affine at 2. rewrite map_map.
  assert (G : forall l, incl l F -> Forall2 (Forall2 Qeq)
    (map (fun x => map (fun j => orient (nth j mn true) (minmax (column j (affine a b (length mn) F)) (nth j (map (fun j0 => (a j0 * nth j0 x 0 + b j0)%Q) (seq 0 (length mn))) 0%Q))) (seq 0 (length mn))) l)
    (map (fun r => map (fun j => orient (nth j mn true) (minmax (column j F) (nth j r 0%Q))) (seq 0 (length mn))) l)); [|apply G; apply incl_refl].
  induction l as [|r l IH]; intros I; [constructor|]. cbn [map]. constructor; [|apply IH; intros x Hx; apply I; now right].
  assert (K : forall s, (forall j, In j s -> j < length mn) -> Forall2 Qeq
    (map (fun j => orient (nth j mn true) (minmax (column j (affine a b (length mn) F)) (nth j (map (fun j0 => (a j0 * nth j0 r 0 + b j0)%Q) (seq 0 (length mn))) 0%Q))) s)
    (map (fun j => orient (nth j mn true) (minmax (column j F) (nth j r 0%Q))) s)); [|apply K; intros j Hj; apply in_seq in Hj; lia].
  induction s as [|j s IHs]; intros H; [constructor|]. cbn [map]. constructor; [|apply IHs; intros k Hk; apply H; now right]. assert (Hj := H j (or_introl eq_refl)).
  rewrite affine_column, affine_nth by exact Hj. assert (E := affine_minmax (a j) (b j) (column j F) (nth j r 0%Q) (A j Hj) ltac:(apply in_map_iff; exists r; split; [reflexivity|apply I; now left])).
  unfold orient. destruct (nth j mn true); rewrite E; reflexivity.
Qed.

(** The same values in another form. *)
Lemma min_comp : forall c c', Forall2 Qeq c c' -> (col_min c == col_min c')%Q.
Proof.
  intros c c' H. destruct H as [|x y l l' E H]; [reflexivity|]. cbn. revert x y E. induction H as [|u v l l' E' H IH]; intros x y E; [exact E|]. cbn. apply IH. now rewrite E, E'.
Qed.
Lemma column_comp j : forall Y Y', Forall2 (Forall2 Qeq) Y Y' -> Forall2 Qeq (column j Y) (column j Y').
Proof.
  intros Y Y' H. induction H as [|y y' Y Y' E H IH]; [constructor|]. cbn. constructor; [|exact IH]. clear - E. revert j. induction E as [|u v l l' E1 E2 IH]; intros [|j]; cbn; try reflexivity; auto.
Qed.
Lemma reference_comp mn F F' : Forall2 (Forall2 Qeq) (y_of mn F) (y_of mn F') -> Forall2 Qeq (ref_point mn F) (ref_point mn F').
Proof.
  intros H. unfold ref_point. induction (seq 0 (length mn)) as [|j s IH]; [constructor|]. cbn [map]. constructor; [|exact IH]. assert (E := min_comp _ _ (column_comp j _ _ H)). now rewrite E.
Qed.
Lemma cast_comp cast : (forall a b, (a == b)%Q -> (cast a == cast b)%Q) -> forall v v', Forall2 Qeq v v' -> Forall2 Qeq (map cast v) (map cast v').
Proof. intros C v v' H. induction H; cbn [map]; constructor; auto. Qed.
Lemma casts_comp cast : (forall a b, (a == b)%Q -> (cast a == cast b)%Q) -> forall Y Y', Forall2 (Forall2 Qeq) Y Y' -> Forall2 (Forall2 Qeq) (map (map cast) Y) (map (map cast) Y').
Proof. intros C Y Y' H. induction H; cbn [map]; constructor; auto. now apply cast_comp. Qed.
Lemma above_comp : forall r r' z, Forall2 Qeq r r' -> strictly_above r z -> strictly_above r' z.
Proof. unfold strictly_above. intros r r' z H. revert z. induction H as [|x y l l' E H IH]; intros z K; inversion K; subst; constructor; auto. now rewrite <- E. Qed.
Lemma covers_comp : forall y y' z, Forall2 Qeq y y' -> covers y z -> covers y' z.
Proof. unfold covers. intros y y' z H. revert z. induction H as [|a b l l' E H IH]; intros z K; inversion K; subst; constructor; auto. now rewrite <- E. Qed.
Lemma dominated_comp : forall Y Y' z, Forall2 (Forall2 Qeq) Y Y' -> dominated_by Y z -> dominated_by Y' z.
Proof.
  intros Y Y' z H. induction H as [|y y' Y Y' E H IH]; intros (w & Hw & C); [destruct Hw|]. destruct Hw as [<-|Hw]; [exists y'; split; [now left|now apply (covers_comp y)]|].
  destruct IH as (v & Hv & K); [exists w; auto|]. exists v. split; [now right|exact K].
Qed.
Lemma comp_sym : forall v v', Forall2 Qeq v v' -> Forall2 Qeq v' v.
Proof. intros v v' H. induction H; constructor; auto. now symmetry. Qed.
Lemma comps_sym : forall Y Y', Forall2 (Forall2 Qeq) Y Y' -> Forall2 (Forall2 Qeq) Y' Y.
Proof. intros v v' H. induction H; constructor; auto. now apply comp_sym. Qed.
Lemma partitions_comp cs r r' Y Y' : Forall2 Qeq r r' -> Forall2 (Forall2 Qeq) Y Y' -> partitions cs r Y -> partitions cs r' Y'.
Proof.
  intros E EY PA z SA. destruct (PA z) as [A B]; [apply (above_comp r'); [now apply comp_sym|exact SA]|]. split; intros H.
  - apply A, (dominated_comp Y'); [now apply comps_sym|exact H].
  - apply B. intros K. apply H. now apply (dominated_comp Y).
Qed.
Lemma nothing_comp cs r r' : Forall2 Qeq r r' -> nothing_below cs r -> nothing_below cs r'.
Proof.
  intros E NB z L N. apply NB; [rewrite L; clear -E; induction E; cbn; auto|]. intros K. apply N. now apply (above_comp r).
Qed.
