(** Properties C38 (rounding), C39 (integer grid), C40 (levels). *)
From Coq Require Import List Bool Arith ZArith QArith Qabs Qround Qpower String Lia Lqa Sorted.
From Verif Require Import Lib_List Model_Var Model_Grid Proofs_Ask Proofs_Var.
Import ListNotations.
Open Scope nat_scope.

(** * C38 *)
(** Within the bounds, monotone, at most half a unit of the last digit away; without a precision
    nothing changes. *)
Theorem C38_rounding :
  forall (lb ub : Q) (p : Z), (lb <= ub)%Q ->
    (forall x, (lb <= real_round lb ub (Some p) x <= ub)%Q) /\
    (forall x y, (x <= y)%Q -> (real_round lb ub (Some p) x <= real_round lb ub (Some p) y)%Q) /\
    (forall x, (lb <= x <= ub)%Q -> (Qabs (real_round lb ub (Some p) x - x) <= (1#2) * Qpower (10#1) (- p))%Q) /\
    (forall x, real_round lb ub None x = x).
Proof.
  intros lb ub p H. split; [|split; [|split]].
  - intro x. apply qclip_bounds. exact H.
  - intros x y L. apply real_round_mono; assumption.
  - intros x Hx. cbn [real_round]. eapply Qle_trans; [apply qclip_nearer; exact Hx|].
    eapply Qle_trans; [apply np_round_near|]. rewrite Qpower_opp. apply Qle_refl.
  - reflexivity.
Qed.
Print Assumptions C38_rounding.

(** Refuted: idempotence for values outside the bounds.  With bounds (0.26, 0.34) and one digit,
    0.2 is rounded to 0.26, and that to 0.3. *)
Theorem C38_idempotent_refuted :
  exists lb ub p x, (lb < ub)%Q /\
    ~ (real_round lb ub (Some p) (real_round lb ub (Some p) x) == real_round lb ub (Some p) x)%Q.
Proof. exists (26#100)%Q, (34#100)%Q, 1%Z, (2#10)%Q. split; [reflexivity|]. vm_compute. discriminate. Qed.
Print Assumptions C38_idempotent_refuted.

(** It is idempotent on values inside the bounds, and everywhere if the bounds themselves have
    the precision. *)
Theorem C38_idempotent_partial :
  forall (lb ub : Q) (p : Z) (x : Q), (lb <= ub)%Q ->
    (lb <= x <= ub)%Q \/ (exists a b : Z, (lb == inject_Z a * Qpower (10#1) (- p))%Q /\ (ub == inject_Z b * Qpower (10#1) (- p))%Q) ->
    (real_round lb ub (Some p) (real_round lb ub (Some p) x) == real_round lb ub (Some p) x)%Q.
Proof.
  intros lb ub p x H HX. apply real_round_idem_at; [exact H|].
  destruct HX as [HX|(a&b&Ha&Hb)]; [left; exact HX|right].
  assert (G : forall q c, (q == inject_Z c * Qpower (10#1) (- p))%Q -> (np_round q p == q)%Q).
  { intros q c Hq. unfold np_round. pose proof (pow10_pos p).
    assert (E : (q * Qpower (10#1) p == inject_Z c)%Q) by (rewrite Hq, Qpower_opp; field; lra).
    rewrite (rint_comp _ _ E), rint_int, Hq, Qpower_opp. reflexivity. }
  split; eapply G; eassumption.
Qed.
Print Assumptions C38_idempotent_partial.

Example C38_example :
  real_round (-1) 2 (Some 1%Z) (125#100)%Q = (12#10)%Q /\ (real_round (-1) 2 (Some 1%Z) (299#100) == 2)%Q /\
  (real_round (-10) 200 (Some (-1)%Z) (126) == 130)%Q.
Proof. vm_compute. auto. Qed.

(** * C39 *)
(** For any rational bounds and step: the samples are exactly the points lb + k * step, k >= 0,
    that do not exceed ub. *)
Theorem C39_samples_are_the_grid :
  forall lb ub step : Q, (lb < ub)%Q -> (0 < step)%Q ->
    (0 < grid_size lb ub step)%Z /\
    (forall i, (0 <= i < grid_size lb ub step)%Z ->
       (lb <= grid_value lb step i <= ub)%Q /\ exists k, (grid_value lb step i == lb + inject_Z k * step)%Q) /\
    (forall x k, (x == lb + inject_Z k * step)%Q -> (lb <= x <= ub)%Q ->
       exists i, (0 <= i < grid_size lb ub step)%Z /\ (grid_value lb step i == x)%Q).
Proof.
  intros lb ub step L S. split; [|split].
  - assert (0 <= 0 < grid_size lb ub step)%Z; [|lia]. apply grid_value_onto; [exact S|lia|]. unfold grid_value.
    change (inject_Z 0) with 0%Q. lra.
  - intros i Hi. split; [apply grid_value_in; assumption|]. exists i. reflexivity.
  - intros x k E [X1 X2]. exists k.
    assert (K : (0 <= k)%Z).
    { destruct (Z_lt_le_dec k 0) as [N|?]; [|assumption]. exfalso.
      assert ((inject_Z k * step) < 0)%Q; [|lra].
      assert (inject_Z k < 0)%Q by (change 0%Q with (inject_Z 0); rewrite <- Zlt_Qlt; exact N).
      assert (0 < (- inject_Z k) * step)%Q by (apply Qmult_lt_0_compat; lra). lra. }
    split; [|unfold grid_value; symmetry; exact E].
    apply grid_value_onto; [exact S|exact K|]. unfold grid_value. rewrite <- E. exact X2.
Qed.
Print Assumptions C39_samples_are_the_grid.
(** The test [x in variable] is that of the bounds, and each sample passes it. *)
Theorem C39_samples_contained :
  forall lb ub step : Q, (forall x, grid_contains lb ub x = true <-> (lb <= x <= ub)%Q) /\
    ((lb < ub)%Q -> (0 < step)%Q -> forall i, (0 <= i < grid_size lb ub step)%Z -> grid_contains lb ub (grid_value lb step i) = true).
Proof.
  intros lb ub step. assert (A : forall x, grid_contains lb ub x = true <-> (lb <= x <= ub)%Q). { intros x. unfold grid_contains. rewrite andb_true_iff, !Qle_bool_iff. reflexivity. }
  split; [exact A|]. intros L P i Hi. apply A. now apply grid_value_in.
Qed.
Print Assumptions C39_samples_contained.

(** The same for the levels of an Integer variable with integer parameters. *)
Theorem C39_integer_levels :
  forall lb ub step z, (0 < step)%Z ->
    In (VI z) (levels (KInt lb ub step)) <-> exists k, (0 <= k)%Z /\ z = (lb + k * step)%Z /\ (z <= ub)%Z.
Proof. exact int_levels. Qed.
Print Assumptions C39_integer_levels.

(** Refuted: membership ignores the step (and accepts fractions). *)
Theorem C39_membership_refuted :
  exists lb ub step v, (lb < ub)%Z /\ (0 < step)%Z /\
    contains (KInt lb ub step) v = Some true /\ forall w, In w (levels (KInt lb ub step)) -> val_eqb v w = false.
Proof.
  exists 0%Z, 10%Z, 5%Z, (VI 3). repeat split; try lia. intros w Hw. vm_compute in Hw.
  repeat (destruct Hw as [<-|Hw]; [reflexivity|]). contradiction.
Qed.
Print Assumptions C39_membership_refuted.

(** Refuted: in a space of integer variables only, samples are truncated to ints, so with
    fractional bounds they can leave the bounds (Integer((0.5, 3.5)) samples 0) and with a
    fractional step they can miss values of the grid altogether. *)
Theorem C39_integer_space_refuted :
  (exists lb ub step i, (lb < ub)%Q /\ (0 < step)%Q /\ (0 <= i < grid_size lb ub step)%Z /\
     (inject_Z (integer_space_sample lb step i) < lb)%Q) /\
  (exists lb ub step k, (lb < ub)%Q /\ (0 < step)%Q /\ (0 <= k < grid_size lb ub step)%Z /\
     forall i, (0 <= i < grid_size lb ub step)%Z ->
       ~ (inject_Z (integer_space_sample lb step i) == grid_value lb step k)%Q).
Proof.
  split.
  - exists (1#2)%Q, (7#2)%Q, 1%Q, 0%Z. split; [reflexivity|]. split; [reflexivity|].
    split; [vm_compute; split; [discriminate|reflexivity]|reflexivity].
  - exists 0%Q, 1%Q, (1#2)%Q, 1%Z. split; [reflexivity|]. split; [reflexivity|]. split; [vm_compute; split; [discriminate|reflexivity]|].
    intros i Hi E. change (grid_value 0 (1 # 2) 1) with (1#2)%Q in E.
    unfold Qeq in E. simpl in E. lia.
Qed.
Print Assumptions C39_integer_space_refuted.

(** With integer parameters the truncation changes nothing, and every grid point is a member. *)
Theorem C39_integer_space_partial :
  forall lb ub step i, (0 < step)%Z ->
    integer_space_sample (inject_Z lb) (inject_Z step) i = (lb + i * step)%Z /\
    forall w, In w (levels (KInt lb ub step)) -> contains (KInt lb ub step) w = Some true.
Proof.
  intros lb ub step i H. split.
  - unfold integer_space_sample, to_int, grid_value.
    assert (E : (inject_Z lb + inject_Z i * inject_Z step == inject_Z (lb + i * step))%Q)
      by (rewrite inject_Z_plus, inject_Z_mult; reflexivity).
    destruct (Qle_bool 0 _); [rewrite (Qfloor_comp _ _ E); apply Qfloor_Z|rewrite (Qceiling_comp _ _ E); apply Qceiling_Z].
  - intros w Hw. cbn [levels] in Hw. pose proof Hw as Hw'. apply in_map_iff in Hw. destruct Hw as (j&<-&_).
    change (In (VI (int_value lb step (Z.of_nat j))) (levels (KInt lb ub step))) in Hw'.
    apply int_levels in Hw'; [|exact H]. destruct Hw' as (k&K1&K2&K3). cbn [contains as_num]. f_equal.
    apply andb_true_iff. rewrite !Qle_bool_iff, <- !Zle_Qle. rewrite K2 in *. split; nia.
Qed.
Print Assumptions C39_integer_space_partial.

Example C39_example :
  levels (KInt 1 10 4) = [VI 1; VI 5; VI 9] /\ grid_size (1#2) 3 (3#4) = 4%Z.
Proof. vm_compute. auto. Qed.

(** * C40 *)
(** The levels kept are the entries of the given list at the positions without an equal entry
    before them, in order; they are pairwise different, each given level is among them (up to
    Python's ==), and a sample is one of them. *)
Theorem C40_discrete_levels :
  forall l k, k = KDiscrete l \/ k = KOrdinal l ->
    (exists idx, StronglySorted lt idx /\ map Some (levels k) = map (nth_error l) idx /\
       forall i, In i idx <-> exists v, nth_error l i = Some v /\
         forall j w, j < i -> nth_error l j = Some w -> val_eqb w v = false) /\
    ForallOrdPairs (fun a b => val_eqb a b = false) (levels k) /\
    (forall v, In v l -> exists w, In w (levels k) /\ val_eqb v w = true) /\
    (forall v, (exists i, sample_discrete k i = Some v) <-> In v (levels k)).
Proof.
  intros l k HK. assert (E : levels k = dedup l) by (destruct HK; subst; reflexivity). rewrite E.
  split; [exact (dedup_positions l)|]. destruct (dedup_aux_distinct l []) as (_&B&C). split; [exact B|]. split.
  - intros v Hv. destruct (C v Hv) as [(s&[]&_)|H]. exact H.
  - intro v. unfold sample_discrete. rewrite E. split.
    + intros [i Hi]. eapply nth_error_In. exact Hi.
    + intro H. apply In_nth_error. exact H.
Qed.
Print Assumptions C40_discrete_levels.

(** Subset variables over pairwise different elements: the levels correspond one to one to the
    non-empty selections of elements. *)
Theorem C40_subset_levels_partial :
  forall e, ForallOrdPairs (fun a b => val_eqb a b = false) e ->
    (forall P : val -> bool, (exists x, In x e /\ P x = true) -> In (VT (filter P e)) (levels (KSubset e))) /\
    (forall v, In v (levels (KSubset e)) ->
       exists P, v = VT (filter P e) /\ (exists x, In x e /\ P x = true)) /\
    ForallOrdPairs (fun a b => val_eqb a b = false) (levels (KSubset e)).
Proof.
  intros e H. cbn [levels]. split; [|split].
  - intros P (x&Hx&HP). apply subset_levels_in; [exact H|]. split; [apply filter_subseq|].
    intro E. assert (In x (filter P e)) by (apply filter_In; auto). rewrite E in H0. exact H0.
  - intros v Hv. assert (V : exists c, v = VT c).
    { rewrite subset_levels_eq in Hv by exact H. apply in_map_iff in Hv. destruct Hv as (c&<-&_). eauto. }
    destruct V as [c ->]. apply subset_levels_in in Hv; [|exact H]. destruct Hv as [S N].
    exists (fun v => existsb (val_eqb v) c). split; [f_equal; apply subseq_filter; assumption|].
    destruct c as [|x c]; [congruence|]. exists x. split; [eapply subseq_In; [exact S|left; reflexivity]|].
    simpl. rewrite val_eqb_refl. reflexivity.
  - destruct (dedup_aux_distinct (map VT (flat_map (combinations e) (seq 1 (List.length e)))) []) as (_&B&_). exact B.
Qed.
Print Assumptions C40_subset_levels_partial.

(** Refuted for repeated elements: they are not merged first, so Subset(["a", "a"]) offers both
    ("a",) and ("a", "a"). *)
Theorem C40_subset_duplicates_refuted :
  exists e x, In (VT [x]) (levels (KSubset e)) /\ In (VT [x; x]) (levels (KSubset e)).
Proof. exists [VS "a"; VS "a"], (VS "a"). vm_compute. auto. Qed.
Print Assumptions C40_subset_duplicates_refuted.

Example C40_example :
  levels (KDiscrete [VS "b"; VI 1; VS "a"; VB true; VS "b"]) = [VS "b"; VI 1; VS "a"] /\
  levels (KSubset [VI 1; VI 2; VI 3]) = map VT [[VI 1]; [VI 2]; [VI 3]; [VI 1; VI 2]; [VI 1; VI 3]; [VI 2; VI 3]; [VI 1; VI 2; VI 3]] /\
  ForallOrdPairs (fun a b => val_eqb a b = false) [VI 1; VI 2; VI 3].
Proof. split; [vm_compute; reflexivity|]. split; [vm_compute; reflexivity|]. repeat constructor. Qed.
