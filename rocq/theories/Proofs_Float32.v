(** Rounding to single precision: the relative error. *)
From Coq Require Import Qround List Bool Arith ZArith QArith Qabs Lia Lqa.
From Verif Require Import Model_Pareto Model_MOBO Spec_MOBO Proofs_MOBO.
Import ListNotations.
Open Scope Q_scope.

Lemma inject_pow_pos a : (0 <= a)%Z -> 0 < inject_Z (2 ^ a).
Proof. intros H. change 0 with (inject_Z 0). rewrite <- Zlt_Qlt. apply Z.pow_pos_nonneg; lia. Qed.
Lemma pow2_pos e : 0 < pow2 e.
Proof. unfold pow2. destruct (Z.leb_spec 0 e); [now apply inject_pow_pos|]. apply Qinv_lt_0_compat, inject_pow_pos. lia. Qed.
Lemma pow2_sub a b : (0 <= a)%Z -> (0 <= b)%Z -> pow2 (a - b) == inject_Z (2 ^ a) / inject_Z (2 ^ b).
Proof.
  intros A B. pose proof (inject_pow_pos a A). pose proof (inject_pow_pos b B). unfold pow2. destruct (Z.leb_spec 0 (a - b)) as [H1|H1].
  - replace (2 ^ a)%Z with (2 ^ (a - b) * 2 ^ b)%Z by (rewrite <- Z.pow_add_r by lia; f_equal; lia). rewrite inject_Z_mult. field. lra.
  - assert (P : 0 < inject_Z (2 ^ (- (a - b)))) by (apply inject_pow_pos; lia).
    replace (2 ^ b)%Z with (2 ^ (- (a - b)) * 2 ^ a)%Z by (rewrite <- Z.pow_add_r by lia; f_equal; lia). rewrite inject_Z_mult. field. split; lra.
Qed.
Lemma pow2_any e : exists a b, (0 <= a)%Z /\ (0 <= b)%Z /\ (e = a - b)%Z.
Proof. exists (Z.max e 0), (Z.max (- e) 0). lia. Qed.
Lemma pow2_plus e k : (0 <= k)%Z -> pow2 (e + k) == pow2 e * inject_Z (2 ^ k).
Proof.
  intros K. destruct (pow2_any e) as (a & b & A & B & ->). replace (a - b + k)%Z with (a + k - b)%Z by lia. rewrite !pow2_sub by lia.
  rewrite Z.pow_add_r by lia. rewrite inject_Z_mult. pose proof (inject_pow_pos b B). field. lra.
Qed.
(** The exponent: 2^e <= q < 2^(e+1). *)
Lemma exponent_spec q : 0 < q -> pow2 (exponent q) <= q < pow2 (exponent q + 1).
Proof.
  intros H. destruct q as [n d]. assert (N : (0 < n)%Z) by (unfold Qlt in H; cbn in H; lia).
  unfold exponent. cbn [Qnum Qden]. set (a := Z.log2 n). set (b := Z.log2 (Zpos d)).
  assert (A : (2 ^ a <= n < 2 ^ Z.succ a)%Z) by now apply Z.log2_spec. assert (B : (2 ^ b <= Zpos d < 2 ^ Z.succ b)%Z) by (apply Z.log2_spec; lia).
  assert (A0 : (0 <= a)%Z) by apply Z.log2_nonneg. assert (B0 : (0 <= b)%Z) by apply Z.log2_nonneg.
  assert (UP : n # d < pow2 (a - b + 1)).
  { replace (a - b + 1)%Z with (Z.succ a - b)%Z by lia. rewrite pow2_sub by lia. apply Qlt_shift_div_l; [now apply inject_pow_pos|].
    unfold Qlt, Qmult, inject_Z. cbn [Qnum Qden]. rewrite !Pos.mul_1_r. nia. }
  assert (LO : pow2 (a - b - 1) <= n # d).
  { replace (a - b - 1)%Z with (a - Z.succ b)%Z by lia. rewrite pow2_sub by lia. apply Qle_shift_div_r; [apply inject_pow_pos; lia|].
    unfold Qle, Qmult, inject_Z. cbn [Qnum Qden]. rewrite !Pos.mul_1_r. nia. }
  destruct (Qle_bool (pow2 (a - b)) (n # d)) eqn:E.
  - apply Qle_bool_iff in E. split; auto.
  - split; auto. replace (a - b - 1 + 1)%Z with (a - b)%Z by lia. apply Qnot_le_lt. intros C. apply Qle_bool_iff in C. congruence.
Qed.
Lemma round_error z : inject_Z (round_half_even z) - (1 # 2) <= z <= inject_Z (round_half_even z) + (1 # 2).
Proof.
  destruct z as [n d]. unfold round_half_even. cbn [Qnum Qden]. set (k := (n / Zpos d)%Z).
  assert (K : (0 <= n - k * Zpos d < Zpos d)%Z) by (unfold k; pose proof (Z.mod_pos_bound n (Zpos d) ltac:(lia)); pose proof (Z.div_mod n (Zpos d) ltac:(lia)); lia).
  assert (G : forall c, (- Zpos d <= 2 * (n - c * Zpos d) <= Zpos d)%Z -> inject_Z c - (1 # 2) <= n # d <= inject_Z c + (1 # 2)).
  { intros c C. unfold Qle, Qminus, Qplus, Qopp, inject_Z. cbn [Qnum Qden]. rewrite ?Pos2Z.inj_mul. lia. }
  destruct (Z.ltb_spec (2 * (n - k * Zpos d)) (Zpos d)); [apply G; lia|]. destruct (Z.ltb_spec (Zpos d) (2 * (n - k * Zpos d))); [apply G; lia|]. destruct (Z.even k); apply G; lia.
Qed.
(** The relative error of the conversion is at most 2^-24. *)
Lemma float32_error q : Qabs (float32 q - q) <= (1 # 16777216) * Qabs q.
Proof.
  unfold float32. destruct (Qeq_bool q 0) eqn:E.
  - apply Qeq_bool_iff in E. rewrite E. cbn. unfold Qle; cbn; lia.
  - assert (NZ : ~ q == 0) by (intros C; apply Qeq_bool_iff in C; congruence).
    assert (P : 0 < Qabs q) by (destruct (Qlt_le_dec 0 (Qabs q)) as [|L]; auto; exfalso; apply NZ; apply Qabs_case with (P := fun a => a <= 0 -> q == 0) in L; auto; intros; lra).
    destruct (exponent_spec _ P) as (LO & _). set (e := exponent (Qabs q)) in *. cbv zeta. rewrite Qred_correct. set (P2 := pow2 (e - 23)).
    assert (PP : 0 < P2) by apply pow2_pos. assert (PE : pow2 e == P2 * 8388608).
    { replace e with (e - 23 + 23)%Z at 1 by lia. rewrite pow2_plus by lia. reflexivity. }
    pose proof (round_error (q / P2)) as R. set (k := inject_Z (round_half_even (q / P2))) in *.
    assert (Z : q == q / P2 * P2) by (field; lra). set (z := q / P2) in *.
    assert (B : - (P2 * (1 # 2)) <= k * P2 - q <= P2 * (1 # 2)) by (split; rewrite Z; nra).
    apply Qabs_Qle_condition. assert (P2 * (1 # 2) <= (1 # 16777216) * Qabs q) by lra. lra.
Qed.
(** The conversion does not depend on how the fraction is written. *)
Lemma pow2_lt e f : (e < f)%Z -> pow2 (e + 1) <= pow2 f.
Proof.
  intros H. replace f with (e + 1 + (f - e - 1))%Z by lia. rewrite (pow2_plus (e + 1)) by lia. pose proof (pow2_pos (e + 1)).
  assert (1 <= inject_Z (2 ^ (f - e - 1))) by (change 1 with (inject_Z 1); rewrite <- Zle_Qle; pose proof (Z.pow_pos_nonneg 2 (f - e - 1)); lia). nra.
Qed.
Lemma exponent_comp q r : 0 < q -> q == r -> exponent q = exponent r.
Proof.
  intros P E. assert (P' : 0 < r) by lra. pose proof (exponent_spec q P). pose proof (exponent_spec r P').
  destruct (Z.lt_trichotomy (exponent q) (exponent r)) as [L|[L|L]]; auto; exfalso; apply pow2_lt in L; lra.
Qed.
Lemma round_comp z w : z == w -> round_half_even z = round_half_even w.
Proof.
  intros E. unfold round_half_even. assert (F : (Qnum z / Zpos (Qden z) = Qnum w / Zpos (Qden w))%Z) by (pose proof (Qfloor_comp z w E) as G; destruct z, w; exact G).
  rewrite <- F. set (k := (Qnum z / Zpos (Qden z))%Z). destruct z as [n d], w as [n' d']. unfold Qeq in E. cbn [Qnum Qden] in *.
  destruct (Z.ltb_spec (2 * (n - k * Zpos d)) (Zpos d)); destruct (Z.ltb_spec (2 * (n' - k * Zpos d')) (Zpos d')); auto; try (exfalso; nia).
  destruct (Z.ltb_spec (Zpos d) (2 * (n - k * Zpos d))); destruct (Z.ltb_spec (Zpos d') (2 * (n' - k * Zpos d'))); auto; exfalso; nia.
Qed.
Lemma float32_comp q r : q == r -> float32 q == float32 r.
Proof.
  intros E. unfold float32. destruct (Qeq_bool q 0) eqn:A; destruct (Qeq_bool r 0) eqn:B.
  - reflexivity.
  - exfalso. apply Qeq_bool_iff in A. rewrite <- not_true_iff_false, Qeq_bool_iff in B. lra.
  - exfalso. apply Qeq_bool_iff in B. rewrite <- not_true_iff_false, Qeq_bool_iff in A. lra.
  - rewrite <- not_true_iff_false, Qeq_bool_iff in A. assert (P : 0 < Qabs q).
    { destruct (Qlt_le_dec 0 (Qabs q)) as [|L]; auto; exfalso; apply A; apply Qabs_case with (P := fun a => a <= 0 -> q == 0) in L; auto; intros; lra. }
    assert (EX : exponent (Qabs q) = exponent (Qabs r)) by (apply exponent_comp; auto; now rewrite E). cbv zeta. rewrite EX, !Qred_correct.
    rewrite (round_comp (q / pow2 (exponent (Qabs r) - 23)) (r / pow2 (exponent (Qabs r) - 23))) by now rewrite E. reflexivity.
Qed.
(** Numbers whose differences exceed 2^-23 times their size keep their order. *)
Lemma float32_order vs : (forall a b, In a vs -> In b vs -> a < b -> (1 # 8388608) * Qabs a < b - a /\ (1 # 8388608) * Qabs b < b - a) -> keeps_order float32 vs.
Proof.
  intros S.
  assert (LT : forall a b, In a vs -> In b vs -> a < b -> float32 a < float32 b).
  { intros a b Ha Hb L. destruct (S a b Ha Hb L) as (S1 & S2). pose proof (float32_error a) as A. pose proof (float32_error b) as B.
    apply Qabs_Qle_condition in A, B. lra. }
  intros a b Ha Hb. split.
  - intros L. apply Qle_lteq in L as [L|L]; [apply Qlt_le_weak; now apply LT|]. rewrite (float32_comp a b L). apply Qle_refl.
  - intros L. destruct (Qlt_le_dec b a) as [C|]; auto. exfalso. specialize (LT b a Hb Ha C). lra.
Qed.

(** The normalised values of an objective keep their order when its different values are not too close
    in relation to the range of the objective. *)
Lemma minmax_gap c u v : In u c -> In v c -> u < v -> (forall r s, In r c -> In s c -> s - r < (8388608 # 1) * (v - u)) ->
  (1 # 8388608) < minmax c v - minmax c u.
Proof.
  intros Hu Hv L G. assert (H : c <> []) by (intros ->; destruct Hu). rewrite !minmax_eq. pose proof (width_pos c H) as W.
  assert (D : (v - col_min c) / width c - (u - col_min c) / width c == (v - u) / width c) by (field; lra). rewrite D.
  assert (WE : width c == col_max c - col_min c).
  { unfold width. cbv zeta. destruct (Qeq_bool _ _) eqn:E; [|reflexivity]. apply Qeq_bool_eq in E. exfalso.
    pose proof (col_min_le c u Hu). pose proof (col_max_ge c v Hv). lra. }
  destruct (col_min_in c H) as (r & Hr & Er). destruct (col_max_in c H) as (s & Hs & Es). specialize (G r s Hr Hs).
  apply Qlt_shift_div_l; [exact W|]. lra.
Qed.
Lemma objective_order mn F j : (j < length mn)%nat ->
  (forall p q r s, In p F -> In q F -> In r F -> In s F -> nth j p 0 < nth j q 0 ->
     nth j s 0 - nth j r 0 < (8388608 # 1) * (nth j q 0 - nth j p 0)) ->
  keeps_order float32 (column j (y_of mn F)).
Proof.
  intros Hj G. apply float32_order. intros a b Ha Hb L.
  apply ycol_elim in Ha as (p & Hp & ->); auto. apply ycol_elim in Hb as (q & Hq & ->); auto.
  assert (IN : forall r, In r F -> In (nth j r 0) (column j F)) by (intros r Hr; unfold column; apply in_map_iff; exists r; auto).
  pose proof (IN p Hp) as Ip. pose proof (IN q Hq) as Iq. assert (H : column j F <> []) by (intros Z; rewrite Z in Ip; destruct Ip).
  pose proof (minmax_range _ _ Ip) as Rp. pose proof (minmax_range _ _ Iq) as Rq.
  assert (GC : forall u v, In u F -> In v F -> nth j u 0 < nth j v 0 -> (1 # 8388608) < minmax (column j F) (nth j v 0) - minmax (column j F) (nth j u 0)).
  { intros u v Hu Hv LT. apply minmax_gap; auto. intros r s Hr Hs. unfold column in Hr, Hs. apply in_map_iff in Hr as (r' & <- & Hr). apply in_map_iff in Hs as (s' & <- & Hs). apply G; auto. }
  assert (LL : forall u v, minmax (column j F) u < minmax (column j F) v -> u < v).
  { intros u v K. destruct (Qlt_le_dec u v) as [|K']; auto. apply (minmax_le _ _ _ H) in K'. lra. }
  destruct (nth j mn true); unfold orient in *.
  - assert (K : nth j q 0 < nth j p 0) by (apply LL; lra). specialize (GC q p Hq Hp K).
    set (a := minmax (column j F) (nth j p 0)) in *. set (b := minmax (column j F) (nth j q 0)) in *. clearbody a b.
    assert (Qabs (a * -1) <= 1 /\ Qabs (b * -1) <= 1) as (A1 & A2) by (split; apply Qabs_Qle_condition; lra). split; lra.
  - assert (K : nth j p 0 < nth j q 0) by (apply LL; lra). specialize (GC p q Hp Hq K).
    set (a := minmax (column j F) (nth j p 0)) in *. set (b := minmax (column j F) (nth j q 0)) in *. clearbody a b.
    assert (Qabs (a * 1) <= 1 /\ Qabs (b * 1) <= 1) as (A1 & A2) by (split; apply Qabs_Qle_condition; lra). split; lra.
Qed.
