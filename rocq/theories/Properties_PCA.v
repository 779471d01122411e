(** Properties C71, C77, C112, C113. *)
From Coq Require Import Bool Arith Lia Reals Lra List.
From Verif Require Import Model_PCA.
Import ListNotations.
Open Scope R_scope.

(* ---------- vectors ---------- *)
Lemma dot_cons x a y b : dot (x :: a) (y :: b) = x * y + dot a b.
Proof. reflexivity. Qed.
Lemma dot_comm a : forall b, dot a b = dot b a.
Proof. induction a as [|x a IH]; intros [|y b]; try reflexivity. rewrite !dot_cons, IH. ring. Qed.
Lemma vadd_length a b : length a = length b -> length (vadd a b) = length a.
Proof. intros H. unfold vadd. rewrite map_length, combine_length. lia. Qed.
Lemma vsub_length a b : length a = length b -> length (vsub a b) = length a.
Proof. intros H. unfold vsub. rewrite map_length, combine_length. lia. Qed.
Lemma dot_vadd a : forall b c, length a = length b -> dot (vadd a b) c = dot a c + dot b c.
Proof.
  induction a as [|x a IH]; intros [|y b] c H; try discriminate; [destruct c; unfold dot; cbn; ring|]. cbn in H.
  destruct c as [|z c]; [unfold dot; cbn; ring|]. change (vadd (x :: a) (y :: b)) with (x + y :: vadd a b). rewrite !dot_cons, IH by lia. ring.
Qed.
Lemma dot_vsub a : forall b c, length a = length b -> dot (vsub a b) c = dot a c - dot b c.
Proof.
  induction a as [|x a IH]; intros [|y b] c H; try discriminate; [destruct c; unfold dot; cbn; ring|]. cbn in H.
  destruct c as [|z c]; [unfold dot; cbn; ring|]. change (vsub (x :: a) (y :: b)) with (x - y :: vsub a b). rewrite !dot_cons, IH by lia. ring.
Qed.
Lemma dot_scale k a : forall c, dot (map (Rmult k) a) c = k * dot a c.
Proof. induction a as [|x a IH]; intros [|z c]; try (unfold dot; cbn; ring). cbn [map]. rewrite !dot_cons, IH. ring. Qed.
Lemma norm2_pos a : 0 <= norm2 a.
Proof. unfold norm2. induction a as [|x a IH]; [unfold dot; cbn; lra|]. rewrite dot_cons. pose proof (Rle_0_sqr x). unfold Rsqr in *. lra. Qed.
Lemma cauchy_schwarz a b : length a = length b -> dot a b * dot a b <= norm2 a * norm2 b.
Proof.
  intros L.
  assert (P : forall t, 0 <= norm2 a - 2 * t * dot a b + t * t * norm2 b).
  { intros t. pose proof (norm2_pos (vsub a (map (Rmult t) b))) as H. unfold norm2 in *.
    rewrite dot_vsub in H by (now rewrite map_length). rewrite (dot_comm a), (dot_comm (map (Rmult t) b)) in H.
    rewrite !dot_vsub in H by (now rewrite map_length). rewrite !dot_scale in H. rewrite (dot_comm a (map (Rmult t) b)) in H. rewrite !dot_scale in H.
    rewrite (dot_comm b (map (Rmult t) b)), dot_scale in H. rewrite (dot_comm b a) in H. lra. }
  pose proof (norm2_pos b) as B. pose proof (norm2_pos a) as A. destruct (Req_dec (norm2 b) 0) as [E|E].
  - rewrite E in *. assert (D : dot a b = 0); [|rewrite D; lra].
    destruct (Req_dec (dot a b) 0) as [|D]; auto. exfalso. specialize (P ((norm2 a + 1) / (2 * dot a b))).
    replace (2 * ((norm2 a + 1) / (2 * dot a b)) * dot a b) with (norm2 a + 1) in P by (field; auto). lra.
  - specialize (P (dot a b / norm2 b)). assert (X : 0 <= (norm2 a - 2 * (dot a b / norm2 b) * dot a b + dot a b / norm2 b * (dot a b / norm2 b) * norm2 b) * norm2 b).
    { apply Rmult_le_pos; auto. }
    replace ((norm2 a - 2 * (dot a b / norm2 b) * dot a b + dot a b / norm2 b * (dot a b / norm2 b) * norm2 b) * norm2 b)
      with (norm2 a * norm2 b - dot a b * dot a b) in X by (field; auto). lra.
Qed.

(* ---------- C71 ---------- *)
Definition in_box (x : list R) (bounds : list (R * R)) : Prop := Forall2 (fun v b => fst b <= v <= snd b) x bounds.

Lemma in_box_distance x bounds : in_box x bounds ->
  norm2 (vsub x (map (fun b => (fst b + snd b) / 2) bounds)) <= norm2 (vsub (map fst bounds) (map (fun b => (fst b + snd b) / 2) bounds)).
Proof.
  unfold norm2. induction 1 as [|v b x bs H F IH]; [unfold dot; cbn; lra|]. cbn [map].
  change (vsub (v :: x) ((fst b + snd b) / 2 :: map (fun b => (fst b + snd b) / 2) bs)) with (v - (fst b + snd b) / 2 :: vsub x (map (fun b => (fst b + snd b) / 2) bs)).
  change (vsub (fst b :: map fst bs) ((fst b + snd b) / 2 :: map (fun b => (fst b + snd b) / 2) bs)) with (fst b - (fst b + snd b) / 2 :: vsub (map fst bs) (map (fun b => (fst b + snd b) / 2) bs)).
  rewrite !dot_cons. apply Rplus_le_compat; auto. set (c := (fst b + snd b) / 2) in *. set (r := c - fst b). assert (-r <= v - c <= r) by (unfold r, c; lra).
  replace ((fst b - c) * (fst b - c)) with (r * r) by (unfold r; ring). nra.
Qed.

(** C71: the projection of every point of the original box lies in the box that is searched in the
    reduced space, whatever the mean and the center are and however many components of unit length
    there are. *)
Theorem C71_bounds_enclose :
  forall p bounds x,
    length (mean_ p) = length bounds -> length (center p) = length bounds ->
    (forall c, In c (components_ p) -> length c = length bounds /\ norm2 c = 1) ->
    in_box x bounds -> in_box (transform p x) (compute_bounds p bounds).
Proof.
  intros p bounds x Lm Lc Hc Hx. assert (Lx : length x = length bounds) by (clear - Hx; induction Hx; cbn; congruence).
  unfold transform, compute_bounds. set (C := map (fun b => (fst b + snd b) / 2) bounds).
  assert (LC : length C = length bounds) by (unfold C; now rewrite map_length).
  set (rad := sqrt (norm2 (vsub (map fst bounds) C))).
  assert (G : forall c, length c = length bounds -> norm2 c = 1 ->
     dot (vsub (vsub C (mean_ p)) (center p)) c - rad <= dot (vsub (vsub x (center p)) (mean_ p)) c <= dot (vsub (vsub C (mean_ p)) (center p)) c + rad).
  { intros c L N. rewrite !dot_vsub by (rewrite ?vsub_length; congruence).
    assert (S : dot (vsub x C) c * dot (vsub x C) c <= norm2 (vsub (map fst bounds) C)).
    { eapply Rle_trans; [apply cauchy_schwarz; rewrite vsub_length; congruence|]. rewrite N, Rmult_1_r. now apply in_box_distance. }
    assert (A : Rabs (dot (vsub x C) c) <= rad).
    { unfold rad. rewrite <- sqrt_Rsqr_abs. apply sqrt_le_1_alt. exact S. }
    rewrite dot_vsub in A by congruence. pose proof (Rle_abs (dot x c - dot C c)); pose proof (Rle_abs (- (dot x c - dot C c))) as A2; rewrite Rabs_Ropp in A2; lra. }
  clear Hx. induction (components_ p) as [|c cs IH]; [constructor|]. cbn. constructor.
  - cbn. apply G; apply Hc; now left.
  - apply IH. intros c' H. apply Hc. now right.
Qed.
Print Assumptions C71_bounds_enclose.
(** a projection of the square [0, 2] x [-1, 1] to a direction of length one *)
Example pca_case :
  let p := Pca [1; 1] [[3 / 5; 4 / 5]] [0; 2] in
  let bounds := [(0, 2); (-1, 1)] in
  length (mean_ p) = length bounds /\ length (center p) = length bounds /\
  (forall c, In c (components_ p) -> length c = length bounds /\ norm2 c = 1) /\ in_box [2; 0] bounds /\ ~ in_box [3; 0] bounds.
Proof.
  cbn. split; [reflexivity|]. split; [reflexivity|]. split; [|split].
  - intros c [<-|[]]. split; [reflexivity|]. unfold norm2, dot. cbn. lra.
  - repeat constructor; cbn; lra.
  - intros H. inversion H; subst. cbn in *. lra.
Qed.

(* ---------- C112 ---------- *)
Lemma combination_length d x rows : (forall c, In c rows -> length c = d) -> length (combination d x rows) = d.
Proof.
  revert x. induction rows as [|c rows IH]; intros [|v x] H; try apply repeat_length.
  change (length (vadd (map (Rmult v) c) (combination d x rows)) = d).
  assert (L : length c = d) by (apply H; now left). assert (L2 : length (combination d x rows) = d) by (apply IH; intros; apply H; now right).
  rewrite vadd_length; rewrite map_length; congruence.
Qed.
Lemma dot_zeros d c : dot (repeat 0 d) c = 0.
Proof. revert c. induction d as [|d IH]; intros [|y c]; try reflexivity. cbn [repeat]. rewrite dot_cons, IH. ring. Qed.
(** the combination against any vector *)
Lemma dot_combination d w : forall x rows, (forall c, In c rows -> length c = d) -> length x = length rows ->
  dot (combination d x rows) w = dot x (map (fun c => dot c w) rows).
Proof.
  intros x rows. revert x. induction rows as [|c rows IH]; intros [|v x] H L; try discriminate; [unfold combination; cbn; apply dot_zeros|].
  cbn [map]. rewrite dot_cons, <- IH; [|intros; apply H; now right|cbn in L; lia].
  change (combination d (v :: x) (c :: rows)) with (vadd (map (Rmult v) c) (combination d x rows)).
  rewrite dot_vadd, dot_scale; auto. rewrite map_length, combination_length by (intros; apply H; now right). apply H. now left.
Qed.
Lemma vadd_vsub a : forall b, length a = length b -> vsub (vadd a b) b = a.
Proof. induction a as [|x a IH]; intros [|y b] L; try discriminate; auto. cbn in *. unfold vadd, vsub in *. cbn. rewrite IH by lia. f_equal. ring. Qed.
Definition orthonormal (rows : list (list R)) : Prop :=
  forall i j a b, nth_error rows i = Some a -> nth_error rows j = Some b -> dot a b = if Nat.eq_dec i j then 1 else 0.
(** C112: a point that is proposed in the reduced space and mapped to the original space (which is
    what ask returns) is mapped back to itself when the observation is projected. *)
Theorem C112_round_trip :
  forall p x, length (mean_ p) = length (center p) -> (forall c, In c (components_ p) -> length c = length (mean_ p)) ->
    orthonormal (components_ p) -> length x = length (components_ p) ->
    transform p (inverse_transform p x) = x.
Proof.
  intros p x Lm Lc O Lx. unfold transform, inverse_transform. set (d := length (mean_ p)) in *.
  assert (L1 : length (combination d x (components_ p)) = d) by now apply combination_length.
  rewrite vadd_vsub by (rewrite vadd_length; unfold d in *; congruence). rewrite vadd_vsub by (unfold d in *; congruence).
  transitivity (map (fun c => dot x (map (fun e => dot e c) (components_ p))) (components_ p)).
  { apply map_ext_in. intros c Hc. now apply dot_combination. }
  assert (U : forall (y : list R) (e : nat -> R) k i, (k <= i < k + length y)%nat -> (forall j, e j = if Nat.eq_dec j i then 1 else 0) ->
    dot y (map e (seq k (length y))) = nth (i - k) y 0).
  { clear. induction y as [|v y IH]; intros e k i Hi He; [cbn in Hi; lia|]. cbn [length seq map]. rewrite dot_cons, (He k). destruct (Nat.eq_dec k i) as [->|N].
    - rewrite Nat.sub_diag. cbn [nth]. assert (Z : forall (z : list R) k, (i < k)%nat -> dot z (map e (seq k (length z))) = 0).
      { induction z as [|w z IHz]; intros k' Hk; [reflexivity|]. cbn [length seq map]. rewrite dot_cons, He, IHz by lia. destruct (Nat.eq_dec k' i); [lia|ring]. }
      rewrite Z by lia. ring.
    - rewrite (IH e (S k) i) by (auto; cbn in Hi; lia). replace (i - k)%nat with (S (i - S k)) by lia. cbn [nth]. ring. }
  apply nth_ext with (d := 0) (d' := 0); [now rewrite map_length|]. rewrite map_length. intros i Hi.
  destruct (nth_error (components_ p) i) as [c|] eqn:E; [|apply nth_error_None in E; lia].
  rewrite (nth_indep _ 0 (dot x (map (fun e => dot e c) (components_ p)))) by (now rewrite map_length).
  rewrite (map_nth (fun c => dot x (map (fun e => dot e c) (components_ p)))), (nth_error_nth _ _ _ E).
  assert (M : map (fun e => dot e c) (components_ p) = map (fun j => if Nat.eq_dec j i then 1 else 0) (seq 0 (length x))).
  { apply nth_ext with (d := 0) (d' := 0); [rewrite !map_length, seq_length; auto|]. rewrite map_length. intros j Hj.
    destruct (nth_error (components_ p) j) as [e|] eqn:Ej; [|apply nth_error_None in Ej; lia].
    rewrite (nth_indep _ 0 (dot c c)) by (now rewrite map_length). rewrite (map_nth (fun e => dot e c) (components_ p) c), (nth_error_nth _ _ _ Ej).
    rewrite (nth_indep (map _ (seq 0 (length x))) 0 (if Nat.eq_dec 0 i then 1 else 0)) by (rewrite map_length, seq_length; lia).
    rewrite (map_nth (fun j => if Nat.eq_dec j i then 1 else 0) (seq 0 (length x)) 0%nat), seq_nth by lia. cbn. now apply (O j i). }
  rewrite M. rewrite (U x _ 0%nat i) by (auto; lia). now rewrite Nat.sub_0_r.
Qed.
Print Assumptions C112_round_trip.
Example orthonormal_case : orthonormal [[3 / 5; 4 / 5; 0]; [0; 0; 1]].
Proof.
  intros [|[|i]] [|[|j]] a b Ha Hb; cbn in Ha, Hb; try (injection Ha as <-); try (injection Hb as <-); unfold dot; cbn; try lra;
    try (destruct i; discriminate); destruct j; discriminate.
Qed.

(* ---------- C113 ---------- *)
(** the violation of one bound *)
Definition excess (v : R) (b : R * R) : R := Rmax 0 (fst b - v) + Rmax 0 (v - snd b).
Lemma penalty_excess bounds : forall x, penalty bounds x = - fold_right Rplus 0 (map (fun q => excess (fst q) (snd q)) (combine x bounds)).
Proof.
  intros x. unfold penalty. f_equal. induction (combine x bounds) as [|[v b] l IH]; cbn; [ring|].
  unfold excess at 1. cbn. rewrite <- IH. unfold below, above. cbn. unfold Rmax.
  destruct (Rlt_dec v (fst b)), (Rlt_dec (snd b) v), (Rle_dec 0 (fst b - v)), (Rle_dec 0 (v - snd b)); cbn; try lra.
Qed.
Lemma excess_pos v b : 0 <= excess v b.
Proof. unfold excess, Rmax. destruct (Rle_dec 0 (fst b - v)), (Rle_dec 0 (v - snd b)); lra. Qed.
Lemma excess_zero v b : excess v b = 0 <-> fst b <= v <= snd b.
Proof. unfold excess, Rmax. destruct (Rle_dec 0 (fst b - v)), (Rle_dec 0 (v - snd b)); split; intros; lra. Qed.
Lemma penalty_sign bounds x : length x = length bounds -> penalty bounds x <= 0 /\ (penalty bounds x = 0 <-> in_box x bounds).
Proof.
  rewrite penalty_excess. revert x. induction bounds as [|b bs IH]; intros [|v x] L; try discriminate.
  - cbn. split; [lra|]. split; [constructor|intros _; lra].
  - cbn in *. destruct (IH x) as [A B]; [lia|]. pose proof (excess_pos v b) as E. split; [lra|]. split.
    + intros H. constructor; [apply excess_zero; lra|]. apply B. lra.
    + intros H. inversion H as [|? ? ? ? Hv Hx]; subst. apply excess_zero in Hv. apply B in Hx. lra.
Qed.
(** C113: a candidate of the reduced space has the acquisition value iff its image lies in the
    original box, and a negative value otherwise.  So for an acquisition function that is never
    negative no candidate outside of the box is preferred to one inside. *)
Theorem C113_outside_never_wins :
  forall p bounds acq, length (mean_ p) = length bounds -> length (center p) = length bounds ->
    (forall c, In c (components_ p) -> length c = length bounds) ->
    (forall x, in_box (inverse_transform p x) bounds -> penalized p bounds acq x = acq x) /\
    (forall x, ~ in_box (inverse_transform p x) bounds -> penalized p bounds acq x < 0) /\
    ((forall x, 0 <= acq x) -> forall x y, in_box (inverse_transform p x) bounds -> ~ in_box (inverse_transform p y) bounds ->
       penalized p bounds acq y < penalized p bounds acq x).
Proof.
  intros p bounds acq Lm Lc Hc.
  assert (L : forall x, length (inverse_transform p x) = length bounds).
  { intros x. unfold inverse_transform. rewrite vadd_length; rewrite vadd_length; rewrite combination_length; auto; try congruence; intros c H; rewrite (Hc c H); auto. }
  assert (A : forall x, in_box (inverse_transform p x) bounds -> penalized p bounds acq x = acq x).
  { intros x H. unfold penalized. destruct (Req_EM_T _ 0) as [E|E]; auto. exfalso. apply E. now apply penalty_sign. }
  assert (B : forall x, ~ in_box (inverse_transform p x) bounds -> penalized p bounds acq x < 0).
  { intros x H. unfold penalized. destruct (penalty_sign bounds _ (L x)) as [S1 S2]. destruct (Req_EM_T _ 0) as [E|E]; [now apply S2 in E|lra]. }
  split; [exact A|]. split; [exact B|]. intros Hp x y Hx Hy. rewrite (A x Hx). specialize (B y Hy). specialize (Hp x). lra.
Qed.
Print Assumptions C113_outside_never_wins.

(** ... and the gradient that is returned outside of the box is the gradient of the penalty: in
    every direction, at every point whose image does not touch a face of the box. *)
Definition penalty_slope (v : R) (b : R * R) : R := if above v b then -1 else if below v b then 1 else 0.
Lemma excess_derivative v k b : fst b <= snd b -> v <> fst b -> v <> snd b ->
  derivable_pt_lim (fun t => - excess (v + t * k) b) 0 (penalty_slope v b * k).
Proof.
  intros Hb Hl Hu. intros eps He. unfold penalty_slope, above, below.
  (* a neighbourhood on which the coordinate stays on its side of both bounds *)
  set (m := Rmin (Rabs (v - fst b)) (Rabs (v - snd b))).
  assert (M : 0 < m) by (unfold m; apply Rmin_glb_lt; apply Rabs_pos_lt; lra).
  assert (D : 0 < m / (Rabs k + 1)) by (apply Rdiv_lt_0_compat; auto; pose proof (Rabs_pos k); lra).
  exists (mkposreal _ D). intros h Hh Hd. cbn in Hd.
  assert (S : Rabs (h * k) < m).
  { rewrite Rabs_mult. pose proof (Rabs_pos k). pose proof (Rabs_pos h).
    apply Rle_lt_trans with (Rabs h * (Rabs k + 1)); [nra|]. apply Rmult_lt_reg_r with (/ (Rabs k + 1)); [apply Rinv_0_lt_compat; lra|].
    rewrite Rmult_assoc, Rinv_r, Rmult_1_r by lra. exact Hd. }
  assert (S1 : Rabs (h * k) < Rabs (v - fst b)) by (eapply Rlt_le_trans; [exact S|apply Rmin_l]).
  assert (S2 : Rabs (h * k) < Rabs (v - snd b)) by (eapply Rlt_le_trans; [exact S|apply Rmin_r]).
  assert (E : forall s, - excess (v + (0 + h) * k) b - - excess (v + 0 * k) b = s * k * h -> Rabs ((- excess (v + (0 + h) * k) b - - excess (v + 0 * k) b) / h - s * k) < eps).
  { intros s ->. replace (s * k * h / h - s * k) with 0 by (field; auto). now rewrite Rabs_R0. }
  apply E. unfold excess, Rmax. rewrite Rplus_0_l, Rmult_0_l, Rplus_0_r.
  destruct (Rlt_dec (snd b) v) as [X|X].
  - rewrite (Rabs_right (v - snd b)) in S2 by lra. apply Rabs_def2 in S2 as [T1 T2].
    destruct (Rle_dec 0 (fst b - (v + h * k))), (Rle_dec 0 (v + h * k - snd b)), (Rle_dec 0 (fst b - v)), (Rle_dec 0 (v - snd b)); lra.
  - destruct (Rlt_dec v (fst b)) as [Y|Y].
    + rewrite (Rabs_left (v - fst b)) in S1 by lra. apply Rabs_def2 in S1 as [T1 T2].
      destruct (Rle_dec 0 (fst b - (v + h * k))), (Rle_dec 0 (v + h * k - snd b)), (Rle_dec 0 (fst b - v)), (Rle_dec 0 (v - snd b)); lra.
    + rewrite (Rabs_right (v - fst b)) in S1 by lra. rewrite (Rabs_left (v - snd b)) in S2 by lra. apply Rabs_def2 in S1 as [T1 T2]. apply Rabs_def2 in S2 as [T3 T4].
      destruct (Rle_dec 0 (fst b - (v + h * k))), (Rle_dec 0 (v + h * k - snd b)), (Rle_dec 0 (fst b - v)), (Rle_dec 0 (v - snd b)); lra.
Qed.
Lemma derivable_ext f g x l : (forall t, f t = g t) -> derivable_pt_lim f x l -> derivable_pt_lim g x l.
Proof. intros E H eps He. destruct (H eps He) as [d Hd]. exists d. intros h Hh Hd'. rewrite <- !E. auto. Qed.
Lemma penalty_derivative : forall bounds x k, length x = length bounds -> length k = length bounds ->
  Forall2 (fun v b => fst b <= snd b /\ v <> fst b /\ v <> snd b) x bounds ->
  derivable_pt_lim (fun t => penalty bounds (vadd x (map (Rmult t) k))) 0 (dot (penalty_direction bounds x) k).
Proof.
  intros bounds x k Lx Lk F. apply derivable_ext with (f := fun t => - fold_right Rplus 0 (map (fun q => excess (fst q) (snd q)) (combine (vadd x (map (Rmult t) k)) bounds))).
  { intros t. now rewrite penalty_excess. }
  revert k Lx Lk. induction F as [|v b x bs (H1 & H2 & H3) F IH]; intros [|c k] Lx Lk; try discriminate.
  - cbn. unfold dot. cbn. apply derivable_ext with (f := fun _ => 0); [intros; ring|]. apply derivable_pt_lim_const.
  - cbn in Lx, Lk. specialize (IH k ltac:(lia) ltac:(lia)).
    apply derivable_ext with (f := plus_fct (fun t => - excess (v + t * c) b) (fun t => - fold_right Rplus 0 (map (fun q => excess (fst q) (snd q)) (combine (vadd x (map (Rmult t) k)) bs)))).
    { intros t. unfold plus_fct. cbn. unfold vadd. ring. }
    unfold penalty_direction. cbn [combine map]. rewrite dot_cons. apply derivable_pt_lim_plus; [|exact IH]. now apply excess_derivative.
Qed.
Theorem C113_penalty_gradient :
  forall p bounds x h, length (mean_ p) = length bounds -> length (center p) = length bounds ->
    (forall c, In c (components_ p) -> length c = length bounds) -> length x = length (components_ p) -> length h = length x ->
    Forall2 (fun v b => fst b <= snd b /\ v <> fst b /\ v <> snd b) (inverse_transform p x) bounds ->
    derivable_pt_lim (fun t => penalty bounds (inverse_transform p (vadd x (map (Rmult t) h)))) 0 (dot (penalty_gradient p bounds x) h).
Proof.
  intros p bounds x h Lm Lc Hc Lx Lh F. set (d := length (mean_ p)) in *.
  assert (Hd : forall c, In c (components_ p) -> length c = d) by (intros; rewrite Lm; auto).
  assert (Lin : forall t, inverse_transform p (vadd x (map (Rmult t) h)) = vadd (inverse_transform p x) (map (Rmult t) (combination d h (components_ p)))).
  { intros t. unfold inverse_transform. fold d.
    assert (E : combination d (vadd x (map (Rmult t) h)) (components_ p) = vadd (combination d x (components_ p)) (map (Rmult t) (combination d h (components_ p)))).
    { clear F. revert x h Lx Lh Hd. generalize (components_ p) as rows. clearbody d. clear. induction rows as [|c rows IH]; intros [|a x] [|b h] Lx Lh Hd; try discriminate.
      - unfold combination. cbn. clear. induction d; cbn; auto. unfold vadd in *. cbn. rewrite <- IHd. f_equal. ring.
      - cbn in Lx, Lh. change (vadd (a :: x) (map (Rmult t) (b :: h))) with (a + t * b :: vadd x (map (Rmult t) h)).
        change (combination d (a + t * b :: vadd x (map (Rmult t) h)) (c :: rows)) with (vadd (map (Rmult (a + t * b)) c) (combination d (vadd x (map (Rmult t) h)) rows)).
        change (combination d (a :: x) (c :: rows)) with (vadd (map (Rmult a) c) (combination d x rows)).
        change (combination d (b :: h) (c :: rows)) with (vadd (map (Rmult b) c) (combination d h rows)).
        rewrite IH by (try lia; intros; apply Hd; now right).
        assert (Lc : length c = d) by (apply Hd; now left). assert (L1 : length (combination d x rows) = d) by (apply combination_length; intros; apply Hd; now right).
        assert (L2 : length (combination d h rows) = d) by (apply combination_length; intros; apply Hd; now right).
        clear - Lc L1 L2. revert L1 L2. generalize (combination d x rows) as u. generalize (combination d h rows) as w. revert d Lc.
        induction c as [|z c IH]; intros d Lc w u L1 L2; cbn in Lc; subst d; destruct u, w; try discriminate; auto.
        cbn in L1, L2. unfold vadd in *. cbn. f_equal; [ring|]. apply (IH (length c)); auto. }
    rewrite E. assert (L1 : length (combination d x (components_ p)) = d) by now apply combination_length.
    assert (L2 : length (combination d h (components_ p)) = d) by now apply combination_length.
    clear - L1 L2 Lm Lc. revert L1 L2. generalize (combination d x (components_ p)) as u. generalize (combination d h (components_ p)) as w. intros w u L1 L2.
    assert (L3 : length (mean_ p) = length u) by (unfold d in *; congruence). assert (L4 : length (center p) = length u) by (unfold d in *; congruence). assert (L5 : length w = length u) by (unfold d in *; congruence).
    clear - L3 L4 L5. revert w L3 L4 L5. generalize (mean_ p) as m. generalize (center p) as c. induction u as [|a u IH]; intros [|c0 c] [|m0 m] [|w0 w] L3 L4 L5; try discriminate; auto.
    cbn in *. unfold vadd in *. cbn. f_equal; [ring|]. apply IH; lia. }
  apply derivable_ext with (f := fun t => penalty bounds (vadd (inverse_transform p x) (map (Rmult t) (combination d h (components_ p))))); [intros t; now rewrite Lin|].
  assert (Li : length (inverse_transform p x) = length bounds) by (clear - F; induction F; cbn; congruence).
  replace (dot (penalty_gradient p bounds x) h) with (dot (penalty_direction bounds (inverse_transform p x)) (combination d h (components_ p))).
  - apply penalty_derivative; auto. rewrite combination_length; auto.
  - rewrite dot_comm, dot_combination by (auto; congruence). unfold penalty_gradient. apply dot_comm.
Qed.
Print Assumptions C113_penalty_gradient.
Example penalty_case : penalty [(0, 2); (-1, 1)] [3; -2] = -2 /\ penalty_direction [(0, 2); (-1, 1)] [3; -2] = [-1; 1].
Proof.
  unfold penalty, penalty_direction, below, above. cbn.
  repeat (match goal with |- context[Rlt_dec ?a ?b] => destruct (Rlt_dec a b); try lra end; cbn). split; [lra|reflexivity].
Qed.

(* ---------- C77 ---------- *)
Lemma rlt_iff a b : rlt a b = true <-> a < b.
Proof. unfold rlt. destruct (Rlt_dec a b); split; auto; discriminate. Qed.
Lemma req_iff a b : req a b = true <-> a = b.
Proof. unfold req. destruct (Req_EM_T a b); split; auto; discriminate. Qed.
Lemma sub_count (P Q T : R -> bool) l : (forall x, P x = true -> T x = true) -> (forall x, Q x = true -> T x = true) ->
  (forall x, P x = true -> Q x = true -> False) -> (length (filter P l) + length (filter Q l) <= length (filter T l))%nat.
Proof.
  intros A B C. induction l as [|x l IH]; cbn; auto. specialize (A x). specialize (B x). specialize (C x).
  destruct (P x), (Q x), (T x); cbn; try lia; exfalso; auto; specialize (A eq_refl) || specialize (B eq_refl); discriminate.
Qed.
Lemma in_count (P : R -> bool) l x : In x l -> P x = true -> (1 <= length (filter P l))%nat.
Proof. intros H E. assert (I : In x (filter P l)) by (apply filter_In; auto). destruct (filter P l); [destruct I|cbn; lia]. Qed.
Lemma count_all (P : R -> bool) l : (length (filter P l) <= length l)%nat.
Proof. induction l as [|x l IH]; cbn; auto. destruct (P x); cbn; lia. Qed.

Lemma rank_bounds l v : In v l -> 1 <= rank l v <= INR (length l).
Proof.
  intros H. unfold rank. set (a := length (filter (fun u => rlt u v) l)). set (e := length (filter (req v) l)).
  assert (E : (1 <= e)%nat) by (apply (in_count _ _ v H), req_iff; auto).
  assert (S : (a + e <= length l)%nat).
  { eapply Nat.le_trans; [apply (sub_count _ _ (fun _ => true)); auto|apply count_all]. intros x A B. apply rlt_iff in A. apply req_iff in B. lra. }
  apply le_INR in S. rewrite plus_INR in S. apply le_INR in E. cbn in E. pose proof (pos_INR a). lra.
Qed.
Lemma rank_lt l v w : In w l -> v < w -> rank l v < rank l w.
Proof.
  intros Hw L. unfold rank.
  assert (S : (length (filter (fun u => rlt u v) l) + length (filter (req v) l) <= length (filter (fun u => rlt u w) l))%nat).
  { apply sub_count.
    - intros x H. apply rlt_iff in H. apply rlt_iff. lra.
    - intros x H. apply req_iff in H. apply rlt_iff. lra.
    - intros x A B. apply rlt_iff in A. apply req_iff in B. lra. }
  apply le_INR in S. rewrite plus_INR in S. assert (E : (1 <= length (filter (req w) l))%nat) by (apply (in_count _ _ w Hw), req_iff; auto).
  apply le_INR in E. cbn in E. pose proof (pos_INR (length (filter (req v) l))). lra.
Qed.
Lemma min_exists (l : list R) : l <> [] -> exists m, In m l /\ forall x, In x l -> m <= x.
Proof.
  induction l as [|a l IH]; [congruence|]. intros _. destruct l as [|b l]; [exists a; split; [now left|intros x [<-|[]]; lra]|].
  destruct IH as (m & Hm & H); [discriminate|]. destruct (Rle_dec a m).
  - exists a. split; [now left|]. intros x [<-|Hx]; [lra|]. specialize (H x Hx). lra.
  - exists m. split; [now right|]. intros x [<-|Hx]; [lra|auto].
Qed.
Lemma rank_min l m : In m l -> (forall x, In x l -> m <= x) -> (2 <= length l)%nat -> rank l m < INR (length l).
Proof.
  intros Hm H L. unfold rank. assert (Z : filter (fun u => rlt u m) l = []).
  { clear - H. induction l as [|x l IH]; auto. cbn. destruct (rlt x m) eqn:E; [apply rlt_iff in E; specialize (H x (or_introl eq_refl)); lra|]. apply IH. intros; apply H; now right. }
  rewrite Z. cbn [length INR]. pose proof (count_all (req m) l) as C. apply le_INR in C. apply le_INR in L. cbn in L. lra.
Qed.
Lemma sum_nonneg l : (forall x, In x l -> 0 <= x) -> 0 <= fold_right Rplus 0 l /\ (forall x, In x l -> x <= fold_right Rplus 0 l).
Proof.
  induction l as [|a l IH]; cbn; intros H; [split; [lra|intros ? []]|]. destruct IH as [A B]; [intros; apply H; now right|].
  assert (0 <= a) by (apply H; now left). split; [lra|]. intros x [<-|Hx]; [lra|]. specialize (B x Hx). lra.
Qed.
Lemma sum_div l s : fold_right Rplus 0 (map (fun v => v / s) l) = fold_right Rplus 0 l / s.
Proof. induction l as [|a l IH]; cbn; [unfold Rdiv; ring|]. rewrite IH. unfold Rdiv. ring. Qed.

(** C77: with at least two observations the weights exist, are non-negative and sum to one; a
    better objective value has a larger weight and equal values have equal weights. *)
Theorem C77_rank_weights :
  forall minimize y, (2 <= length y)%nat ->
    exists w, weights minimize y = Some w /\ length w = length y /\
      (forall v, In v w -> 0 <= v) /\ fold_right Rplus 0 w = 1 /\
      (forall i j a b u v, nth_error y i = Some a -> nth_error y j = Some b -> nth_error w i = Some u -> nth_error w j = Some v ->
         (if minimize then a < b else b < a) -> v < u) /\
      (forall i j a u v, nth_error y i = Some a -> nth_error y j = Some a -> nth_error w i = Some u -> nth_error w j = Some v -> u = v).
Proof.
  intros mi y L. unfold weights. set (y' := if mi then y else map Ropp y). assert (L' : length y' = length y) by (unfold y'; destruct mi; now rewrite ?map_length).
  assert (E : raw_weights mi y = map (fun v => ln (INR (length y')) - ln (rank y' v)) y') by reflexivity. rewrite E. clear E.
  set (g := fun v => ln (INR (length y')) - ln (rank y' v)). set (s := fold_right Rplus 0 (map g y')).
  assert (NN : forall x, In x (map g y') -> 0 <= x).
  { intros x Hx. apply in_map_iff in Hx as (v & <- & Hv). destruct (rank_bounds y' v Hv) as [A B]. unfold g.
    destruct B as [B|B]; [|rewrite B; lra]. assert (ln (rank y' v) < ln (INR (length y'))) by (apply ln_increasing; lra). lra. }
  destruct (min_exists y') as (m & Hm & Mm); [intros X; rewrite X in L'; cbn in L'; lia|].
  assert (P : 0 < g m).
  { unfold g. assert (ln (rank y' m) < ln (INR (length y'))); [|lra]. destruct (rank_bounds y' m Hm). apply ln_increasing; [lra|]. apply rank_min; auto. lia. }
  destruct (sum_nonneg _ NN) as [S0 S1]. fold s in S0, S1. specialize (S1 (g m) (in_map g _ _ Hm)). assert (S : 0 < s) by lra.
  destruct (Req_EM_T s 0) as [X|_]; [lra|]. exists (map (fun v => v / s) (map g y')). split; auto. rewrite !map_length. split; auto.
  assert (N : forall i a u, nth_error y i = Some a -> nth_error (map (fun v => v / s) (map g y')) i = Some u -> exists a', nth_error y' i = Some a' /\ a' = (if mi then a else - a) /\ u = g a' / s).
  { intros i a u Ha Hu. unfold y' in *. destruct mi.
    - exists a. rewrite map_map, nth_error_map, Ha in Hu. cbn in Hu. injection Hu as <-. auto.
    - exists (- a). rewrite map_map, nth_error_map, nth_error_map, Ha in Hu. cbn in Hu. injection Hu as <-. rewrite nth_error_map, Ha. auto. }
  split; [|split; [|split]].
  - intros v Hv. apply in_map_iff in Hv as (x & <- & Hx). specialize (NN x Hx). apply Rmult_le_pos; auto. left. now apply Rinv_0_lt_compat.
  - rewrite sum_div. fold s. field. lra.
  - intros i j a b u v Ha Hb Hu Hv Lt. destruct (N i a u Ha Hu) as (a' & A1 & A2 & ->). destruct (N j b v Hb Hv) as (b' & B1 & B2 & ->).
    assert (Lt' : a' < b') by (destruct mi; lra). apply Rmult_lt_compat_r; [now apply Rinv_0_lt_compat|]. unfold g.
    assert (ln (rank y' a') < ln (rank y' b')); [|lra]. apply nth_error_In in A1, B1. destruct (rank_bounds y' a' A1). apply ln_increasing; [lra|]. now apply rank_lt.
  - intros i j a u v Ha Hb Hu Hv. destruct (N i a u Ha Hu) as (a' & A1 & A2 & ->). destruct (N j a v Hb Hv) as (b' & B1 & B2 & ->). now subst a' b'.
Qed.
Print Assumptions C77_rank_weights.
(** With one observation the only weight is 0 / 0. *)
Theorem C77_single : forall minimize v, weights minimize [v] = None.
Proof.
  intros mi v. unfold weights. destruct (Req_EM_T _ 0) as [E|E]; auto. exfalso. apply E. clear E. unfold raw_weights, rank.
  assert (G : forall u, ln (INR 1) - ln (INR (length (filter (fun x => rlt x u) [u])) + (INR (length (filter (req u) [u])) + 1) / 2) = 0).
  { intros u. cbn. assert (A : rlt u u = false) by (unfold rlt; destruct (Rlt_dec u u); auto; lra). assert (B : req u u = true) by now apply req_iff. rewrite A, B. cbn.
    replace (0 + (1 + 1) / 2) with 1 by lra. lra. }
  destruct mi; cbn [map length fold_right]; rewrite G; ring.
Qed.
Print Assumptions C77_single.
