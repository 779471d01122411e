(** Lemmas about the correlation functions. *)
From Coq Require Import Reals List Arith Bool Lra Lia Psatz.
From Coquelicot Require Import Coquelicot.
From Verif Require Import Model_Kernel Spec_Kernel.
Import ListNotations.
Open Scope R_scope.

(** ** Lists *)
Lemma map2_length {A B C} (f : A -> B -> C) a b : length (map2 f a b) = Nat.min (length a) (length b).
Proof. revert b. induction a; intros [|]; cbn; auto. Qed.
Lemma map2_nth {A B C} (f : A -> B -> C) a b i da db dc :
  (i < length a)%nat -> (i < length b)%nat -> nth i (map2 f a b) dc = f (nth i a da) (nth i b db).
Proof. revert b i. induction a; intros [|] [|]; cbn; intros; try lia; auto. apply IHa; lia. Qed.
Lemma sequence_some {A} (l : list (option A)) r : sequence l = Some r -> l = map Some r.
Proof. revert r. induction l as [|o l IH]; cbn; intros r H; [now inversion H|]. destruct o; [|discriminate].
  fold (sequence l) in H. destruct (sequence l); [|discriminate]. inversion H; subst. cbn. f_equal. auto. Qed.
Lemma sequence_map {A} (r : list A) : sequence (map Some r) = Some r.
Proof. induction r; cbn; auto. fold (sequence (map Some r)). now rewrite IHr. Qed.
Lemma sequence_all {A} (l : list (option A)) : (forall o, In o l -> o <> None) -> exists r, sequence l = Some r.
Proof. induction l as [|o l IH]; cbn; intros H; [eauto|]. destruct IH as [r E]; [auto|]. fold (sequence l). rewrite E.
  destruct o; [eauto|]. exfalso. apply (H None); auto. Qed.
Lemma sum_nonneg l : List.Forall (fun v => 0 <= v) l -> 0 <= sum l.
Proof. induction 1; cbn; [lra|]. unfold sum in *. lra. Qed.
Lemma sum_zero l : List.Forall (fun v => v = 0) l -> sum l = 0.
Proof. induction 1; cbn; [lra|]. unfold sum in *. lra. Qed.
Lemma sum_scale c l : c * sum l = sum (map (Rmult c) l).
Proof. induction l; cbn; [lra|]. unfold sum in *. rewrite <- IHl. lra. Qed.
Lemma map2_repeat {B C} (f : R -> B -> C) c l : map2 f (repeat c (length l)) l = map (f c) l.
Proof. induction l; cbn; f_equal; auto. Qed.

(** ** Kernel of a sum: the isotropic branch is the anisotropic one with the parameter repeated *)
Lemma each_length theta n : accepted theta n -> length (each theta n) = n.
Proof. intros [H|H]; destruct theta as [|t [|]]; cbn in *; subst; try discriminate; auto; try apply repeat_length. Qed.
Lemma abs_each theta d : accepted theta (length d) -> absolute_exponential theta d = Some (exp (- sum (map2 Rmult (each theta (length d)) (map Rabs d)))).
Proof.
  intros H. unfold absolute_exponential. destruct theta as [|t0 [|]].
  - destruct H as [H|H]; [discriminate|]. rewrite map_length, H, Nat.eqb_refl. reflexivity.
  - unfold each. rewrite <- (map_length Rabs d). rewrite map2_repeat, <- sum_scale. do 2 f_equal. lra.
  - destruct H as [H|H]; [discriminate|]. rewrite map_length, H, Nat.eqb_refl. reflexivity.
Qed.
Lemma sq_each theta d : accepted theta (length d) -> squared_exponential theta d = Some (exp (- sum (map2 Rmult (each theta (length d)) (map Rsqr d)))).
Proof.
  intros H. unfold squared_exponential. destruct theta as [|t0 [|]].
  - destruct H as [H|H]; [discriminate|]. rewrite H, Nat.eqb_refl. reflexivity.
  - unfold each. rewrite <- (map_length Rsqr d). rewrite map2_repeat, <- sum_scale. do 2 f_equal. lra.
  - destruct H as [H|H]; [discriminate|]. rewrite H, Nat.eqb_refl. reflexivity.
Qed.
Definition matern_of (S : R) : R := (1 + sqrt S * sqrt 3) * exp (- (sqrt S * sqrt 3)).
Lemma matern_each theta d : accepted theta (length d) -> matern theta d = Some (matern_of (sum (map2 Rmult (each theta (length d)) (map Rsqr d)))).
Proof.
  intros H. unfold matern, matern_of. destruct theta as [|t0 [|]].
  - destruct H as [H|H]; [discriminate|]. rewrite H, Nat.eqb_refl. reflexivity.
  - unfold each. rewrite <- (map_length Rsqr d). rewrite map2_repeat, <- sum_scale. reflexivity.
  - destruct H as [H|H]; [discriminate|]. rewrite H, Nat.eqb_refl. reflexivity.
Qed.
Definition clip (v : R) : R := if Rlt_dec 1 v then 1 else v.
Definition spline (v : R) : R := 1 - clip v * clip v * (3 - 2 * clip v).
Lemma map2_swap {A B C} (f : A -> B -> C) a b : map2 f a b = map2 (fun y x => f x y) b a.
Proof. revert b. induction a; intros [|]; cbn; f_equal; auto. Qed.
Lemma map_map2 {A B C D} (g : C -> D) (f : A -> B -> C) a b : map g (map2 f a b) = map2 (fun x y => g (f x y)) a b.
Proof. revert b. induction a; intros [|]; cbn; f_equal; auto. Qed.
Lemma map2_map_r {A B B' C} (f : A -> B' -> C) (h : B -> B') a b : map2 f a (map h b) = map2 (fun x y => f x (h y)) a b.
Proof. revert b. induction a; intros [|]; cbn; f_equal; auto. Qed.
Lemma cubic_each theta d : accepted theta (length d) -> cubic theta d = Some (prod (map2 (fun t v => spline (Rabs v * t)) (each theta (length d)) d)).
Proof.
  intros H. unfold cubic. destruct theta as [|t0 [|t1 ts]].
  - destruct H as [H|H]; [discriminate|]. destruct d; [|discriminate]. reflexivity.
  - unfold each. rewrite map2_repeat, !map_map. reflexivity.
  - destruct H as [H|H]; [discriminate|]. rewrite H, Nat.eqb_refl. unfold each. rewrite map_map, map_map2, map2_swap, map2_map_r. reflexivity.
Qed.

(** ** Ranges *)
Lemma exp_range s : 0 <= s -> 0 < exp (- s) <= 1.
Proof. intros H. split; [apply exp_pos|]. destruct (Req_dec s 0) as [->|N]; [rewrite Ropp_0, exp_0; lra|]. left. rewrite <- exp_0. apply exp_increasing. lra. Qed.
Lemma one_plus_exp s : 0 <= s -> 0 < (1 + s) * exp (- s) <= 1.
Proof.
  intros H. split; [apply Rmult_lt_0_compat; [lra|apply exp_pos]|].
  assert (E : exp s * exp (- s) = 1) by (rewrite <- exp_plus; replace (s + - s) with 0 by lra; apply exp_0).
  assert (1 + s <= exp s). { destruct (Req_dec s 0) as [->|]; [rewrite exp_0; lra|]. left. apply exp_ineq1. auto. }
  apply Rle_trans with (exp s * exp (- s)); [|lra]. apply Rmult_le_compat_r; [|auto]. left. apply exp_pos.
Qed.
Lemma matern_range s : 0 <= s -> 0 < matern_of s <= 1.
Proof. intros H. apply one_plus_exp. apply Rmult_le_pos; apply sqrt_pos. Qed.
Lemma spline_range v : 0 <= v -> 0 <= spline v <= 1.
Proof. intros H. unfold spline. assert (0 <= clip v <= 1) by (unfold clip; destruct Rlt_dec; lra). revert H0. generalize (clip v). intros c C.
  replace (1 - c * c * (3 - 2 * c)) with ((1 - c) * (1 - c) * (1 + 2 * c)) by ring. split; [apply Rmult_le_pos; nra|].
  replace ((1 - c) * (1 - c) * (1 + 2 * c)) with (1 - c * c * (3 - 2 * c)) by ring. assert (0 <= c * c * (3 - 2 * c)) by (apply Rmult_le_pos; nra). lra. Qed.
Lemma prod_range l : List.Forall (fun v => 0 <= v <= 1) l -> 0 <= prod l <= 1.
Proof. induction 1; cbn; [lra|]. fold (prod l). nra. Qed.
Lemma Forall_map2 {A B C} (Q : C -> Prop) (f : A -> B -> C) a b : (forall x y, In x a -> In y b -> Q (f x y)) -> List.Forall Q (map2 f a b).
Proof. revert b. induction a; intros [|]; cbn; intros H; constructor; auto. Qed.
Lemma each_pos theta n : List.Forall (fun t => 0 < t) theta -> List.Forall (fun t => 0 < t) (each theta n).
Proof. intros H. destruct theta as [|t [|]]; auto. cbn. inversion H; subst. apply Forall_forall. intros x Hx. apply repeat_spec in Hx. now subst. Qed.
Lemma power_nonneg x p : 0 <= power x p.
Proof. unfold power. repeat destruct Req_EM_T; try lra. left. apply exp_pos. Qed.

(** ** Sums over three lists and their change in one coordinate *)
Fixpoint sum3 (g : R -> R -> R -> R) (th z t : list R) : R :=
  match th, z, t with a :: th, u :: z, v :: t => g a u v + sum3 g th z t | _, _, _ => 0 end.
Lemma set_coord_length x j t : (j < length x)%nat -> length (set_coord x j t) = length x.
Proof. intros H. unfold set_coord. rewrite app_length, firstn_length. cbn [length]. rewrite skipn_length. lia. Qed.
Lemma set_coord_same x j : (j < length x)%nat -> set_coord x j (nth j x 0) = x.
Proof. intros H. unfold set_coord. revert j H. induction x; cbn; intros; [lia|]. destruct j; cbn; auto. f_equal. apply IHx. lia. Qed.
Lemma nth_set_coord x j k t : (j < length x)%nat -> nth k (set_coord x j t) 0 = if (k =? j)%nat then t else nth k x 0.
Proof. unfold set_coord. revert j k. induction x; cbn; intros; [lia|]. destruct j, k; cbn; auto. apply IHx. lia. Qed.
Lemma sum3_set g th z t j u : (j < length z)%nat -> length th = length z -> length t = length z ->
  sum3 g th (set_coord z j u) t = sum3 g th z t - g (nth j th 0) (nth j z 0) (nth j t 0) + g (nth j th 0) u (nth j t 0).
Proof.
  revert z t j. induction th as [|a th IH]; intros [|b z] [|c t] j; cbn [length]; intros; try lia; try discriminate.
  destruct j as [|j]; [change (set_coord (b :: z) 0 u) with (u :: z)|change (set_coord (b :: z) (Datatypes.S j) u) with (b :: set_coord z j u)]; cbn [sum3 nth]; [lra|]. rewrite IH by lia. lra.
Qed.
Lemma sum3_set_th g th z t j u : (j < length z)%nat -> length th = length z -> length t = length z ->
  sum3 g (set_coord th j u) z t = sum3 g th z t - g (nth j th 0) (nth j z 0) (nth j t 0) + g u (nth j z 0) (nth j t 0).
Proof.
  revert z t j. induction th as [|a th IH]; intros [|b z] [|c t] j; cbn [length]; intros; try lia; try discriminate.
  destruct j as [|j]; [change (set_coord (a :: th) 0 u) with (u :: th)|change (set_coord (a :: th) (Datatypes.S j) u) with (a :: set_coord th j u)]; cbn [sum3 nth]; [lra|]. rewrite IH by lia. lra.
Qed.
Lemma sum3_nonneg g th z t : (forall a u v, In a th -> 0 <= g a u v) -> 0 <= sum3 g th z t.
Proof. revert z t. induction th as [|a th IH]; intros [|b z] [|c t] H; cbn; try lra.
  assert (0 <= g a b c) by (apply H; cbn; auto). assert (0 <= sum3 g th z t) by (apply IH; intros; apply H; cbn; auto). lra. Qed.
Lemma sum3_zero g th z t : (forall a u v, In a th -> 0 <= g a u v) -> sum3 g th z t = 0 -> length th = length z -> length t = length z ->
  forall j, (j < length z)%nat -> g (nth j th 0) (nth j z 0) (nth j t 0) = 0.
Proof.
  revert z t. induction th as [|a th IH]; intros [|b z] [|c t] H Hs; cbn; intros; try lia; try discriminate. cbn in Hs.
  assert (0 <= g a b c) by (apply H; cbn; auto). assert (0 <= sum3 g th z t) by (apply sum3_nonneg; intros; apply H; cbn; auto).
  destruct j; cbn; [lra|]. apply IH; try lia; try lra. intros; apply H; cbn; auto.
Qed.
Definition wsq (a u v : R) : R := a * ((u - v) * (u - v)).
Definition wabs (a u v : R) : R := a * Rabs (u - v).
Lemma sum_wsq th z t : sum (map2 Rmult th (map Rsqr (absdiff z t))) = sum3 wsq th z t.
Proof. revert z t. induction th as [|a th IH]; intros [|b z] [|c t]; cbn; auto. unfold sum, absdiff in *. cbn. rewrite IH. unfold wsq. rewrite <- Rsqr_abs. reflexivity. Qed.
Lemma sum_wabs th z t : sum (map2 Rmult th (map Rabs (absdiff z t))) = sum3 wabs th z t.
Proof. revert z t. induction th as [|a th IH]; intros [|b z] [|c t]; cbn; auto. unfold sum, absdiff in *. cbn. rewrite IH. unfold wabs. now rewrite Rabs_Rabsolu. Qed.
Lemma absdiff_length z t : length t = length z -> length (absdiff z t) = length z.
Proof. intros H. unfold absdiff. rewrite map2_length, H. apply Nat.min_id. Qed.

(** ** Derivatives in one variable *)
Lemma ex_base (h : R -> R) (x d d' : R) : is_derive h x d -> d = d' -> is_derive h x d'.
Proof. now intros H <-. Qed.
Lemma exp_quad_d c a v x : is_derive (fun u => exp (- (c + a * ((u - v) * (u - v))))) x (-2 * exp (- (c + a * ((x - v) * (x - v)))) * (a * (x - v))).
Proof. auto_derive; auto. set (e := exp _). ring. Qed.
Lemma sqrt3_pos : 0 < sqrt 3. Proof. apply sqrt_lt_R0. lra. Qed.
Lemma sqrt3_sq : sqrt 3 * sqrt 3 = 3. Proof. apply sqrt_sqrt. lra. Qed.
Lemma sqrt5_pos : 0 < sqrt 5. Proof. apply sqrt_lt_R0. lra. Qed.
Lemma sqrt5_sq : sqrt 5 * sqrt 5 = 5. Proof. apply sqrt_sqrt. lra. Qed.
(** sqrt of a function with a known derivative *)
Lemma sqrt_d (s : R -> R) x ds : is_derive s x ds -> 0 < s x -> is_derive (fun u => sqrt (s u)) x (ds / (2 * sqrt (s x))).
Proof. intros H P. evar_last. { apply (is_derive_comp sqrt s); [|apply H]. apply is_derive_Reals. apply derivable_pt_lim_sqrt. auto. }
  unfold scal; cbn; unfold mult; cbn. field. apply Rgt_not_eq. now apply sqrt_lt_R0. Qed.
Lemma matern_d (s : R -> R) x ds : is_derive s x ds -> 0 < s x -> is_derive (fun u => matern_of (s u)) x (- (3 / 2) * exp (- sqrt 3 * sqrt (s x)) * ds).
Proof.
  intros H P. unfold matern_of. pose proof (sqrt_d s x ds H P) as D. set (r := fun u => sqrt (s u)) in *.
  assert (Px : 0 < r x) by (now apply sqrt_lt_R0). change (sqrt (s x)) with (r x) in *.
  apply (is_derive_ext (fun u => (1 + r u * sqrt 3) * exp (- (r u * sqrt 3)))); [reflexivity|]. assert (D' : is_derive r x (ds / (2 * r x))) by exact D. clear D. rename D' into D. clearbody r.
  auto_derive. { repeat split; auto; eexists; exact D. }
  replace (Derive (fun u => r u) x) with (ds / (2 * r x)) by (symmetry; now apply (is_derive_unique r)).
  replace (- (r x * sqrt 3)) with (- sqrt 3 * r x) by ring. set (e := exp _). clearbody e. pose proof sqrt3_sq as Q3. set (q := sqrt 3) in *. clearbody q.
  set (k := ds / (2 * r x)). transitivity (- (q * q) * r x * k * e); [ring|]. rewrite Q3. unfold k. field. lra.
Qed.
(** A function that differs from a constant by at most a square has derivative zero. *)
Lemma flat_derive (h : R -> R) x C : (forall u, Rabs (h u - h x) <= C * ((u - x) * (u - x))) -> is_derive h x 0.
Proof.
  intros H. apply is_derive_Reals. intros eps He.
  assert (HC : 0 <= C) by (specialize (H (x + 1)); pose proof (Rabs_pos (h (x + 1) - h x)); nra).
  assert (Hd : 0 < eps / (C + 1)) by (apply Rdiv_lt_0_compat; lra).
  exists (mkposreal _ Hd). intros v Hv Hlt. cbn in Hlt. specialize (H (x + v)). replace (x + v - x) with v in H by lra.
  rewrite Rminus_0_r. unfold Rdiv. rewrite Rabs_mult, Rabs_inv. pose proof (Rabs_pos_lt v Hv) as Pv.
  replace (v * v) with (Rabs v * Rabs v) in H by (rewrite <- Rabs_mult; apply Rabs_pos_eq; nra).
  apply Rmult_lt_reg_r with (Rabs v); auto. rewrite Rmult_assoc, Rinv_l, Rmult_1_r by lra.
  apply Rle_lt_trans with (1 := H). apply (Rmult_lt_compat_r (C + 1)) in Hlt; [|lra]. unfold Rdiv in Hlt. rewrite Rmult_assoc, Rinv_l, Rmult_1_r in Hlt by lra. nra.
Qed.
Lemma matern_flat s : 0 <= s -> Rabs (matern_of s - 1) <= 3 * s.
Proof.
  intros H. pose proof (matern_range s H). rewrite Rabs_left1 by lra. unfold matern_of. pose proof (sqrt_sqrt s H) as E. pose proof (sqrt_pos s) as Ps. set (r := sqrt s) in *. clearbody r.
  pose proof sqrt3_sq as Q3. pose proof sqrt3_pos. set (q := sqrt 3) in *. clearbody q.
  assert (X : 1 - r * q <= exp (- (r * q))). { destruct (Req_dec (r * q) 0) as [Z|Z]; [rewrite Z, Ropp_0, exp_0; lra|]. left. apply (exp_ineq1 (- (r * q))). lra. }
  set (e := exp _) in *. clearbody e. assert (0 <= r * q) by nra. assert (3 * s = (r * q) * (r * q)) by (rewrite <- E, <- Q3; ring). nra.
Qed.

(** ** Monotonicity *)
Lemma sum_le a b : Forall2 Rle a b -> sum a <= sum b.
Proof. induction 1; cbn; [lra|]. unfold sum in *. lra. Qed.
Lemma exp_anti a b : a <= b -> exp (- b) <= exp (- a).
Proof. intros H. destruct (Req_dec a b) as [->|]; [lra|]. left. apply exp_increasing. lra. Qed.
Lemma matern_anti a b : 0 <= a -> a <= b -> matern_of b <= matern_of a.
Proof.
  intros Ha Hab. unfold matern_of. assert (Q : sqrt a * sqrt 3 <= sqrt b * sqrt 3) by (apply Rmult_le_compat_r; [left; apply sqrt3_pos|apply sqrt_le_1; lra]).
  assert (P : 0 <= sqrt a * sqrt 3) by (apply Rmult_le_pos; apply sqrt_pos). revert P Q. generalize (sqrt a * sqrt 3), (sqrt b * sqrt 3). clear. intros a b Ha Hab.
  assert (1 + (b - a) <= exp (b - a)). { destruct (Req_dec (b - a) 0) as [E|]; [rewrite E, exp_0; lra|]. left. apply exp_ineq1. auto. }
  replace (exp (- a)) with (exp (b - a) * exp (- b)) by (rewrite <- exp_plus; f_equal; ring). rewrite <- Rmult_assoc.
  apply Rmult_le_compat_r; [left; apply exp_pos|]. nra.
Qed.
Lemma spline_anti a b : 0 <= a -> a <= b -> spline b <= spline a.
Proof.
  intros Ha Hab. unfold spline. assert (0 <= clip a /\ clip a <= clip b /\ clip b <= 1) by (unfold clip; repeat destruct Rlt_dec; lra).
  revert H. generalize (clip a), (clip b). clear. intros a b (A & B & C).
  assert (0 <= b * b * (3 - 2 * b) - a * a * (3 - 2 * a)); [|lra].
  replace (b * b * (3 - 2 * b) - a * a * (3 - 2 * a)) with ((b - a) * (3 * (b + a) - 2 * (b * b + a * b + a * a))) by ring.
  apply Rmult_le_pos; [lra|]. nra.
Qed.
Lemma prod_le a b : Forall2 (fun u v => 0 <= u <= v) a b -> 0 <= prod a <= prod b.
Proof. induction 1; cbn; [lra|]. fold (prod l) (prod l'). nra. Qed.
Lemma power_mono x y p : 0 < p -> 0 <= x -> x <= y -> power x p <= power y p.
Proof.
  intros Hp Hx Hxy. unfold power. destruct (Req_EM_T p 0); [lra|]. destruct (Req_EM_T x 0), (Req_EM_T y 0); try lra.
  - left. apply exp_pos.
  - destruct (Req_dec x y) as [->|]; [lra|]. left. apply exp_increasing. apply Rmult_lt_compat_l; auto. apply ln_increasing; lra.
Qed.
Lemma map2_F2 {A B} (f : R -> A -> R) (g : R -> B -> R) (rel : R -> R -> Prop) th a b (P : A -> B -> Prop) :
  List.Forall (fun t => 0 < t) th -> Forall2 P a b -> (forall t x y, 0 < t -> P x y -> rel (f t x) (g t y)) ->
  Forall2 rel (map2 f th a) (map2 g th b).
Proof. intros HT HF H. revert th HT. induction HF; intros [|t th] HT; cbn; constructor; inversion HT; subst; auto. Qed.
