(** * Making and refitting a Gaussian process: C230 to C239 *)
From Coq Require Import List Bool Arith ZArith QArith Qpower String Lia Lqa.
From Verif Require Import Model_GPSetup.
Import ListNotations.
Open Scope nat_scope.

(** Arguments of a typical call: bounds L and U, given as finite numbers. *)
Definition call mean corr theta0 (L U : list Q) nugget noise_estim optimizer likelihood : args :=
  Args mean corr theta0 (Some (map Fin L)) (Some (map Fin U)) nugget noise_estim optimizer likelihood.

Lemma finite_map L : forallb finite (map Fin L) = true.
Proof. induction L; cbn; auto. Qed.
Lemma finite_inv l : forallb finite l = true -> exists L, l = map Fin L.
Proof.
  induction l as [|[q|] l IH]; cbn; intros H; try discriminate.
  - exists []; reflexivity.
  - destruct IH as (L & ->); auto. exists (q :: L); reflexivity.
Qed.
Lemma nonzero_true q : nonzero q = true <-> ~ (q == 0)%Q.
Proof. unfold nonzero. rewrite negb_true_iff. destruct (Qeq_bool q 0) eqn:E; split; intros H; try discriminate; auto.
  - apply Qeq_bool_iff in E. contradiction.
  - intros K. apply Qeq_bool_iff in K. congruence. Qed.
Lemma likelihood_name s : existsb (String.eqb s) ["concentrated"%string; "restricted"%string] = true <-> s = "concentrated"%string \/ s = "restricted"%string.
Proof. cbn [existsb]. rewrite orb_false_r, orb_true_iff, !String.eqb_eq. reflexivity. Qed.

(** ** C230: the documented ways to make a model *)
(** Documented: without bounds theta0 is used as it is. *)
Theorem C230_no_bounds_refuted a : a_thetaL a = None \/ (a_thetaU a = None /\ exists L, a_thetaL a = Some (map Fin L)) ->
  construct a = Raise TypeError.
Proof.
  unfold construct. intros [-> | (-> & L & ->)]; [reflexivity|]. cbn [isfinite_all bind]. rewrite finite_map. reflexivity.
Qed.
(** With finite bounds, a known likelihood function and one number as the nugget. *)
Theorem C230_bounds_partial mean corr theta0 L U (q : Q) noise_estim optimizer likelihood :
  likelihood = "concentrated"%string \/ likelihood = "restricted"%string ->
  exists g, construct (call mean corr theta0 L U (Scalar q) noise_estim optimizer likelihood) = Ok g
    /\ g_thetaL g = map Fin L /\ g_thetaU g = map Fin U
    /\ (noise_estim = true -> g_mode g = NoiseEstim)
    /\ (noise_estim = false -> (q == 0)%Q -> g_mode g = Noiseless)
    /\ (noise_estim = false -> ~ (q == 0)%Q -> g_mode g = Noisy /\ g_noise g = [q]).
Proof.
  intros HL. unfold construct, call. cbn [a_thetaL a_thetaU a_nugget a_noise_estim a_likelihood a_mean a_corr a_theta0 a_optimizer isfinite_all bind].
  rewrite !finite_map. cbn [negb bind noise_var nugget_truth]. apply likelihood_name in HL. rewrite HL. cbn [negb].
  destruct (nonzero q) eqn:E; cbn [bind truth orb negb].
  - rewrite E. cbn [bind]. eexists. split; [reflexivity|]. cbn. apply nonzero_true in E. do 2 (split; [reflexivity|]).
    destruct noise_estim; cbn; repeat split; intros; try discriminate; try contradiction; reflexivity.
  - change (nonzero 0) with false. cbn [bind]. eexists. split; [reflexivity|]. cbn. assert (Z : (q == 0)%Q) by (destruct (Qeq_dec q 0) as [Z|Z]; auto; apply nonzero_true in Z; congruence).
    do 2 (split; [reflexivity|]). destruct noise_estim; cbn; repeat split; intros; try discriminate; try contradiction; reflexivity.
Qed.
(** Infinite bounds and unknown likelihood functions are refused. *)
Theorem C230_refuses_partial a g : construct a = Ok g ->
  (exists L U, a_thetaL a = Some (map Fin L) /\ a_thetaU a = Some (map Fin U)) /\ (a_likelihood a = "concentrated"%string \/ a_likelihood a = "restricted"%string).
Proof.
  unfold construct. destruct (a_thetaL a) as [l|]; [|discriminate]. cbn [isfinite_all bind]. destruct (forallb finite l) eqn:EL; [|discriminate]. cbn [bind].
  destruct (a_thetaU a) as [u|]; [|discriminate]. cbn [isfinite_all bind]. destruct (forallb finite u) eqn:EU; [|discriminate]. cbn [negb].
  destruct (finite_inv _ EL) as (L & ->). destruct (finite_inv _ EU) as (U & ->).
  destruct (noise_var _) as [nv|]; [|discriminate]. cbn [bind]. destruct (truth nv); [|discriminate]. cbn [bind].
  destruct (existsb _ _) eqn:E; [|discriminate]. intros _. apply likelihood_name in E. split; auto. exists L, U. auto.
Qed.

(** ** C231: a noise variance for each observation *)
(** Documented: the nugget may be an array with an entry for each observation. *)
Theorem C231_array_refuted mean corr theta0 L U (v w : Q) (l : list Q) noise_estim optimizer likelihood :
  construct (call mean corr theta0 L U (Arr (v :: w :: l)) noise_estim optimizer likelihood) = Raise ValueError.
Proof. unfold construct, call. cbn [a_thetaL a_thetaU isfinite_all bind]. rewrite !finite_map. reflexivity. Qed.
(** An array with one entry is the same as the number. *)
Theorem C231_one_partial mean corr theta0 L U (v : Q) noise_estim optimizer likelihood :
  construct (call mean corr theta0 L U (Arr [v]) noise_estim optimizer likelihood) = construct (call mean corr theta0 L U (Scalar v) noise_estim optimizer likelihood).
Proof. reflexivity. Qed.

(** ** C232: fit refuses wrong parameters before the search *)
Definition known_corr (c : corr) : Prop :=
  match c with Callable => True | Named s => In s ["absolute_exponential"%string; "squared_exponential"%string; "generalized_exponential"%string; "cubic"%string; "matern"%string] end.
Definition right_params (a : args) : Prop :=
  known_corr (a_corr a) /\ (a_optimizer a = "BFGS"%string \/ a_optimizer a = "CMA"%string) /\
  exists L U, a_thetaL a = Some (map Fin L) /\ a_thetaU a = Some (map Fin U) /\ Forall2 (fun l u => (0 < l <= u)%Q) L U /\
    (forall t, a_theta0 a = Some t -> List.length t = List.length L).
Lemma le0_fin q : le0 (Fin q) = false <-> (0 < q)%Q.
Proof. cbn. destruct (Qle_bool q 0) eqn:E; split; intros H; auto; try discriminate.
  - apply Qle_bool_iff in E. lra.
  - apply Qnot_le_lt. intros K. apply Qle_bool_iff in K. congruence. Qed.
Lemma lt_fin u l : lt (Fin u) (Fin l) = false <-> (l <= u)%Q.
Proof. cbn. rewrite negb_false_iff. apply Qle_bool_iff. Qed.
Lemma bounds_ok L : forall U, List.length L = List.length U ->
  existsb le0 (map Fin L) || existsb (fun ul => lt (fst ul) (snd ul)) (combine (map Fin U) (map Fin L)) = false <-> Forall2 (fun l u => (0 < l <= u)%Q) L U.
Proof.
  induction L as [|l L IH]; intros [|u U] H; try discriminate.
  - cbn. split; auto.
  - specialize (IH U ltac:(cbn in H; lia)). cbn [map combine existsb fst snd]. rewrite !orb_false_iff in *. rewrite le0_fin, lt_fin. split.
    + intros ((A & B) & (C & D)). constructor; [split; auto|]. apply IH. auto.
    + intros K. inversion K; subst. destruct IH as (_ & IH). specialize (IH H5). tauto.
Qed.
Lemma in_names s l : existsb (String.eqb s) l = true <-> In s l.
Proof. rewrite existsb_exists. split.
  - intros (x & I & E). apply String.eqb_eq in E. subst. auto.
  - intros I. exists s. split; auto. apply String.eqb_refl. Qed.
Lemma check_split g g1 : (g_corr g = Callable /\ g1 = g \/ exists s, g_corr g = Named s /\ existsb (String.eqb s) correlation_types = true /\ g1 = GP (g_mean g) Callable (g_theta0 g) (g_thetaL g) (g_thetaU g) (g_noise g) (g_mode g) (g_optimizer g)) ->
  check_params g = 
  if negb (List.length (g_thetaL g) =? List.length (g_thetaU g)) then Raise ValueError
  else if match g_theta0 g with Some t => negb (List.length t =? List.length (g_thetaL g)) | None => false end then Raise ValueError
  else if existsb le0 (g_thetaL g) || existsb (fun ul => lt (fst ul) (snd ul)) (combine (g_thetaU g) (g_thetaL g)) then Raise ValueError
  else if negb (existsb (String.eqb (g_optimizer g)) ["BFGS"%string; "CMA"%string]) then Raise ValueError
  else Ok g1.
Proof.
  unfold check_params. intros [(-> & ->) | (s & -> & -> & ->)]; reflexivity.
Qed.
Lemma construct_fields a g : construct a = Ok g ->
  g_corr g = a_corr a /\ g_theta0 g = a_theta0 a /\ a_thetaL a = Some (g_thetaL g) /\ a_thetaU a = Some (g_thetaU g) /\ g_optimizer g = a_optimizer a
  /\ g_mean g = match a_mean a with Some t => t | None => Basis (List.length (g_thetaU g)) 1 true end.
Proof.
  unfold construct. destruct (a_thetaL a) as [l|]; [|discriminate]. cbn [isfinite_all bind]. destruct (forallb finite l); [|discriminate]. cbn [bind].
  destruct (a_thetaU a) as [u|]; [|discriminate]. cbn [isfinite_all bind]. destruct (forallb finite u); [|discriminate]. cbn [negb].
  destruct (noise_var _) as [nv|]; [|discriminate]. cbn [bind]. destruct (truth nv); [|discriminate]. cbn [bind].
  destruct (existsb _ _); [|discriminate]. cbn [negb]. intros H. injection H as <-. cbn. auto 10.
Qed.
Theorem C232_accepts a g : construct a = Ok g -> ((exists g', check_params g = Ok g') <-> right_params a).
Proof.
  intros C. destruct (construct_fields _ _ C) as (E1 & E2 & E3 & E4 & E5 & _). destruct (C230_refuses_partial _ _ C) as ((L & U & HL & HU) & _).
  assert (GL : g_thetaL g = map Fin L) by congruence. assert (GU : g_thetaU g = map Fin U) by congruence.
  unfold right_params. rewrite <- E1, <- E2, <- E5, E3, E4.
  assert (KC : (exists g1, g_corr g = Callable /\ g1 = g \/ exists s, g_corr g = Named s /\ existsb (String.eqb s) correlation_types = true /\ g1 = GP (g_mean g) Callable (g_theta0 g) (g_thetaL g) (g_thetaU g) (g_noise g) (g_mode g) (g_optimizer g)) \/ ~ known_corr (g_corr g) /\ check_params g = Raise ValueError).
  { destruct (g_corr g) as [s|] eqn:EC.
    - destruct (existsb (String.eqb s) correlation_types) eqn:ES.
      + left. eexists. right. exists s. split; [reflexivity|]. split; auto.
      + right. split.
        * cbn [known_corr]. intros I. apply in_names in I. change (existsb (String.eqb s) correlation_types = true) in I. congruence.
        * unfold check_params. rewrite EC, ES. reflexivity.
    - left. exists g. left. auto. }
  destruct KC as [(g1 & K) | (NK & K)].
  - rewrite (check_split _ _ K). assert (KN : known_corr (g_corr g)) by (destruct K as [(-> & _) | (s & -> & I & _)]; [exact I | apply in_names; exact I]).
    rewrite GL, GU, !map_length.
    destruct (Nat.eqb_spec (List.length L) (List.length U)) as [EL|NL]; cbn [negb].
    + destruct (match g_theta0 g with Some t => negb (List.length t =? List.length L) | None => false end) eqn:E0.
      * split; [intros (? & ?); discriminate|]. intros (_ & _ & L' & U' & HL' & HU' & F & T). exfalso.
        destruct (g_theta0 g) as [t|]; [|discriminate]. specialize (T t eq_refl). apply negb_true_iff in E0. apply Nat.eqb_neq in E0.
        assert (List.length L' = List.length L). { assert (X : List.length (map Fin L) = List.length (map Fin L')) by congruence. rewrite !map_length in X. auto. } congruence.
      * destruct (existsb le0 _ || _) eqn:EB.
        -- split; [intros (? & ?); discriminate|]. intros (_ & _ & L' & U' & HL' & HU' & F & T). exfalso.
           assert (X : map Fin L = map Fin L') by congruence. assert (Y : map Fin U = map Fin U') by congruence. rewrite X, Y in EB.
           assert (LL : List.length L' = List.length U') by (clear - F; induction F; cbn; auto). apply (bounds_ok L' U' LL) in F. congruence.
        -- apply (bounds_ok L U EL) in EB.
           destruct (existsb (String.eqb (g_optimizer g)) _) eqn:EO; cbn [negb].
           ++ split; [|intros _; eexists; reflexivity]. intros _. split; auto. split.
              ** apply in_names in EO. cbn in EO. destruct EO as [<-|[<-|[]]]; auto.
              ** exists L, U. split; [reflexivity|]. split; [reflexivity|]. split; auto. intros t Ht. rewrite Ht in E0. apply negb_false_iff, Nat.eqb_eq in E0. auto.
           ++ split; [intros (? & ?); discriminate|]. intros (_ & O & _). exfalso. assert (In (g_optimizer g) ["BFGS"%string; "CMA"%string]) as I by (cbn; destruct O as [-> | ->]; auto).
              apply in_names in I. congruence.
    + split; [intros (? & ?); discriminate|]. intros (_ & _ & L' & U' & HL' & HU' & F & _). exfalso.
      assert (LL : List.length L' = List.length U') by (clear - F; induction F; cbn; auto).
      assert (X : List.length (map Fin L) = List.length (map Fin L')) by congruence. assert (Y : List.length (map Fin U) = List.length (map Fin U')) by congruence. rewrite !map_length in X, Y. lia.
  - rewrite K. split; [intros (? & ?); discriminate|]. intros (KN & _). contradiction.
Qed.
(** Otherwise ValueError, and no search is started. *)
Theorem C232_refuses {Data Theta} search fuel a g r c (d : Data) : construct a = Ok g -> ~ right_params a -> whole_fit (Theta := Theta) search fuel g r c d = Some (Raise ValueError).
Proof.
  intros C N. assert (K : check_params g = Raise ValueError).
  { destruct (check_params g) as [g'|e] eqn:E. { exfalso. apply N. apply (C232_accepts _ _ C). eauto. }
    unfold check_params in E. destruct (match g_corr g with Named _ => _ | Callable => _ end) as [h|e'] eqn:EH; cbn [bind] in E.
    - destruct (negb _); [congruence|]. destruct (match g_theta0 h with Some _ => _ | None => _ end); [congruence|]. destruct (_ || _); [congruence|]. destruct (negb _); congruence.
    - destruct (g_corr g); [|discriminate]. destruct (existsb _ _); congruence. }
  unfold whole_fit, check_data. rewrite K. reflexivity.
Qed.

(** ** C233: the starting point *)
(** theta0 may be negative or outside the bounds: no exception before the search, which starts at log10(theta0). *)
Theorem C233_start_refuted : exists a g g', construct a = Ok g /\ check_data g 3 1 = Ok g' /\ a_theta0 a = Some [Fin (-1)].
Proof.
  exists (call None (Named "matern") (Some [Fin (-1)]) [1 # 100]%Q [100]%Q (Scalar (1 # 1000000)) false "BFGS" "concentrated").
  eexists. eexists. split; [reflexivity|]. split; [reflexivity|]. reflexivity.
Qed.
(** Exactly the length is looked at. *)
Theorem C233_length_partial a g t : construct a = Ok g -> a_theta0 a = Some t -> (exists g', check_params g = Ok g') ->
  List.length t = List.length (g_thetaL g).
Proof.
  intros C T H. destruct (construct_fields _ _ C) as (_ & _ & E3 & _). apply (C232_accepts _ _ C) in H. destruct H as (_ & _ & L & U & HL & _ & _ & HT).
  rewrite (HT t T). assert (X : g_thetaL g = map Fin L) by congruence. rewrite X, map_length. reflexivity.
Qed.

(** ** C234: one correlation parameter for all features *)
Lemma check_keeps g g' : check_params g = Ok g' -> g_mean g' = g_mean g /\ g_mode g' = g_mode g /\ g_noise g' = g_noise g.
Proof.
  unfold check_params. destruct (g_corr g) as [s|]; [destruct (existsb _ _); [|discriminate]|]; cbn [bind];
  (destruct (negb (_ =? _)); [discriminate|]); (destruct (match _ with Some _ => _ | None => _ end); [discriminate|]); (destruct (_ || _); [discriminate|]); (destruct (negb _); [discriminate|]); intros H; injection H as <-; auto.
Qed.
(** Documented: bounds with one entry give an isotropic correlation.  With the default trend fit raises. *)
Theorem C234_isotropic_refuted {Data Theta} search fuel a g r c (d : Data) (L U : Q) : a_thetaL a = Some [Fin L] -> a_thetaU a = Some [Fin U] -> a_mean a = None -> right_params a ->
  construct a = Ok g -> 2 <= r -> 2 <= c -> whole_fit (Theta := Theta) search fuel g r c d = Some (Raise WrongSize).
Proof.
  intros HL HU HM RP C Hr Hc. destruct (construct_fields _ _ C) as (_ & _ & _ & E4 & _ & EM). rewrite HM in EM.
  assert (X : g_thetaU g = [Fin U]) by congruence. rewrite X in EM. apply (C232_accepts _ _ C) in RP as (g' & K). destruct (check_keeps _ _ K) as (M & _ & _).
  unfold whole_fit, check_data, trend_rows. rewrite K. cbn [bind]. rewrite M, EM. rewrite M, EM. cbn [List.length]. unfold check_input.
  destruct (Nat.eqb_spec c 1); [lia|]. destruct (Nat.eqb_spec r 1); [lia|]. reflexivity.
Qed.
(** With a trend made for the number of features, the search is started, whatever the number of correlation parameters. *)
Theorem C234_right_trend_partial {Data Theta} search fuel a g r c p b (d : Data) : a_mean a = Some (Basis c p b) -> right_params a -> construct a = Ok g -> p <= r ->
  whole_fit (Theta := Theta) search fuel g r c d = option_map Ok (fit Data Theta search fuel (made Theta (g_mode g) (hd 0%Q (g_noise g))) d).
Proof.
  intros HM RP C Hp. destruct (construct_fields _ _ C) as (_ & _ & _ & _ & _ & EM). rewrite HM in EM.
  apply (C232_accepts _ _ C) in RP as (g' & K). destruct (check_keeps _ _ K) as (M & M2 & M3).
  assert (D : check_data g r c = Ok g').
  { unfold check_data. rewrite K. cbn [bind]. rewrite M, EM. destruct b; [reflexivity|]. unfold check_input. rewrite Nat.eqb_refl. cbn [bind]. destruct (Nat.ltb_spec r p); [lia|]. reflexivity. }
  unfold whole_fit. rewrite D. unfold trend_rows. rewrite M, EM. unfold check_input. rewrite !Nat.eqb_refl. rewrite M2, M3. f_equal.
  generalize (made Theta (g_mode g) (hd 0%Q (g_noise g))). induction fuel as [|k IH]; intros s; [reflexivity|]. cbn [fit]. destruct (search _ _ _ _ _) as (th & [nv|]); [reflexivity|].
  destruct (st_mode _ s); apply IH.
Qed.

(** ** C235: a trend made for another number of features *)
(** If it happens to be the number of points, the points are taken for the features: fit neither raises nor returns. *)
Theorem C235_transposed_refuted {Data Theta} search fuel a g c n p b (d : Data) : a_mean a = Some (Basis n p b) -> right_params a -> construct a = Ok g -> c <> n -> p <= n ->
  whole_fit (Theta := Theta) search fuel g n c d = None.
Proof.
  intros HM RP C Hc Hp. destruct (construct_fields _ _ C) as (_ & _ & _ & _ & _ & EM). rewrite HM in EM.
  apply (C232_accepts _ _ C) in RP as (g' & K). destruct (check_keeps _ _ K) as (M & M2 & M3).
  assert (I : check_input n n c = Ok c). { unfold check_input. destruct (Nat.eqb_spec c n); [lia|]. rewrite Nat.eqb_refl. reflexivity. }
  assert (D : check_data g n c = Ok g').
  { unfold check_data. rewrite K. cbn [bind]. rewrite M, EM. destruct b; [reflexivity|]. rewrite I. cbn [bind]. destruct (Nat.ltb_spec n p); [lia|]. reflexivity. }
  unfold whole_fit. rewrite D. unfold trend_rows. rewrite M, EM, I. destruct (Nat.eqb_spec c n); [lia|]. 
  generalize (made Theta (g_mode g') (hd 0%Q (g_noise g'))). induction fuel as [|k IH]; intros s; [reflexivity|]. cbn [fit]. destruct (search _ _ _ _ _) as (th & o).
  destruct (st_mode _ s); apply IH.
Qed.
(** In all other cases fit raises. *)
Theorem C235_raises_partial {Data Theta} search fuel a g r c n p b (d : Data) : a_mean a = Some (Basis n p b) -> right_params a -> construct a = Ok g -> c <> n -> r <> n ->
  whole_fit (Theta := Theta) search fuel g r c d = Some (Raise WrongSize).
Proof.
  intros HM RP C Hc Hr. destruct (construct_fields _ _ C) as (_ & _ & _ & _ & _ & EM). rewrite HM in EM.
  apply (C232_accepts _ _ C) in RP as (g' & K). destruct (check_keeps _ _ K) as (M & M2 & M3).
  assert (I : check_input n r c = Raise WrongSize). { unfold check_input. destruct (Nat.eqb_spec c n); [lia|]. destruct (Nat.eqb_spec r n); [lia|]. reflexivity. }
  unfold whole_fit, check_data, trend_rows. rewrite K. cbn [bind]. rewrite M, EM. destruct b; [rewrite M, EM|]; rewrite I; reflexivity.
Qed.

(** ** C236: refitting *)
Section Refit.
Variable (Data Theta : Type) (search : mode -> Q -> option Theta -> Data -> nat -> Theta * option Q).
Local Notation fit := (fit Data Theta search).
Local Notation fits := (fits Data Theta search).
Definition small : Q := 1 # 100000.

Lemma fit_noisy d fuel : forall s s', st_mode _ s = Noisy -> fit fuel s d = Some s' ->
  st_mode _ s' = Noisy /\ exists k, st_rejected _ s' = st_rejected _ s + k /\ (st_noise _ s' == st_noise _ s * 10 ^ Z.of_nat k)%Q.
Proof.
  induction fuel as [|f IH]; intros s s' M H; [discriminate|]. cbn [Model_GPSetup.fit] in H. rewrite M in H. destruct (search _ _ _ _ _) as (th & [nv|]).
  - injection H as <-. cbn [st_mode st_noise st_rejected]. split; auto. exists 0. split; [lia|]. cbn. ring.
  - pose proof (fun P => IH _ _ P H) as K. destruct (K eq_refl) as (A & k & B & C). clear K. split; auto. exists (S k). cbn [st_noise st_rejected] in *. split; [lia|]. rewrite C. rewrite Nat2Z.inj_succ, <- Z.add_1_r, Qpower_plus; [|discriminate]. cbn. ring.
Qed.
Lemma fits_noisy l : forall s s', st_mode _ s = Noisy -> fits s l = Some s' ->
  st_mode _ s' = Noisy /\ exists k, st_rejected _ s' = st_rejected _ s + k /\ (st_noise _ s' == st_noise _ s * 10 ^ Z.of_nat k)%Q.
Proof.
  induction l as [|(f & d) l IH]; intros s s' M H; cbn [Model_GPSetup.fits] in H.
  - injection H as <-. split; auto. exists 0. split; [lia|]. cbn. ring.
  - destruct (fit f s d) as [s1|] eqn:E; [|discriminate]. destruct (fit_noisy _ _ _ _ M E) as (M1 & k & R & N). destruct (IH _ _ M1 H) as (M2 & k2 & R2 & N2). split; auto.
    exists (k + k2). split; [lia|]. rewrite N2, N. rewrite Nat2Z.inj_add, Qpower_plus; [|discriminate]. ring.
Qed.
(** A model made with a nugget: its noise is the nugget times ten for each rejected attempt of all fits so far. *)
Theorem C236_noise_partial q l s : fits (made Theta Noisy q) l = Some s -> st_mode _ s = Noisy /\ (st_noise _ s == q * 10 ^ Z.of_nat (st_rejected _ s))%Q.
Proof. intros H. destruct (fits_noisy l (made Theta Noisy q) s eq_refl H) as (M & k & R & N). split; auto. cbn in R. subst k. exact N. Qed.
(** A model without noise that once met data with a rejected likelihood has noise in all later fits, to any data. *)
Theorem C236_forever_refuted fuel d l s : snd (search Noiseless 0 None d 0) = None -> fits (made Theta Noiseless 0) ((fuel, d) :: l) = Some s ->
  st_mode _ s = Noisy /\ (small <= st_noise _ s)%Q.
Proof.
  intros R H. cbn [Model_GPSetup.fits] in H. destruct fuel as [|f]; [discriminate|]. cbn [Model_GPSetup.fit made st_mode st_noise st_theta st_clock st_rejected] in H.
  destruct (search Noiseless 0 None d 0) as (th & o). cbn in R. subst o.
  destruct (fit f _ d) as [s1|] eqn:E; [|discriminate]. destruct (fit_noisy _ _ (St _ Noisy (1 # 100000) None 1 1) _ eq_refl E) as (M1 & k & _ & N). destruct (fits_noisy _ _ _ M1 H) as (M2 & k2 & _ & N2). split; auto.
  cbn [st_noise] in N. rewrite N2, N, <- Qmult_assoc, <- Qpower_plus, <- Nat2Z.inj_add; [|discriminate]. unfold small.
  assert (G : forall j : nat, (1 <= 10 ^ Z.of_nat j)%Q). { induction j as [|j IH]; [discriminate|]. rewrite Nat2Z.inj_succ, <- Z.add_1_r, Qpower_plus; [|discriminate]. change (10 ^ 1)%Q with 10%Q. lra. }
  specialize (G (k + k2)). lra.
Qed.
(** Without rejected attempts the mode and the known noise stay as they were made. *)
Lemma rejected_grows d fuel : forall s s', fit fuel s d = Some s' -> st_rejected _ s <= st_rejected _ s' /\
  (st_rejected _ s' = st_rejected _ s -> st_mode _ s' = st_mode _ s /\ (st_mode _ s = Noisy -> st_noise _ s' = st_noise _ s) /\ (st_mode _ s = Noiseless -> st_noise _ s' = 0%Q)).
Proof.
  induction fuel as [|f IH]; intros s s' H; [discriminate|]. cbn [Model_GPSetup.fit] in H. destruct (search _ _ _ _ _) as (th & [nv|]).
  - injection H as <-. cbn [st_mode st_noise st_rejected]. split; auto. intros _. split; auto. destruct (st_mode _ s); split; intros; try discriminate; auto.
  - destruct (st_mode _ s); destruct (IH _ _ H) as (A & _); cbn [st_rejected] in A; (split; [lia|intros; lia]).
Qed.
Theorem C236_no_rejection_partial m q l s : (m = Noiseless -> q = 0%Q) -> fits (made Theta m q) l = Some s -> st_rejected _ s = 0 ->
  st_mode _ s = m /\ (m <> NoiseEstim -> st_noise _ s = q).
Proof.
  intros Hq H R0. assert (G : forall l s0 s, fits s0 l = Some s -> st_rejected _ s0 <= st_rejected _ s /\ (st_rejected _ s = st_rejected _ s0 -> st_mode _ s = st_mode _ s0 /\ (st_mode _ s0 = Noisy -> st_noise _ s = st_noise _ s0) /\ (st_mode _ s0 = Noiseless -> st_noise _ s0 = 0%Q -> st_noise _ s = 0%Q))).
  { clear. induction l as [|(f & d) l IH]; intros s0 s H; cbn [Model_GPSetup.fits] in H.
    - injection H as <-. split; auto.
    - destruct (fit f s0 d) as [s1|] eqn:E; [|discriminate]. destruct (rejected_grows _ _ _ _ E) as (A & B). destruct (IH _ _ H) as (A' & B'). split; [lia|].
      intros EQ. destruct B as (B1 & B2 & B3); [lia|]. destruct B' as (C1 & C2 & C3); [lia|]. split; [congruence|]. split; intros M.
      + rewrite C2; [auto|congruence].
      + intros _. apply C3; [congruence|auto]. }
  destruct (G _ _ _ H) as (_ & K). destruct K as (K1 & K2 & K3); [exact R0|]. cbn [made st_mode st_noise] in *. split; auto. intros NE. destruct m; [|contradiction|auto].
  rewrite (Hq eq_refl). apply K3; auto.
Qed.
End Refit.

(** ** C237: a failed fit *)
Theorem C237_failed_refuted n r c g e : check_data g r c = Raise e -> r <> n ->
  predict (refit (Sizes n (Some n)) r (Raise e)) = Raise ValueError /\ predict (Sizes n (Some n)) = Ok tt.
Proof. intros _ H. cbn. destruct (Nat.eqb_spec r n); [lia|]. rewrite Nat.eqb_refl. auto. Qed.
Theorem C237_completed_partial s r : predict (refit s r (Ok tt)) = Ok tt.
Proof. cbn. rewrite Nat.eqb_refl. reflexivity. Qed.

(** ** C238: bounds of the length scales *)
(** Length scale i has the bounds of its pair, or of the only pair, times the width of the range of variable i. *)
Definition widths (pair : nat -> Q * Q) (bounds out : list (Q * Q)) : Prop :=
  List.length out = List.length bounds /\
  forall i, i < List.length bounds -> let b := nth i bounds (0%Q, 0%Q) in let o := nth i out (0%Q, 0%Q) in
    (fst o == fst (pair i) * (snd b - fst b))%Q /\ (snd o == snd (pair i) * (snd b - fst b))%Q.
Lemma widths_map pairs bounds : List.length pairs = List.length bounds ->
  widths (fun i => nth i pairs (0%Q, 0%Q)) bounds (map (fun pb => scale_pair (fst pb) (snd pb)) (combine pairs bounds)).
Proof.
  intros E. split; [rewrite map_length, combine_length; lia|]. intros i Hi. cbn zeta.
  assert (X : nth i (map (fun pb => scale_pair (fst pb) (snd pb)) (combine pairs bounds)) (0%Q, 0%Q) = scale_pair (nth i pairs (0%Q, 0%Q)) (nth i bounds (0%Q, 0%Q))).
  { revert bounds E i Hi. induction pairs as [|p P IH]; intros [|b B] E i Hi; cbn in E; try lia; [cbn in Hi; lia|]. destruct i; [reflexivity|]. cbn. apply IH; cbn in Hi; lia. }
  rewrite X. unfold scale_pair. cbn [fst snd]. split; ring.
Qed.
Theorem C238_one_pair_partial p bounds : exists out, length_scale_bounds [p] bounds = Ok out /\ widths (fun _ => p) bounds out.
Proof.
  unfold length_scale_bounds. rewrite repeat_length, Nat.eqb_refl. eexists. split; [reflexivity|].
  destruct (widths_map (repeat p (List.length bounds)) bounds) as (A & B); [apply repeat_length|]. split; auto. intros i Hi. specialize (B i Hi). cbn zeta in *. 
  assert (N : nth i (repeat p (List.length bounds)) (0%Q, 0%Q) = p). { clear -Hi. revert i Hi. induction (List.length bounds) as [|k IH]; intros i Hi; [lia|]. destruct i; cbn; auto. apply IH. lia. }
  rewrite N in B. exact B.
Qed.
Theorem C238_pairs_partial pairs bounds : 2 <= List.length bounds -> 2 <= List.length pairs ->
  match length_scale_bounds pairs bounds with
  | Ok out => List.length pairs = List.length bounds /\ widths (fun i => nth i pairs (0%Q, 0%Q)) bounds out
  | Raise e => List.length pairs <> List.length bounds
  end.
Proof.
  intros Hb Hp. destruct pairs as [|p1 [|p2 pairs]]; cbn in Hp; try lia. destruct bounds as [|b1 [|b2 bounds]]; cbn in Hb; try lia. unfold length_scale_bounds.
  destruct (Nat.eqb_spec (List.length (p1 :: p2 :: pairs)) (List.length (b1 :: b2 :: bounds))) as [E|E].
  - split; auto. apply (widths_map (p1 :: p2 :: pairs) (b1 :: b2 :: bounds) E).
  - exact E.
Qed.
(** With one variable any number of pairs is accepted and kept. *)
Theorem C238_one_variable_refuted b p1 p2 l : exists out, length_scale_bounds (p1 :: p2 :: l) [b] = Ok out /\ List.length out = S (S (List.length l)).
Proof. eexists. split; [reflexivity|]. cbn. rewrite map_length. reflexivity. Qed.

(** ** C239: one model for each objective *)
Theorem C239_columns dim n_obj columns y_columns :
  match columns_fitted dim n_obj columns y_columns with
  | Ok l => columns = dim /\ match y_columns with None => n_obj = 1 /\ l = [None] | Some k => n_obj = k /\ l = map Some (seq 0 k) end
  | Raise e => e = ValueError /\ (columns <> dim \/ match y_columns with None => n_obj <> 1 | Some k => n_obj <> k end)
  end.
Proof.
  unfold columns_fitted, check_dims. destruct (Nat.eqb_spec dim columns) as [->|N]; cbn [negb]; [|cbn; auto].
  destruct y_columns as [k|].
  - destruct (Nat.eqb_spec n_obj k) as [->|N]; cbn; auto.
  - destruct (Nat.eqb_spec n_obj 1) as [->|N]; cbn; auto.
Qed.

(** ** Cases that meet the hypotheses *)
Definition typical : args := call None (Named "squared_exponential") None [1 # 100; 1 # 100]%Q [100; 100]%Q (Scalar 0) false "BFGS" "concentrated".
Example typical_right : right_params typical.
Proof. split; [cbn; auto|]. split; [auto|]. exists [1 # 100; 1 # 100]%Q, [100; 100]%Q. split; [reflexivity|]. split; [reflexivity|]. split; [repeat constructor; cbn; discriminate|]. discriminate. Qed.
Example typical_made : exists g, construct typical = Ok g /\ g_mode g = Noiseless /\ exists g', check_data g 5 2 = Ok g'.
Proof. eexists. split; [reflexivity|]. split; [reflexivity|]. eexists. reflexivity. Qed.
Example default_call : construct (Args None (Named "squared_exponential") (Some [Fin (1 # 10)]) None None (Scalar (1 # 1000000)) false "BFGS" "concentrated") = Raise TypeError.
Proof. reflexivity. Qed.
Example reversed_bounds : ~ right_params (call None (Named "matern") None [2]%Q [1]%Q (Scalar 0) false "BFGS" "concentrated").
Proof. intros (_ & _ & L & U & HL & HU & F & _). destruct L as [|l [|]]; try discriminate. destruct U as [|u [|]]; try discriminate. cbn in HL, HU. assert (l = 2%Q) by congruence. assert (u = 1%Q) by congruence. subst. inversion F; subst. lra. Qed.
Example isotropic_right : let a := call None (Named "matern") None [1 # 100]%Q [100]%Q (Scalar 0) false "BFGS" "concentrated" in right_params a /\ a_thetaL a = Some [Fin (1 # 100)] /\ exists g, construct a = Ok g.
Proof. cbn zeta. split; [|split; [reflexivity|eexists; reflexivity]]. split; [cbn; auto 10|]. split; [auto|]. exists [1 # 100]%Q, [100]%Q. split; [reflexivity|]. split; [reflexivity|]. split; [repeat constructor; cbn; discriminate|]. discriminate. Qed.
Example wrong_trend : let a := call (Some (Basis 10 1 false)) (Named "matern") None [1 # 100; 1 # 100]%Q [100; 100]%Q (Scalar 0) false "BFGS" "concentrated" in right_params a /\ exists g, construct a = Ok g.
Proof. cbn zeta. split; [|eexists; reflexivity]. split; [cbn; auto 10|]. split; [auto|]. exists [1 # 100; 1 # 100]%Q, [100; 100]%Q. split; [reflexivity|]. split; [reflexivity|]. split; [repeat constructor; cbn; discriminate|]. discriminate. Qed.
(** The data set 0 has a likelihood that is rejected without noise (small observations, C181), the data set 1 has not. *)
Definition rejects_small (m : mode) (noise : Q) (_ : option nat) (d i : nat) : nat * option Q :=
  (i, match m, d with Noiseless, 0 => None | _, _ => Some noise end).
Example history_matters :
  option_map (st_mode nat) (fits nat nat rejects_small (made nat Noiseless 0) [(5, 0); (5, 1)]) = Some Noisy /\
  option_map (st_mode nat) (fits nat nat rejects_small (made nat Noiseless 0) [(5, 1)]) = Some Noiseless.
Proof. split; reflexivity. Qed.
Example no_rejection : exists s, fits nat nat rejects_small (made nat Noiseless 0) [(5, 1); (1, 2)] = Some s /\ st_rejected nat s = 0.
Proof. eexists. split; reflexivity. Qed.
Example failed_refit : check_data (GP (Basis 2 3 false) Callable None [Fin 1; Fin 1] [Fin 2; Fin 2] [0%Q] Noiseless "BFGS") 2 2 = Raise Undetermined.
Proof. reflexivity. Qed.
Example scales : length_scale_bounds [((1 # 10)%Q, 10%Q)] [(0%Q, 2%Q); ((-1)%Q, 1%Q)] = Ok [(((1 # 10) * (2 - 0))%Q, (10 * (2 - 0))%Q); (((1 # 10) * (1 - -1))%Q, (10 * (1 - -1))%Q)].
Proof. reflexivity. Qed.

Print Assumptions C230_no_bounds_refuted.
Print Assumptions C230_bounds_partial.
Print Assumptions C230_refuses_partial.
Print Assumptions C231_array_refuted.
Print Assumptions C231_one_partial.
Print Assumptions C232_accepts.
Print Assumptions C232_refuses.
Print Assumptions C233_start_refuted.
Print Assumptions C233_length_partial.
Print Assumptions C234_isotropic_refuted.
Print Assumptions C234_right_trend_partial.
Print Assumptions C235_transposed_refuted.
Print Assumptions C235_raises_partial.
Print Assumptions C236_noise_partial.
Print Assumptions C236_forever_refuted.
Print Assumptions C236_no_rejection_partial.
Print Assumptions C237_failed_refuted.
Print Assumptions C237_completed_partial.
Print Assumptions C238_one_pair_partial.
Print Assumptions C238_pairs_partial.
Print Assumptions C238_one_variable_refuted.
Print Assumptions C239_columns.
