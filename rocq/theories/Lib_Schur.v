(** Products, exponentials and fractional powers in the exponent of positive semi-definite matrices. *)
From Coq Require Import Reals Lra Lia List Arith.
From Coquelicot Require Import Coquelicot.
From Verif Require Import Lib_Normal Lib_Sum Spec_Psd Lib_Psd Lib_Mixture.
Import ListNotations.
Open Scope R_scope.

Definition symm (n : nat) (K : nat -> nat -> R) : Prop := forall i j, (i < n)%nat -> (j < n)%nat -> K i j = K j i.

Lemma form_S n K c : form (S n) K c = form n K c + c n * sumn n (fun i => c i * K i n) + c n * sumn n (fun j => c j * K n j) + c n * c n * K n n.
Proof.
  unfold form. rewrite sumn_S. rewrite (sumn_S n (fun j => c n * c j * K n j)).
  rewrite (sumn_ext n (fun i => sumn (S n) (fun j => c i * c j * K i j)) (fun i => sumn n (fun j => c i * c j * K i j) + c n * (c i * K i n))) by (intros i _; rewrite sumn_S; ring).
  rewrite sumn_plus, sumn_scal. rewrite <- (sumn_scal n (c n) (fun j => c j * K n j)). rewrite (sumn_ext n (fun j => c n * c j * K n j) (fun j => c n * (c j * K n j))) by (intros; ring). ring.
Qed.
Lemma form_last n K c s : symm (S n) K -> form (S n) K (fun k => if (k =? n)%nat then s else c k) = form n K c + 2 * s * sumn n (fun i => c i * K i n) + s * s * K n n.
Proof.
  intros SY. rewrite form_S. rewrite Nat.eqb_refl.
  assert (Z : forall k, (k < n)%nat -> (k =? n)%nat = false) by (intros k Hk; apply Nat.eqb_neq; lia).
  replace (form n K (fun k => if (k =? n)%nat then s else c k)) with (form n K c).
  2:{ unfold form. apply sumn_ext. intros i Hi. apply sumn_ext. intros j Hj. now rewrite !Z. }
  rewrite (sumn_ext n (fun i => (if (i =? n)%nat then s else c i) * K i n) (fun i => c i * K i n)) by (intros i Hi; now rewrite Z).
  rewrite (sumn_ext n (fun j => (if (j =? n)%nat then s else c j) * K n j) (fun i => c i * K i n)) by (intros i Hi; rewrite Z by auto; rewrite (SY n i) by lia; reflexivity).
  ring.
Qed.

(** Every positive semi-definite matrix is a sum of products of features. *)
Lemma semi_gram n : forall K, symm n K -> semidefinite n K -> exists G, gram G /\ forall i j, (i < n)%nat -> (j < n)%nat -> K i j = G i j.
Proof.
  induction n as [|n IH]; intros K SY S.
  - exists (fun _ _ => 0). split; [apply gram_const; lra|]. intros; lia.
  - assert (Q : forall c s, 0 <= form n K c + 2 * s * sumn n (fun i => c i * K i n) + s * s * K n n) by (intros c s; rewrite <- form_last by exact SY; apply S).
    assert (D0 : 0 <= K n n).
    { specialize (Q (fun _ => 0) 1). cbv beta in Q. assert (Z : sumn n (fun i => 0 * K i n) = 0) by (rewrite sumn_scal; ring). rewrite Z in Q.
      assert (Z2 : form n K (fun _ => 0) = 0). { unfold form. rewrite (sumn_ext n _ (fun i => 0 * 0)); [rewrite sumn_scal; ring|]. intros i _. rewrite (sumn_ext n _ (fun j => 0 * K i j)) by (intros; ring). rewrite sumn_scal. ring. }
      rewrite Z2 in Q. lra. }
    destruct (Rle_lt_or_eq_dec 0 (K n n) D0) as [P|Z].
    + set (f := fun i => K i n / sqrt (K n n)).
      assert (SP : 0 < sqrt (K n n)) by (apply sqrt_lt_R0, P). assert (SS := sqrt_sqrt (K n n) D0).
      destruct (IH (fun i j => K i j - f i * f j)) as (G & GG & EG).
      * intros i j Hi Hj. rewrite (SY i j) by lia. ring.
      * intros c. specialize (Q c (- sumn n (fun i => c i * K i n) / K n n)).
        rewrite (form_ext n _ (fun i j => K i j + -1 * (f i * f j)) c) by (intros; ring). rewrite form_plus, form_scal.
        assert (F1 : form n (fun i j => f i * f j) c = sumn n (fun i => c i * K i n) * sumn n (fun i => c i * K i n) / K n n).
        { unfold form. rewrite (sumn_ext n _ (fun i => (c i * K i n) * (sumn n (fun j => c j * K j n) / K n n))).
          - rewrite sumn_scal_r. unfold Rdiv. ring.
          - intros i _. rewrite (sumn_ext n _ (fun j => (c i * K i n / K n n) * (c j * K j n))).
            + rewrite sumn_scal. unfold Rdiv. ring.
            + intros j _. unfold f. rewrite <- SS at 3. field. lra. }
        rewrite F1. replace (form n K c + -1 * (sumn n (fun i => c i * K i n) * sumn n (fun i => c i * K i n) / K n n))
          with (form n K c + 2 * (- sumn n (fun i => c i * K i n) / K n n) * sumn n (fun i => c i * K i n) + (- sumn n (fun i => c i * K i n) / K n n) * (- sumn n (fun i => c i * K i n) / K n n) * K n n); [exact Q|]. field. lra.
      * exists (fun i j => (if (i =? n)%nat then 0 else 1) * (if (j =? n)%nat then 0 else 1) * G i j + f i * f j). split.
        { apply gram_plus; [|apply gram_feature]. apply (gram_mult (fun i j => (if (i =? n)%nat then 0 else 1) * (if (j =? n)%nat then 0 else 1))); [apply (gram_feature (fun i => if (i =? n)%nat then 0 else 1))|exact GG]. }
        intros i j Hi Hj. assert (FN : forall i, f i * f n = K i n).
        { intros l. unfold f. transitivity (K l n * (K n n / (sqrt (K n n) * sqrt (K n n)))); [field; lra|]. rewrite SS. field. lra. }
        destruct (Nat.eqb_spec j n) as [->|Nj].
        { rewrite FN. ring. }
        destruct (Nat.eqb_spec i n) as [->|Ni].
        { rewrite Rmult_comm with (r1 := f n). rewrite FN. rewrite (SY n j) by lia. ring. }
        rewrite <- EG by lia. ring.
    + assert (B : forall c, sumn n (fun i => c i * K i n) = 0).
      { intros c. set (b := sumn n (fun i => c i * K i n)). destruct (Req_dec b 0) as [E|N]; auto. exfalso.
        specialize (Q c (- (form n K c + 1) / (2 * b))). fold b in Q. rewrite <- Z in Q. replace (form n K c + 2 * (- (form n K c + 1) / (2 * b)) * b + - (form n K c + 1) / (2 * b) * (- (form n K c + 1) / (2 * b)) * 0) with (-1) in Q by (field; exact N). lra. }
      destruct (IH K) as (G & GG & EG).
      * intros i j Hi Hj. apply SY; lia.
      * intros c. specialize (Q c 0). lra.
      * exists (fun i j => (if (i =? n)%nat then 0 else 1) * (if (j =? n)%nat then 0 else 1) * G i j). split.
        { apply (gram_mult (fun i j => (if (i =? n)%nat then 0 else 1) * (if (j =? n)%nat then 0 else 1))); [apply (gram_feature (fun i => if (i =? n)%nat then 0 else 1))|exact GG]. }
        assert (KN : forall i, (i < n)%nat -> K i n = 0) by (intros i Hi; rewrite <- (B (identity i)); symmetry; exact (sumn_identity n (fun k => K k n) i Hi)).
        intros i j Hi Hj. destruct (Nat.eqb_spec j n) as [->|Nj].
        { destruct (Nat.eq_dec i n) as [->|Ni]; [rewrite <- Z; ring|]. rewrite KN by lia. ring. }
        destruct (Nat.eqb_spec i n) as [->|Ni]; [rewrite SY, KN by lia; ring|]. rewrite <- EG by lia. ring.
Qed.
(** Schur's product theorem and the exponential of the entries. *)
Lemma semi_mult n K L : symm n K -> symm n L -> semidefinite n K -> semidefinite n L -> semidefinite n (fun i j => K i j * L i j).
Proof.
  intros SK SL PK PL. destruct (semi_gram n K SK PK) as (G & GG & EG). destruct (semi_gram n L SL PL) as (H & HH & EH).
  apply (semi_ext n (fun i j => G i j * H i j)); [intros i j Hi Hj; now rewrite EG, EH|]. apply gram_semi, gram_mult; assumption.
Qed.
Lemma semi_exp n K : symm n K -> semidefinite n K -> semidefinite n (fun i j => exp (K i j)).
Proof.
  intros SK PK. destruct (semi_gram n K SK PK) as (G & GG & EG).
  apply (semi_ext n (fun i j => exp (G i j))); [intros i j Hi Hj; now rewrite EG|]. now apply gram_exp.
Qed.

(** ** Fractional powers: x^q is a mixture of 1 - exp (- s x). *)
Section Power.
  Variable q : R.
  Hypothesis Hq : 0 < q < 1.
  Definition wt (s : R) : R := exp (- (q + 1) * ln s).
  Definition W (t : R) : R := (1 - exp (- t)) * wt t.
  Definition powq (x : R) : R := if Req_EM_T x 0 then 0 else exp (q * ln x).

  Lemma wt_pos s : 0 < wt s. Proof. apply exp_pos. Qed.
  Lemma W_pos t : 0 < t -> 0 < W t.
  Proof. intros H. unfold W. apply Rmult_lt_0_compat; [|apply wt_pos]. assert (exp (- t) < exp 0) by (apply exp_increasing; lra). rewrite exp_0 in *. lra. Qed.
  Lemma W_cont t : 0 < t -> continuous W t.
  Proof. intros H. apply (ex_derive_continuous W). unfold W, wt. auto_derive. lra. Qed.
  Lemma E_cont x t : 0 < t -> continuous (fun s => exp (- (s * x)) * wt s) t.
  Proof. intros H. apply (ex_derive_continuous (fun s => exp (- (s * x)) * wt s)). unfold wt. auto_derive. lra. Qed.
  Lemma ex_int (g : R -> R) (a b : R) : 0 < a -> 0 < b -> (forall t, 0 < t -> continuous g t) -> ex_RInt g a b.
  Proof. intros A B C. apply (ex_RInt_continuous (V := R_CompleteNormedModule)). intros z (Z1 & Z2). apply C. unfold Rmin in Z1. destruct Rle_dec; lra. Qed.
  Lemma int_derive (g : R -> R) (a u : R) : 0 < a -> 0 < u -> (forall t, 0 < t -> continuous g t) -> is_derive (fun u => RInt g a u) u (g u).
  Proof.
    intros A U C. apply (is_derive_RInt g (fun u => RInt g a u) a u); [|apply C, U].
    exists (mkposreal u U). intros z Hz. apply (RInt_correct (V := R_CompleteNormedModule)). apply ex_int; auto.
    apply Rabs_def2 in Hz. unfold minus, plus, opp in Hz. simpl in Hz. lra.
  Qed.

  Definition Gn (N : nat) : R := RInt W (dn N) (up N).
  Lemma up_pos N : 0 < up N. Proof. pose proof (up_ge N). lra. Qed.
  Lemma W_sub a' a b b' : 0 < a' -> a' <= a -> a <= b -> b <= b' -> RInt W a b <= RInt W a' b'.
  Proof.
    intros P A B C.
    assert (X : forall u v, 0 < u -> u <= v -> 0 <= RInt W u v).
    { intros u v Hu Hv. apply RInt_ge_0; [exact Hv|apply ex_int; try lra; apply W_cont|]. intros z Hz. left. apply W_pos. lra. }
    assert (E : forall u v, 0 < u -> 0 < v -> ex_RInt W u v) by (intros; apply ex_int; auto; apply W_cont).
    rewrite <- (RInt_Chasles W a' a b') by (apply E; lra). rewrite <- (RInt_Chasles W a b b') by (apply E; lra). unfold plus. simpl.
    pose proof (X a' a P A). assert (0 <= RInt W b b') by (apply X; lra). lra.
  Qed.
  Lemma one_minus t : 1 - exp (- t) <= t.
  Proof. pose proof (exp_ineq1_le (- t)). lra. Qed.
  Lemma Gn_bound N : Gn N <= / (1 - q) + / q.
  Proof.
    unfold Gn. pose proof (dn_bounds N) as D. pose proof (up_ge N) as U.
    rewrite <- (RInt_Chasles W (dn N) 1 (up N)) by (apply ex_int; try lra; apply W_cont). unfold plus. simpl. apply Rplus_le_compat.
    - assert (R := rising (fun u => exp ((1 - q) * ln u) / (1 - q) - RInt W (dn N) u) (fun u => u * wt u - W u) (dn N) 1). cbv beta in R.
      rewrite RInt_point, ln_1, Rmult_0_r, exp_0 in R. unfold zero in R. simpl in R.
      assert (H : exp ((1 - q) * ln (dn N)) / (1 - q) - 0 <= 1 / (1 - q) - RInt W (dn N) 1).
      { apply R; try lra.
        - intros u Hu. apply (is_derive_minus (fun u => exp ((1 - q) * ln u) / (1 - q)) (fun u => RInt W (dn N) u)); [|apply int_derive; try lra; apply W_cont].
          auto_derive; [lra|]. unfold wt. replace ((1 - q) * ln u) with (- (q + 1) * ln u + (ln u + ln u)) by ring. rewrite !exp_plus, exp_ln by lra. field. lra.
        - intros u Hu. unfold W. pose proof (one_minus u). pose proof (wt_pos u). nra. }
      assert (0 < exp ((1 - q) * ln (dn N)) / (1 - q)) by (apply Rdiv_lt_0_compat; [apply exp_pos|lra]). unfold Rdiv in H. lra.
    - assert (R := rising (fun u => - (exp (- q * ln u) / q) - RInt W 1 u) (fun u => wt u - W u) 1 (up N)). cbv beta in R.
      rewrite RInt_point, ln_1, Rmult_0_r, exp_0 in R. unfold zero in R. simpl in R.
      assert (H : - (1 / q) - 0 <= - (exp (- q * ln (up N)) / q) - RInt W 1 (up N)).
      { apply R; try lra.
        - intros u Hu. apply (is_derive_minus (fun u => - (exp (- q * ln u) / q)) (fun u => RInt W 1 u)); [|apply int_derive; try lra; apply W_cont].
          auto_derive; [lra|]. unfold wt. replace (- q * ln u) with (- (q + 1) * ln u + ln u) by ring. rewrite !exp_plus, exp_ln by lra. field. lra.
        - intros u Hu. unfold W. pose proof (exp_pos (- u)). pose proof (wt_pos u). nra. }
      assert (0 < exp (- q * ln (up N)) / q) by (apply Rdiv_lt_0_compat; [apply exp_pos|lra]). unfold Rdiv in H. lra.
  Qed.
  Lemma dn_le M N : (M <= N)%nat -> dn N <= dn M /\ up M <= up N.
  Proof. intros H. assert (up M <= up N) by (unfold up; apply le_INR in H; lra). split; auto. unfold dn. apply Rinv_le_contravar; auto. apply up_pos. Qed.
  Lemma dn_up N : dn N <= up N. Proof. pose proof (dn_bounds N). pose proof (up_ge N). lra. Qed.
  Lemma Gn_mono M N : (M <= N)%nat -> Gn M <= Gn N.
  Proof. intros H. destruct (dn_le M N H). apply W_sub; auto; [apply dn_bounds|apply dn_up]. Qed.
  Lemma total : exists C : R, 0 < C /\ is_lim_seq Gn C /\ forall N, Gn N <= C.
  Proof.
    destruct (ex_finite_lim_seq_incr Gn (/ (1 - q) + / q)) as (C & HC); [intros N; apply Gn_mono; lia|apply Gn_bound|].
    assert (B : forall N, Gn N <= C) by (intros N; apply (is_lim_seq_incr_compare Gn C HC); intros; apply Gn_mono; lia).
    exists C. repeat split; auto. apply Rlt_le_trans with (Gn 1); auto. unfold Gn. assert (dn 1 = / 2 /\ up 1 = 2) as (E1 & E2) by (unfold dn, up; simpl; split; [f_equal|]; lra).
    rewrite E1, E2. apply RInt_gt_0; [lra| |]; intros z Hz; [apply W_pos; lra|apply W_cont; lra].
  Qed.
  Lemma scaled_lim C x : is_lim_seq Gn (Finite C) -> (forall N, Gn N <= C) -> 0 < x -> is_lim_seq (fun N => RInt W (x * dn N) (x * up N)) C.
  Proof.
    intros L B X. apply is_lim_seq_spec. intros e. pose proof L as L'. apply is_lim_seq_spec in L'. destruct (L' e) as (M & HM). specialize (HM M (le_n M)). apply Rabs_def2 in HM.
    destruct (up_beyond (up M / x)) as (N1 & H1). destruct (up_beyond (up M * x)) as (N2 & H2). exists (max N1 N2). intros N HN.
    specialize (H1 N ltac:(lia)). specialize (H2 N ltac:(lia)). pose proof (up_pos N) as PN. pose proof (up_pos M) as PM. pose proof (dn_bounds N) as DN. pose proof (dn_bounds M) as DM.
    assert (A1 : up M <= x * up N) by (apply Rmult_lt_compat_l with (r := x) in H1; [|lra]; replace (x * (up M / x)) with (up M) in H1 by (field; lra); lra).
    assert (A2 : x * dn N <= dn M).
    { unfold dn. apply Rmult_le_reg_r with (up N * up M); [nra|]. replace (x * / up N * (up N * up M)) with (up M * x) by (field; lra). replace (/ up M * (up N * up M)) with (up N) by (field; lra). lra. }
    assert (LO : Gn M <= RInt W (x * dn N) (x * up N)) by (apply W_sub; [apply Rmult_lt_0_compat; lra|lra|apply dn_up|lra]).
    assert (UP : RInt W (x * dn N) (x * up N) <= C).
    { destruct (up_beyond (x * up N)) as (K1 & G1). destruct (up_beyond (up N / x)) as (K2 & G2). set (K := max K1 K2). specialize (G1 K ltac:(lia)). specialize (G2 K ltac:(lia)).
      apply Rle_trans with (Gn K); auto. apply W_sub; [apply dn_bounds| |pose proof (dn_up N); nra|lra].
      pose proof (up_pos K). unfold dn. apply Rmult_le_reg_r with (up N * up K); [nra|]. replace (x * / up N * (up N * up K)) with (x * up K) by (field; lra). replace (/ up K * (up N * up K)) with (up N) by (field; lra).
      apply Rmult_lt_compat_l with (r := x) in G2; [|lra]. replace (x * (up N / x)) with (up N) in G2 by (field; lra). lra. }
    apply Rabs_def1; lra.
  Qed.

  (** Truncated mixtures. *)
  Definition Kn (N : nat) (x : R) : R := RInt (fun s => exp (- (s * x)) * wt s) (dn N) (up N).
  Lemma Kn_diff N x : Kn N 0 - Kn N x = RInt (fun s => (1 - exp (- (s * x))) * wt s) (dn N) (up N).
  Proof.
    unfold Kn. pose proof (dn_bounds N). pose proof (up_pos N). pose proof (RInt_minus (V := R_CompleteNormedModule) (fun s => exp (- (s * 0)) * wt s) (fun s => exp (- (s * x)) * wt s) (dn N) (up N)) as E.
    unfold minus at 2, plus, opp in E. simpl in E. unfold Rminus at 1. rewrite <- E by (apply ex_int; try lra; intros; now apply E_cont).
    apply (RInt_ext (V := R_CompleteNormedModule)). intros s _. unfold minus, plus, opp. simpl. rewrite Rmult_0_r, Ropp_0, exp_0. ring.
  Qed.
  Lemma Kn_lim C x : is_lim_seq Gn (Finite C) -> (forall N, Gn N <= C) -> 0 <= x -> is_lim_seq (fun N => Kn N 0 - Kn N x) (powq x * C).
  Proof.
    intros L B X. unfold powq. destruct (Req_EM_T x 0) as [->|Nx].
    - apply is_lim_seq_ext with (fun _ => 0); [intros; ring|]. rewrite Rmult_0_l. apply is_lim_seq_const.
    - apply is_lim_seq_ext with (fun N => exp (q * ln x) * RInt W (x * dn N) (x * up N)).
      + intros N. rewrite Kn_diff. pose proof (dn_bounds N). pose proof (up_pos N).
        assert (E := RInt_comp_lin (V := R_CompleteNormedModule) W x 0 (dn N) (up N)). rewrite !Rplus_0_r in E. rewrite <- E by (apply ex_int; [apply Rmult_lt_0_compat; lra|apply Rmult_lt_0_compat; lra|apply W_cont]).
        rewrite <- (RInt_scal (V := R_CompleteNormedModule) (fun y => scal x (W (x * y + 0)))).
        * apply (RInt_ext (V := R_CompleteNormedModule)). intros s Hs. rewrite Rmin_left in Hs by apply dn_up. unfold scal. simpl. unfold mult. simpl. rewrite Rplus_0_r. unfold W, wt.
          rewrite ln_mult by lra. replace (- (q + 1) * (ln x + ln s)) with (- (q * ln x) + - ln x + - (q + 1) * ln s) by ring. rewrite !exp_plus, !exp_Ropp, exp_ln by lra.
          pose proof (exp_pos (q * ln x)). rewrite (Rmult_comm s x). field. repeat split; try exact Nx; apply Rgt_not_eq, exp_pos.
        * apply (ex_RInt_comp_lin (V := R_NormedModule)). rewrite !Rplus_0_r. apply ex_int; [apply Rmult_lt_0_compat; lra|apply Rmult_lt_0_compat; lra|apply W_cont].
      + apply (is_lim_seq_scal_l _ (exp (q * ln x)) C). apply scaled_lim; auto. lra.
  Qed.
  (** The exponential of a fractional power of a kernel all of whose exponentials are positive semi-definite. *)
  Lemma levy n (x : nat -> nat -> R) (a : R) : symm n x -> (forall i j, 0 <= x i j) -> (forall s, 0 < s -> semidefinite n (fun i j => exp (- (s * x i j)))) -> 0 <= a ->
    semidefinite n (fun i j => exp (- (a * powq (x i j)))).
  Proof.
    intros SX PX HX A. destruct total as (C & PC & L & B). set (b := a / C). assert (0 <= b) by (apply Rmult_le_pos; [lra|left; apply Rinv_0_lt_compat; lra]).
    apply (semi_lim n (fun N i j => exp (- (b * (Kn N 0 - Kn N (x i j)))))).
    - intros N. apply (semi_ext n (fun i j => exp (- (b * Kn N 0)) * exp (b * Kn N (x i j)))); [intros i j _ _; rewrite <- exp_plus; f_equal; ring|].
      apply semi_scal; [left; apply exp_pos|]. apply semi_exp; [intros i j Hi Hj; now rewrite SX|]. apply semi_scal; [exact H|]. intros c.
      assert (R := rising (fun u => form n (fun i j => RInt (fun s => exp (- (s * x i j)) * wt s) (dn N) u) c) (fun u => form n (fun i j => exp (- (u * x i j)) * wt u) c) (dn N) (up N)). cbv beta in R.
      replace (form n (fun i j => RInt (fun s => exp (- (s * x i j)) * wt s) (dn N) (dn N)) c) with 0 in R.
      + unfold Kn. apply R; [apply dn_bounds|apply dn_up| |].
        * intros u Hu. apply (form_derive n (fun u i j => RInt (fun s => exp (- (s * x i j)) * wt s) (dn N) u)). intros i j. apply (int_derive (fun s => exp (- (s * x i j)) * wt s)); auto; [apply dn_bounds|intros; now apply E_cont].
        * intros u Hu. rewrite (form_ext n _ (fun i j => wt u * exp (- (u * x i j))) c) by (intros; ring). rewrite form_scal. apply Rmult_le_pos; [left; apply wt_pos|]. now apply HX.
      + symmetry. rewrite (form_ext n _ (fun i j => 0 * 0) c) by (intros; rewrite RInt_point; unfold zero; simpl; ring). rewrite form_scal. ring.
    - intros i j _ _. apply (is_lim_seq_continuous exp (fun N => - (b * (Kn N 0 - Kn N (x i j)))) (- (a * powq (x i j)))); [apply derivable_continuous_pt, derivable_pt_exp|].
      apply (is_lim_seq_opp (fun N => b * (Kn N 0 - Kn N (x i j))) (Finite (a * powq (x i j)))). replace (a * powq (x i j)) with (b * (powq (x i j) * C)) by (unfold b; field; lra). apply (is_lim_seq_scal_l _ b (powq (x i j) * C)). now apply Kn_lim.
  Qed.
End Power.
