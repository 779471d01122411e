(** Generalised least squares with a QR factorisation: the weighted residual sum of squares is the smallest one, and its
    derivative along a family of matrices. *)
From Coq Require Import Reals List Arith Lia Lra.
From Coquelicot Require Import Coquelicot.
From Verif Require Import Lib_Sum Lib_Chol.
Open Scope R_scope.

(** The columns of F are linearly independent. *)
Definition independent (n p : nat) (F : nat -> nat -> R) : Prop :=
  forall b : nat -> R, (forall i, (i < n)%nat -> sumn p (fun c => F i c * b c) = 0) -> forall c, (c < p)%nat -> b c = 0.
Definition upper (p : nat) (G : nat -> nat -> R) : Prop := forall a b, (b < a < p)%nat -> G a b = 0.
(** What the QR factorisation in economic mode gives. *)
Definition is_qr (n p : nat) (M Q G : nat -> nat -> R) : Prop :=
  (forall i c, (i < n)%nat -> (c < p)%nat -> sumn p (fun k => Q i k * G k c) = M i c) /\
  (forall a b, (a < p)%nat -> (b < p)%nat -> sumn n (fun i => Q i a * Q i b) = identity a b) /\
  upper p G.

(** Triangular systems with a non-zero diagonal have solutions; without, there is a null vector. *)
Lemma upper_solve G : forall m (b : nat -> R), upper m G -> (forall a, (a < m)%nat -> G a a <> 0) ->
  exists x, forall a, (a < m)%nat -> sumn m (fun c => G a c * x c) = b a.
Proof.
  induction m as [|m IH]; intros b U D; [exists (fun _ => 0); intros; lia|].
  destruct (IH (fun a => b a - G a m * (b m / G m m))) as (x & Hx); [intros a c H; apply U; lia|intros; apply D; lia|].
  exists (fun c => if (c =? m)%nat then b m / G m m else x c). intros a Ha. rewrite sumn_S, Nat.eqb_refl.
  rewrite (sumn_ext m _ (fun c => G a c * x c)) by (intros c Hc; destruct (Nat.eqb_spec c m); [lia|auto]).
  destruct (Nat.eq_dec a m) as [->|N].
  - rewrite sumn_zero by (intros c Hc; rewrite U by lia; ring). specialize (D m ltac:(lia)). field. auto.
  - rewrite Hx by lia. ring.
Qed.
Lemma first_zero (G : nat -> nat -> R) : forall m, (forall a, (a < m)%nat -> G a a <> 0) \/ exists c, (c < m)%nat /\ G c c = 0 /\ forall a, (a < c)%nat -> G a a <> 0.
Proof.
  induction m as [|m [IH|(c & H1 & H2 & H3)]]; [left; intros; lia| |right; exists c; repeat split; auto].
  destruct (Req_dec (G m m) 0) as [Z|Z]; [right; exists m; repeat split; auto|left; intros a Ha; destruct (Nat.eq_dec a m) as [->|]; auto; apply IH; lia].
Qed.
Lemma independent_diagonal p G : upper p G -> independent p p G -> forall a, (a < p)%nat -> G a a <> 0.
Proof.
  intros U I. destruct (first_zero G p) as [H|(c & Hc & Z & D)]; auto. exfalso.
  destruct (upper_solve G c (fun a => - G a c)) as (x & Hx); [intros a b H; apply U; lia|auto|].
  set (v := fun k => if (k =? c)%nat then 1 else if (k <? c)%nat then x k else 0).
  assert (V : v c = 0).
  { apply (I v); auto. intros i Hi. rewrite (sumn_cut p (S c)).
    2: lia. 2:{ intros k Hk. unfold v. destruct (Nat.eqb_spec k c); [lia|]. destruct (Nat.ltb_spec k c); [lia|]. ring. }
    rewrite sumn_S. unfold v at 2. rewrite Nat.eqb_refl.
    rewrite (sumn_ext c _ (fun k => G i k * x k)). 2:{ intros k Hk. unfold v. destruct (Nat.eqb_spec k c); [lia|]. destruct (Nat.ltb_spec k c); [auto|lia]. }
    destruct (Nat.lt_trichotomy i c) as [L|[->|L]].
    - rewrite Hx by auto. ring.
    - rewrite sumn_zero by (intros k Hk; rewrite U by lia; ring). rewrite Z. ring.
    - rewrite sumn_zero by (intros k Hk; rewrite U by lia; ring). rewrite U by lia. ring. }
  unfold v in V. rewrite Nat.eqb_refl in V. lra.
Qed.

Section GLS.
Variables (n p : nat) (L F Ft Q G : nat -> nat -> R) (y Yt : nat -> R).
Hypotheses (LO : lower n L) (DI : forall i, (i < n)%nat -> L i i <> 0).
Hypothesis (HY : forall i, (i < n)%nat -> sumn n (fun k => L i k * Yt k) = y i).
Hypothesis (HF : forall i c, (i < n)%nat -> (c < p)%nat -> sumn n (fun k => L i k * Ft k c) = F i c).
Hypothesis (HQ : is_qr n p Ft Q G) (HI : independent n p F).
(** The residuals, with the product in the order of the code. *)
Definition residual (i : nat) : R := Yt i - sumn n (fun l => sumn p (fun c => Q i c * Q l c) * Yt l).

Lemma G_diagonal a : (a < p)%nat -> G a a <> 0.
Proof.
  destruct HQ as (QG & _ & U). apply independent_diagonal; auto. intros b Hb. apply HI. intros i Hi.
  rewrite (sumn_ext p _ (fun c => sumn n (fun k => L i k * (Ft k c * b c)))).
  2:{ intros c Hc. rewrite <- HF by auto. rewrite <- sumn_scal_r. apply sumn_ext. intros; ring. }
  rewrite sumn_swap. apply sumn_zero. intros k Hk. rewrite sumn_scal.
  rewrite (sumn_ext p _ (fun c => sumn p (fun a => Q k a * (G a c * b c)))).
  2:{ intros c Hc. rewrite <- QG by auto. rewrite <- sumn_scal_r. apply sumn_ext. intros; ring. }
  rewrite sumn_swap. rewrite sumn_zero; [ring|]. intros c Hc. rewrite sumn_scal, Hb by auto. ring.
Qed.
(** Q^T Yt *)
Definition proj (a : nat) : R := sumn n (fun i => Q i a * Yt i).
Lemma residual_eq i : residual i = Yt i - sumn p (fun a => Q i a * proj a).
Proof.
  unfold residual, proj. f_equal. rewrite (sumn_ext p _ (fun a => sumn n (fun l => Q i a * Q l a * Yt l))).
  2:{ intros a Ha. rewrite <- sumn_scal. apply sumn_ext. intros; ring. }
  rewrite sumn_swap. apply sumn_ext. intros l Hl. now rewrite sumn_scal_r.
Qed.
Lemma residual_orthogonal a : (a < p)%nat -> sumn n (fun i => Q i a * residual i) = 0.
Proof.
  intros Ha. destruct HQ as (_ & O & _). rewrite (sumn_ext n _ (fun i => Q i a * Yt i - sumn p (fun b => Q i a * Q i b * proj b))).
  2:{ intros i Hi. rewrite residual_eq, Rmult_minus_distr_l. f_equal. rewrite <- sumn_scal. apply sumn_ext. intros; ring. }
  rewrite sumn_minus, sumn_swap. rewrite (sumn_ext p _ (fun b => identity a b * proj b)) by (intros b Hb; rewrite sumn_scal_r, O by auto; auto).
  rewrite sumn_identity by auto. unfold proj. ring.
Qed.
Lemma pythagoras (u : nat -> R) : sumn n (fun i => (residual i + sumn p (fun a => Q i a * u a)) * (residual i + sumn p (fun a => Q i a * u a)))
  = sumn n (fun i => residual i * residual i) + sumn p (fun a => u a * u a).
Proof.
  destruct HQ as (_ & O & _).
  transitivity (sumn n (fun i => residual i * residual i) + 2 * sumn n (fun i => residual i * sumn p (fun a => Q i a * u a)) + sumn n (fun i => sumn p (fun a => Q i a * u a) * sumn p (fun a => Q i a * u a))).
  { rewrite <- sumn_scal, <- !sumn_plus. apply sumn_ext. intros; ring. }
  assert (Z : sumn n (fun i => residual i * sumn p (fun a => Q i a * u a)) = 0).
  { rewrite (sumn_ext n _ (fun i => sumn p (fun a => Q i a * residual i * u a))) by (intros i Hi; rewrite <- sumn_scal; apply sumn_ext; intros; ring).
    rewrite sumn_swap. apply sumn_zero. intros a Ha. rewrite sumn_scal_r, residual_orthogonal by auto. ring. }
  rewrite Z. rewrite Rmult_0_r, Rplus_0_r. f_equal.
  rewrite (sumn_ext n _ (fun i => sumn p (fun a => sumn p (fun b => Q i a * Q i b * (u a * u b))))).
  2:{ intros i Hi. rewrite <- sumn_scal_r. apply sumn_ext. intros a Ha. rewrite <- sumn_scal. apply sumn_ext. intros; ring. }
  rewrite sumn_swap. apply sumn_ext. intros a Ha. rewrite sumn_swap.
  rewrite (sumn_ext p _ (fun b => identity a b * (u a * u b))) by (intros b Hb; rewrite sumn_scal_r, O by auto; auto).
  now rewrite sumn_identity.
Qed.
Lemma yt_square : sumn n (fun i => Yt i * Yt i) = sumn n (fun i => residual i * residual i) + sumn p (fun a => proj a * proj a).
Proof.
  rewrite <- pythagoras. apply sumn_ext. intros i Hi. rewrite residual_eq. ring.
Qed.
(** The residuals belong to some coefficients. *)
Lemma residual_coefficients : exists b, forall i, (i < n)%nat -> sumn n (fun k => L i k * residual k) = y i - sumn p (fun c => F i c * b c).
Proof.
  destruct HQ as (QG & O & U). destruct (upper_solve G p proj U G_diagonal) as (b & Hb). exists b. intros i Hi.
  rewrite (sumn_ext n _ (fun k => L i k * Yt k - L i k * sumn p (fun c => Ft k c * b c))).
  - rewrite sumn_minus, HY by auto. f_equal. rewrite (sumn_ext n _ (fun k => sumn p (fun c => L i k * Ft k c * b c))) by (intros k Hk; rewrite <- sumn_scal; apply sumn_ext; intros; ring).
    rewrite sumn_swap. apply sumn_ext. intros c Hc. rewrite sumn_scal_r, HF by auto. auto.
  - intros k Hk. rewrite residual_eq, Rmult_minus_distr_l. do 2 f_equal.
    rewrite (sumn_ext p (fun c => Ft k c * b c) (fun c => sumn p (fun a => Q k a * (G a c * b c)))).
    2:{ intros c Hc. rewrite <- QG by auto. rewrite <- sumn_scal_r. apply sumn_ext. intros; ring. }
    rewrite sumn_swap. apply sumn_ext. intros a Ha. rewrite sumn_scal, Hb by auto. auto.
Qed.
(** No other coefficients give a smaller sum of squares. *)
Lemma residual_minimal b z : (forall i, (i < n)%nat -> sumn n (fun k => L i k * z k) = y i - sumn p (fun c => F i c * b c)) ->
  sumn n (fun i => residual i * residual i) <= sumn n (fun i => z i * z i).
Proof.
  intros Hz. destruct HQ as (QG & O & U). set (u := fun a => proj a - sumn p (fun c => G a c * b c)).
  assert (E : forall i, (i < n)%nat -> z i = residual i + sumn p (fun a => Q i a * u a)).
  { intros i Hi. transitivity (Yt i - sumn p (fun c => Ft i c * b c)).
    - rewrite <- (fsub_unique n L (fun i => y i - sumn p (fun c => F i c * b c)) z LO DI Hz n (le_n n) i Hi).
      apply (fsub_unique n L (fun i => y i - sumn p (fun c => F i c * b c)) (fun i => Yt i - sumn p (fun c => Ft i c * b c))); auto.
      intros k Hk. rewrite (sumn_ext n _ (fun l => L k l * Yt l - sumn p (fun c => L k l * Ft l c * b c))).
      2:{ intros l Hl. rewrite Rmult_minus_distr_l. f_equal. rewrite <- sumn_scal. apply sumn_ext. intros; ring. }
      rewrite sumn_minus, HY, sumn_swap by auto. f_equal. apply sumn_ext. intros c Hc. rewrite sumn_scal_r, HF by auto. auto.
    - rewrite residual_eq. unfold u. rewrite (sumn_ext p (fun a => Q i a * (proj a - _)) (fun a => Q i a * proj a - sumn p (fun c => Q i a * G a c * b c))).
      2:{ intros a Ha. rewrite Rmult_minus_distr_l. f_equal. rewrite <- sumn_scal. apply sumn_ext. intros; ring. }
      rewrite sumn_minus, sumn_swap. rewrite (sumn_ext p (fun j => sumn p (fun i0 => Q i i0 * G i0 j * b j)) (fun c => Ft i c * b c)).
      2:{ intros c Hc. rewrite sumn_scal_r, QG by auto. auto. } ring. }
  rewrite (sumn_ext n (fun i => z i * z i) (fun i => (residual i + sumn p (fun a => Q i a * u a)) * (residual i + sumn p (fun a => Q i a * u a)))) by (intros i Hi; rewrite <- E by auto; auto).
  rewrite pythagoras. assert (0 <= sumn p (fun a => u a * u a)) by (apply sumn_nonneg; intros; apply Rle_0_sqr). lra.
Qed.
(** The factor of Ft^T Ft with positive diagonal, and Q^T Yt up to signs. *)
Definition sgn (v : R) : R := if Rlt_dec v 0 then -1 else 1.
Lemma sgn_sq v : sgn v * sgn v = 1.
Proof. unfold sgn. destruct (Rlt_dec v 0); ring. Qed.
Lemma normal_factor : factor p (fun a b => sumn n (fun i => Ft i a * Ft i b)) (fun a b => G b a * sgn (G b b)).
Proof.
  destruct HQ as (QG & O & U). split; [|split].
  - intros a b H. rewrite (U b a) by lia. ring.
  - intros a Ha. pose proof (G_diagonal a Ha). unfold sgn. destruct (Rlt_dec (G a a) 0); lra.
  - intros a b Ha Hb. transitivity (sumn p (fun k => G k a * G k b)).
    { apply sumn_ext. intros k Hk. transitivity (G k a * G k b * (sgn (G k k) * sgn (G k k))); [ring|rewrite sgn_sq; ring]. }
    symmetry. rewrite (sumn_ext n _ (fun i => sumn p (fun k => sumn p (fun l => Q i k * Q i l * (G k a * G l b))))).
    2:{ intros i Hi. rewrite <- !QG by auto. rewrite <- sumn_scal_r. apply sumn_ext. intros k Hk. rewrite <- sumn_scal. apply sumn_ext. intros; ring. }
    rewrite sumn_swap. apply sumn_ext. intros k Hk. rewrite sumn_swap.
    rewrite (sumn_ext p _ (fun l => identity k l * (G k a * G l b))) by (intros l Hl; rewrite sumn_scal_r, O by auto; auto). now rewrite (sumn_identity p (fun l => G k a * G l b)).
Qed.
Lemma normal_solution a : (a < p)%nat -> sumn p (fun k => G k a * sgn (G k k) * (sgn (G k k) * proj k)) = sumn n (fun i => Ft i a * Yt i).
Proof.
  intros Ha. destruct HQ as (QG & O & U). transitivity (sumn p (fun k => G k a * proj k)).
  { apply sumn_ext. intros k Hk. transitivity (G k a * proj k * (sgn (G k k) * sgn (G k k))); [ring|rewrite sgn_sq; ring]. }
  unfold proj. rewrite (sumn_ext p _ (fun k => sumn n (fun i => Q i k * G k a * Yt i))) by (intros k Hk; rewrite <- sumn_scal; apply sumn_ext; intros; ring).
  rewrite sumn_swap. apply sumn_ext. intros i Hi. rewrite sumn_scal_r, QG by auto. auto.
Qed.
End GLS.

(** ** Along a family of matrices *)
Lemma min_derive (f h : R -> R) x df : ex_derive f x -> is_derive h x df -> locally x (fun t => f t <= h t) -> f x = h x -> is_derive f x df.
Proof.
  intros Ef Dh LE EQ. destruct Ef as (d & Df). replace df with d; auto.
  assert (D : is_derive (fun t => h t - f t) x (df - d)) by (apply @is_derive_minus; auto).
  destruct LE as (eps & LE). apply is_derive_Reals in D.
  assert (pr : derivable_pt (fun t => h t - f t) x) by (exists (df - d); exact D).
  assert (Z : derive_pt (fun t => h t - f t) x pr = 0).
  { apply (deriv_minimum (fun t => h t - f t) (x - eps) (x + eps)); try (destruct eps as [e He]; cbn; lra).
    intros t T1 T2. assert (f t <= h t) by (apply LE; unfold ball; cbn; unfold AbsRing_ball, abs, minus, plus, opp; cbn; apply Rabs_def1; lra). lra. }
  rewrite (derive_pt_eq_0 _ _ _ pr D) in Z. lra.
Qed.

Section FamilyGLS.
Variables (n p : nat) (A L Ft Q G : R -> nat -> nat -> R) (F : nat -> nat -> R) (y : nat -> R) (Yt : R -> nat -> R) (x : R) (dA : nat -> nat -> R).
Hypothesis (DA : forall i j, (i < n)%nat -> (j < n)%nat -> is_derive (fun t => A t i j) x (dA i j)).
Hypothesis (FL : locally x (fun t => factor n (A t) (L t))).
Hypothesis (HY : locally x (fun t => forall i, (i < n)%nat -> sumn n (fun k => L t i k * Yt t k) = y i)).
Hypothesis (HF : locally x (fun t => forall i c, (i < n)%nat -> (c < p)%nat -> sumn n (fun k => L t i k * Ft t k c) = F i c)).
Hypothesis (HQ : locally x (fun t => is_qr n p (Ft t) (Q t) (G t))) (HI : independent n p F).
Variable g : nat -> R.
Hypothesis (Hg : forall i, (i < n)%nat -> sumn n (fun k => L x k i * g k) = residual n p (Q x) (Yt x) i).

Lemma diag_ne t : factor n (A t) (L t) -> forall i, (i < n)%nat -> L t i i <> 0.
Proof. intros (_ & D & _) i Hi. specialize (D i Hi). lra. Qed.
Lemma gls_ex : ex_derive (fun t => sumn n (fun i => residual n p (Q t) (Yt t) i * residual n p (Q t) (Yt t) i)) x.
Proof.
  assert (EY : forall i, (i < n)%nat -> ex_derive (fun t => Yt t i) x) by (intros i Hi; apply (z_ex n A L x dA DA FL y Yt HY i Hi)).
  assert (EF : forall i c, (i < n)%nat -> (c < p)%nat -> ex_derive (fun t => Ft t i c) x).
  { intros i c Hi Hc. apply (z_ex n A L x dA DA FL (fun i => F i c) (fun t i => Ft t i c)); auto. revert HF. apply filter_imp. intros t H k Hk. auto. }
  set (N := fun t a b => sumn n (fun i => Ft t i a * Ft t i b)). set (H := fun t a b => G t b a * sgn (G t b b)).
  assert (DN : forall a b, (a < p)%nat -> (b < p)%nat -> ex_derive (fun t => N t a b) x).
  { intros a b Ha Hb. apply (sumn_ex_derive n (fun i t => Ft t i a * Ft t i b)). intros i Hi. apply ex_derive_mult; auto. }
  assert (ALL : locally x (fun t => factor n (A t) (L t) /\ (forall i, (i < n)%nat -> sumn n (fun k => L t i k * Yt t k) = y i) /\
     (forall i c, (i < n)%nat -> (c < p)%nat -> sumn n (fun k => L t i k * Ft t k c) = F i c) /\ is_qr n p (Ft t) (Q t) (G t))).
  { apply filter_and; [exact FL|apply filter_and; [exact HY|apply filter_and; [exact HF|exact HQ]]]. }
  assert (FN : locally x (fun t => factor p (N t) (H t))).
  { revert ALL. apply filter_imp. intros t (H1 & H2 & H3 & H4). apply (normal_factor n p (L t) F (Ft t) (Q t)); auto. }
  set (w := fun t a => sgn (G t a a) * proj n (Q t) (Yt t) a).
  assert (EH := family_ex p N H x (fun a b => Derive (fun t => N t a b) x) ltac:(intros; apply Derive_correct; auto) FN).
  assert (EW : forall a, (a < p)%nat -> ex_derive (fun t => w t a) x).
  { intros a Ha. apply (ex_derive_ext_loc (fun t => fsub (H t) (fun b => sumn n (fun i => Ft t i b * Yt t i)) p a)).
    - generalize (filter_and _ _ ALL FN). apply filter_imp. intros t ((H1 & H2 & H3 & H4) & (K1 & K2 & _)).
      apply (fsub_unique p (H t) (fun b => sumn n (fun i => Ft t i b * Yt t i)) (w t)); auto.
      + intros i Hi. specialize (K2 i Hi). lra.
      + intros b Hb. apply (normal_solution n p (Ft t) (Q t) (G t) (Yt t)); auto.
    - apply (fsub_ex_derive p H (fun t b => sumn n (fun i => Ft t i b * Yt t i))); auto.
      + intros b Hb. apply (sumn_ex_derive n (fun i t => Ft t i b * Yt t i)). intros i Hi. apply ex_derive_mult; auto.
      + intros b Hb. apply locally_singleton in FN. destruct FN as (_ & K2 & _). specialize (K2 b Hb). lra. }
  apply (ex_derive_ext_loc (fun t => sumn n (fun i => Yt t i * Yt t i) - sumn p (fun a => w t a * w t a))).
  - revert ALL. apply filter_imp. intros t (H1 & H2 & H3 & H4).
    match goal with |- ?a = ?b => change (@eq R a b) end. rewrite (yt_square n p (Ft t) (Q t) (G t) (Yt t)) by auto.
    rewrite (sumn_ext p (fun a => w t a * w t a) (fun a => proj n (Q t) (Yt t) a * proj n (Q t) (Yt t) a)); [ring|].
    intros a Ha. unfold w. transitivity (sgn (G t a a) * sgn (G t a a) * (proj n (Q t) (Yt t) a * proj n (Q t) (Yt t) a)); [ring|rewrite sgn_sq; ring].
  - apply @ex_derive_minus.
    + apply (sumn_ex_derive n (fun i t => Yt t i * Yt t i)). intros i Hi. apply ex_derive_mult; auto.
    + apply (sumn_ex_derive p (fun a t => w t a * w t a)). intros a Ha. apply ex_derive_mult; auto.
Qed.
Lemma gls_derive : is_derive (fun t => sumn n (fun i => residual n p (Q t) (Yt t) i * residual n p (Q t) (Yt t) i)) x (- form n dA g).
Proof.
  pose proof (locally_singleton _ _ HY) as HYx. pose proof (locally_singleton _ _ HF) as HFx. pose proof (locally_singleton _ _ HQ) as HQx. cbv beta in HYx, HFx, HQx.
  destruct (residual_coefficients n p (L x) F (Ft x) (Q x) (G x) y (Yt x)) as (b & Hb); auto.
  set (e := fun i => y i - sumn p (fun c => F i c * b c)). set (z := fun t => fsub (L t) e n).
  assert (Hz : locally x (fun t => forall i, (i < n)%nat -> sumn n (fun k => L t i k * z t k) = e i)).
  { revert FL. apply filter_imp. intros t H i Hi. apply fsub_solves; auto; [apply H|apply (diag_ne t H)]. }
  assert (Zx : forall i, (i < n)%nat -> z x i = residual n p (Q x) (Yt x) i).
  { intros i Hi. pose proof (locally_singleton _ _ FL) as H. apply (fsub_unique n (L x) e); auto; [apply H|apply (diag_ne x H)]. }
  apply (min_derive _ (fun t => sumn n (fun i => z t i * z t i))).
  - apply gls_ex.
  - apply (quad_derive n A L x dA DA FL e z g Hz). intros i Hi. rewrite Zx by auto. auto.
  - generalize (filter_and _ _ (filter_and _ _ FL Hz) (filter_and _ _ HY (filter_and _ _ HF HQ))). apply filter_imp. intros t ((H1 & H2) & H3 & H4 & H5).
    apply (residual_minimal n p (L t) F (Ft t) (Q t) (G t) y (Yt t)) with (b := b); auto; [apply H1|apply (diag_ne t H1)].
  - apply sumn_ext. intros i Hi. rewrite Zx by auto. auto.
Qed.
End FamilyGLS.
