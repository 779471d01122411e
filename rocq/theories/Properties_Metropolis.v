(** Properties C182 and C183: the sampler under constraints. *)
From Coq Require Import Reals ZArith List Bool Lia Lra.
From Coquelicot Require Import Coquelicot.
From Verif Require Import Lib_Sum Lib_Normal Model_Metropolis Spec_Metropolis Proofs_Metropolis Proofs_Metropolis2.
Import ListNotations.
Open Scope R_scope.

(** C182: a Metropolis-Hastings step leaves the target distribution unchanged.  Spaces of categorical variables, as long as no
    ratio of densities overflows: a row drawn from the posterior is, after any number of steps, again distributed as the posterior. *)
Theorem C182_categorical_partial : forall (V : Type) (Ls : list (list V)) target constraints xmax nu t n (f : list V -> R),
  List.Forall (fun L => L <> []) Ls ->
  (forall x, In x (product Ls) -> 0 < target x /\ constraints x <> None) ->
  (forall x y, In x (product Ls) -> In y (product Ls) -> ln (posterior target constraints nu y) - ln (posterior target constraints nu x) <= xmax) ->
  let run w x := metropolis_hastings V target constraints xmax (propose_discrete t (length Ls) (fun i => nth i Ls [])) nu (length Ls) (map (fun ds => [ds]) w) [x] in
  over (product Ls) (fun x => posterior target constraints nu x * expect_steps n (map (@length V) Ls) (fun w => f (final x (run w x))))
  = over (product Ls) (fun x => posterior target constraints nu x * f x).
Proof.
  intros V Ls target constraints xmax nu t n f NE DEF NOV run. rewrite <- (steps_preserve V target constraints xmax nu Ls t DEF NOV NE n f). apply over_ext. intros x Hx. f_equal. f_equal.
  assert (E : forall w, run w x = Some [fold_left (fun y ds => row_step V target constraints nu Ls t ds y) w x]).
  { intros w. unfold run. rewrite (run_rows V target constraints xmax nu Ls t DEF NOV); [now rewrite fold_single| |intros y [<-|[]]; auto]. rewrite Forall_map. apply Forall_forall. reflexivity. }
  apply FunctionalExtensionality.functional_extensionality. intros w. rewrite E. reflexivity.
Qed.
Print Assumptions C182_categorical_partial.
(** Two variables with two and three levels, a constraint, an unnormalised target. *)
Example C182_categorical_case : exists (Ls : list (list nat)) target constraints nu,
  List.Forall (fun L => L <> []) Ls /\ (forall x, In x (product Ls) -> 0 < target x /\ constraints x <> None)
  /\ (exists xmax, forall x y, In x (product Ls) -> In y (product Ls) -> ln (posterior target constraints nu y) - ln (posterior target constraints nu x) <= xmax)
  /\ length (product Ls) = 6%nat /\ posterior target constraints nu [0; 0]%nat <> posterior target constraints nu [1; 0]%nat.
Proof.
  exists [[0; 1]; [0; 1; 2]]%nat, (fun x => match x with [0%nat; _] => 1 | _ => 2 end), (fun x => match x with [_; 0%nat] => Some [0] | _ => Some [1] end), 1.
  split; [repeat constructor; discriminate|]. split; [|split; [|split; [reflexivity|unfold posterior; cbn; replace (- 0 / 1) with 0 by field; rewrite cdf_zero; lra]]].
  - intros x H. cbn in H. repeat (destruct H as [<-|H]; [split; [lra|discriminate]|]). destruct H.
  - match goal with |- exists xmax, forall x y, _ -> _ -> ln (?p _) - _ <= _ => exists (over (product [[0; 1]; [0; 1; 2]]%nat) (fun y => Rabs (ln (p y))) + over (product [[0; 1]; [0; 1; 2]]%nat) (fun y => Rabs (ln (p y)))); assert (A : forall S x, In x S -> Rabs (ln (p x)) <= over S (fun y => Rabs (ln (p y)))) end.
    { intros S x. unfold over. induction S as [|a S IH]; cbn; [tauto|]. intros [<-|H].
      - enough (0 <= fold_right (fun x s => Rabs (ln (posterior (fun x => match x with [0%nat; _] => 1 | _ => 2 end) (fun x => match x with [_; 0%nat] => Some [0] | _ => Some [1] end) 1 x)) + s) 0 S) by lra. clear. induction S; cbn; [lra|]. pose proof (Rabs_pos (ln (posterior (fun x => match x with [0%nat; _] => 1 | _ => 2 end) (fun x => match x with [_; 0%nat] => Some [0] | _ => Some [1] end) 1 a))). lra.
      - specialize (IH H). pose proof (Rabs_pos (ln (posterior (fun x => match x with [0%nat; _] => 1 | _ => 2 end) (fun x => match x with [_; 0%nat] => Some [0] | _ => Some [1] end) 1 a))). lra. }
    intros x y Hx Hy. apply A in Hx, Hy. match goal with |- ?a - ?b <= _ => pose proof (Rle_abs a); pose proof (Rle_abs (- b)); rewrite Rabs_Ropp in * end. lra.
Qed.

(** Without overflow the rows of a population do not influence each other: each moves as it would alone with its own random
    numbers. *)
Theorem C182_rows_partial : forall (V : Type) (Ls : list (list V)) target constraints xmax nu t Ws X r x,
  (forall x, In x (product Ls) -> 0 < target x /\ constraints x <> None) ->
  (forall x y, In x (product Ls) -> In y (product Ls) -> ln (posterior target constraints nu y) - ln (posterior target constraints nu x) <= xmax) ->
  (forall x, In x X -> In x (product Ls)) -> List.Forall (fun W => length W = length X) Ws -> nth_error X r = Some x ->
  let run := metropolis_hastings V target constraints xmax (propose_discrete t (length Ls) (fun i => nth i Ls [])) nu (length Ls) in
  exists Z z, run Ws X = Some Z /\ length Z = length X /\ nth_error Z r = Some z /\ run (map (fun W => [nth r W []]) Ws) [x] = Some [z].
Proof.
  intros V Ls target constraints xmax nu t Ws X r x DEF NOV HX HW Hr run. unfold run.
  exists (fold_left (fun X W => zip (row_step V target constraints nu Ls t) W X) Ws X), (fold_left (fun y ds => row_step V target constraints nu Ls t ds y) (map (fun W => nth r W []) Ws) x).
  rewrite !(run_rows V target constraints xmax nu Ls t DEF NOV); auto.
  - split; [reflexivity|]. split; [|split; [now apply fold_rows|]].
    + clear Hr HX. revert X HW. induction Ws as [|W Ws IH]; intros X HW; [reflexivity|]. inversion HW as [|? ? H1 H2]; subst. cbn [fold_left]. rewrite IH; rewrite zip_length; auto.
    + f_equal. rewrite <- (map_map (fun W => nth r W []) (fun ds => [ds])). apply fold_single.
  - rewrite Forall_map. apply Forall_forall. reflexivity.
  - intros y [<-|[]]. apply HX. eapply nth_error_In. exact Hr.
Qed.
Print Assumptions C182_rows_partial.
Example C182_rows_case : exists (X : list (list nat)) (Ws : list (list (list draw))),
  (forall x, In x (product [[0; 1]]%nat) -> 0 < 1 /\ Some (@nil R) <> None)
  /\ (forall x y, In x (product [[0; 1]]%nat) -> In y (product [[0; 1]]%nat) -> ln (posterior (fun _ => 1) (fun _ => Some []) 1 y) - ln (posterior (fun _ => 1) (fun _ => Some []) 1 x) <= 1)
  /\ (forall x, In x X -> In x (product [[0; 1]]%nat)) /\ List.Forall (fun W => length W = length X) Ws /\ length X = 2%nat /\ length Ws = 1%nat.
Proof.
  exists [[0]; [1]]%nat, [[[Draw 0 1 0%Z (/ 2)]; [Draw 0 0 0%Z (/ 3)]]]. split; [intros; split; [lra|discriminate]|]. split; [intros x y _ _; unfold posterior; cbn; lra|]. split; [intros x [<-|[<-|[]]]; cbn; auto|]. split; [repeat constructor|]. split; reflexivity.
Qed.

(** If the ratio overflows for one row, every row moves to its proposed point: here the first row, which satisfies the constraint,
    moves to a point which violates it whatever its random number, while alone it would have stayed. *)
Theorem C182_overflow_refuted : exists (Ls : list (list bool)) (constraints : list bool -> option (list R)) nu X W,
  (forall x, In x X -> In x (product Ls))
  /\ (forall x, In x (product Ls) -> constraints x <> None)
  /\ forall u0 u1 xmax, exp (- 750) < u0 <= 1 -> 0 <= u1 <= 1 -> 0 <= xmax <= 750 ->
       let run := metropolis_hastings bool (fun _ => 1) constraints xmax (propose_discrete 0 (length Ls) (fun i => nth i Ls [])) nu (length Ls) in
       X = [[true]; [false]] /\ constraints [true] = Some [0] /\ constraints [false] = Some [1]
       /\ run [W u0 u1] X = Some [[false]; [true]] /\ run [[nth 0 (W u0 u1) []]] [[true]] = Some [[true]].
Proof.
  exists [[true; false]], (fun x => match x with [false] => Some [1] | _ => Some [0] end), (/ 40), [[true]; [false]], (fun u0 u1 => [[Draw 0 1 0%Z u0]; [Draw 0 0 0%Z u1]]).
  split; [intros x [<-|[<-|[]]]; cbn; auto|]. split; [intros x [<-|[<-|[]]]; discriminate|]. intros u0 u1 xmax H0 H1 Hx run. do 3 (split; [reflexivity|]).
  set (target := fun _ : list bool => 1). set (cons := fun x : list bool => match x with [false] => Some [1] | _ => Some [0] end) in *.
  assert (CP : 0 < change_probability 0 1) by (unfold change_probability; eapply Rlt_le_trans; [|apply Rmax_r]; cbn; lra).
  assert (PF : forall j v a u, propose_discrete 0 1 (fun i => nth i [[true; false]] []) 0 (Draw 0 j a u) v = nth j [true; false] v). { intros. unfold propose_discrete. cbn [change level nth]. destruct (Rlt_dec 0 (change_probability 0 1)); [reflexivity|contradiction]. }
  assert (LT : log_posterior bool target cons (/ 40) [true] = Some (ln (/ 2))).
  { unfold log_posterior, target, cons. destruct (Rlt_dec 0 1); [|lra]. cbn [map total fold_right]. unfold total. cbn [fold_right]. replace (-1 * 0 / / 40) with 0 by field. rewrite ln_1, cdf_zero. f_equal. ring. }
  assert (LF : log_posterior bool target cons (/ 40) [false] = Some (ln (cdf (- (40))))).
  { unfold log_posterior, target, cons. destruct (Rlt_dec 0 1); [|lra]. cbn [map total fold_right]. unfold total. cbn [fold_right]. replace (-1 * 1 / / 40) with (- (40)) by field. rewrite ln_1. f_equal. ring. }
  assert (T := tail 40 ltac:(lra)). assert (L2 : -1 <= ln (/ 2)). { rewrite ln_Rinv by lra. assert (ln 2 <= 1); [|lra]. rewrite <- (ln_exp 1). apply Rcomplements.ln_le; [lra|]. pose proof (exp_ineq1 1). lra. }
  assert (L0 : ln (/ 2) <= 0) by (rewrite <- ln_1; apply Rcomplements.ln_le; lra).
  set (lt := ln (/ 2)) in *. set (lf := ln (cdf (- (40)))) in *.
  split.
  - unfold run, metropolis_hastings. cbn [map all_some]. change (fun _ : list bool => 1) with target. rewrite LT, LF. cbn [option_map all_some length seq nth steps fst snd zip]. unfold propose. cbn [length seq combine zip fst snd]. rewrite !PF. cbn [nth columns map nth_error accept]. unfold column. cbn [zip put_from put nth_error map]. rewrite LT, LF. cbn [all_some option_map]. unfold probabilities. cbn [zip existsb]. destruct (Rlt_dec xmax (lf - lt)); [lra|]. destruct (Rlt_dec xmax (lt - lf)); [|lra]. cbn [orb map zip combine fst snd]. destruct (Rle_dec u0 1); [|lra]. destruct (Rle_dec u1 1); [|lra]. reflexivity.
  - unfold run, metropolis_hastings. cbn [map all_some]. change (fun _ : list bool => 1) with target. rewrite LT. cbn [option_map all_some length seq nth steps fst snd zip]. unfold propose. cbn [length seq combine zip fst snd]. rewrite !PF. cbn [nth columns map nth_error accept]. unfold column. cbn [zip put_from put nth_error map]. rewrite LF. cbn [all_some option_map]. unfold probabilities. cbn [zip existsb]. destruct (Rlt_dec xmax (lf - lt)); [lra|]. cbn [orb map zip combine fst snd].
    destruct (Rle_dec u0 _) as [C|C]; [|reflexivity]. exfalso. assert (exp (lf - lt) <= exp (- 750)). { destruct (Req_dec (lf - lt) (- 750)) as [->|]; [lra|]. left. apply exp_increasing. lra. }
    assert (u0 <= exp (lf - lt)); [|lra]. eapply Rle_trans; [exact C|]. eapply Rle_trans; [apply Rmin_l|]. rewrite Rmax_left; [lra|left; apply exp_pos].
Qed.
Print Assumptions C182_overflow_refuted.

(** Integer variables: the proposal is cut off at the bounds.  On the integers 0, 1 and 2 with the uniform target, a row drawn
    uniformly is at 1 with a smaller probability after one step, for every parameter p of the geometric numbers and every random
    number of the acceptance. *)
Theorem C182_integer_refuted : exists lb ub points (at_ : list Z -> R), points = [[0]; [1]; [2]]%Z /\ lb = 0%Z /\ ub = 2%Z
  /\ (forall x, at_ x = if list_eq_dec Z.eq_dec x [1%Z] then 1 else 0)
  /\ forall p u xmax nu, 0 < p < 1 -> 0 <= u <= 1 -> 0 <= xmax ->
     let run d x := metropolis_hastings Z (fun _ => 1) (fun _ => Some []) xmax (fun _ => propose_integer lb ub) nu 1 [[[Draw 0 0 d u]]] [x] in
     expect_geometric p (fun d => over points (fun x => at_ (final x (run d x)))) < over points at_.
Proof.
  exists 0%Z, 2%Z, [[0]; [1]; [2]]%Z, (fun x => if list_eq_dec Z.eq_dec x [1%Z] then 1 else 0). do 3 (split; [reflexivity|]). split; [reflexivity|]. intros p u xmax nu Hp Hu Hx run.
  assert (E : forall d v, run d [v] = Some [[propose_integer 0 2 (Draw 0 0 d u) v]]).
  { assert (LP : forall x, log_posterior Z (fun _ => 1) (fun _ => Some []) nu x = Some 0). { intros x. unfold log_posterior. destruct (Rlt_dec 0 1); [|lra]. cbn. rewrite ln_1. f_equal. ring. }
    intros d v. unfold run, metropolis_hastings. cbn [map all_some]. rewrite LP. cbn [option_map all_some steps fst zip]. unfold propose. cbn [length seq combine zip fst snd columns map nth_error accept]. unfold column. cbn [zip put_from put nth_error map]. rewrite LP. cbn [all_some option_map]. unfold probabilities. cbn [zip existsb]. rewrite Rminus_diag_eq by reflexivity. destruct (Rlt_dec xmax 0); [lra|]. cbn [orb map zip combine fst snd]. rewrite exp_0, Rmax_left, Rmin_left by lra. destruct (Rle_dec u 1); [reflexivity|lra]. }
  replace (over [[0%Z]; [1%Z]; [2%Z]] (fun x => if list_eq_dec Z.eq_dec x [1%Z] then 1 else 0)) with 1.
  2: { unfold over. cbn [fold_right]. destruct (list_eq_dec Z.eq_dec [0%Z] [1%Z]); [discriminate|]. destruct (list_eq_dec Z.eq_dec [1%Z] [1%Z]); [|congruence]. destruct (list_eq_dec Z.eq_dec [2%Z] [1%Z]); [discriminate|]. lra. }
  apply expect_geometric_lt; auto.
  - intros d. unfold over. cbn [fold_right]. rewrite !E. cbn [final]. unfold propose_integer. cbn [step].
    destruct (list_eq_dec Z.eq_dec [Z.min (Z.max (0 + d) 0) 2] [1%Z]) as [A|A]; destruct (list_eq_dec Z.eq_dec [Z.min (Z.max (1 + d) 0) 2] [1%Z]) as [B|B]; destruct (list_eq_dec Z.eq_dec [Z.min (Z.max (2 + d) 0) 2] [1%Z]) as [C|C]; try lra; exfalso; try (apply (f_equal (fun l => hd 0%Z l)) in A; cbn [hd] in A); try (apply (f_equal (fun l => hd 0%Z l)) in B; cbn [hd] in B); try (apply (f_equal (fun l => hd 0%Z l)) in C; cbn [hd] in C); lia.
  - unfold over. cbn [fold_right]. rewrite !E. cbn [final]. unfold propose_integer. cbn [step Z.add Z.max Z.min Z.compare Pos.add Pos.compare Pos.compare_cont]. destruct (list_eq_dec Z.eq_dec _ _) as [A|A]; [discriminate A|]. lra.
Qed.
Print Assumptions C182_integer_refuted.

(** C183: the tolerance.  The deviation of the noise falls from 10 to an eighth of the tolerance.  As it falls, the density of a
    point that satisfies all K constraints grows, and it is always at least 2^-K times the target density; in the last stage the
    density of a point that violates a constraint by the tolerance is below exp(-32) times its target density. *)
Theorem C183_schedule : forall tol, 0 < tol < 80 ->
  nu_schedule tol 0 = 10 /\ nu_schedule tol 19 = tol / 8 /\ forall j k, (j < k)%nat -> nu_schedule tol k < nu_schedule tol j.
Proof. intros tol H. split; [apply schedule_first|]. split; [apply schedule_last; lra|]. intros. now apply schedule_decreases. Qed.
Print Assumptions C183_schedule.
Theorem C183_feasible : forall (V : Type) target (constraints : list V -> option (list R)) x c nu nu',
  0 < target x -> constraints x = Some c -> List.Forall (fun v => v <= 0) c -> 0 < nu' <= nu ->
  exists l l', log_posterior V target constraints nu x = Some l /\ log_posterior V target constraints nu' x = Some l' /\ l <= l'
    /\ ln (target x) - INR (length c) * ln 2 <= l.
Proof.
  intros V target constraints x c nu nu' T E F N. unfold log_posterior. rewrite E. destruct (Rlt_dec 0 (target x)); [|contradiction]. eexists. eexists. split; [reflexivity|]. split; [reflexivity|].
  pose proof (total_feasible c nu nu' F N). pose proof (total_half c nu F ltac:(lra)). split; lra.
Qed.
Print Assumptions C183_feasible.
Theorem C183_violated : forall (V : Type) target (constraints : list V -> option (list R)) x c tol,
  0 < target x -> constraints x = Some c -> List.Exists (fun v => tol <= v) c -> 0 < tol ->
  exists l, log_posterior V target constraints (nu_schedule tol 19) x = Some l /\ l <= ln (target x) - 32.
Proof.
  intros V target constraints x c tol T E F N. rewrite schedule_last by auto. unfold log_posterior. rewrite E. destruct (Rlt_dec 0 (target x)); [|contradiction]. eexists. split; [reflexivity|]. pose proof (total_violated c tol F N). lra.
Qed.
Print Assumptions C183_violated.
(** With the uniform target, the last stage accepts a move from a point that satisfies the K constraints to one that violates a
    constraint by the tolerance with probability at most 2^K exp(-32), as long as no ratio overflows. *)
Theorem C183_leaving : forall (V : Type) (constraints : list V -> option (list R)) x y c c' tol xmax,
  constraints x = Some c -> List.Forall (fun v => v <= 0) c -> constraints y = Some c' -> List.Exists (fun v => tol <= v) c' -> 0 < tol -> INR (length c) * ln 2 - 32 <= xmax ->
  exists l l', log_posterior V (fun _ => 1) constraints (nu_schedule tol 19) x = Some l /\ log_posterior V (fun _ => 1) constraints (nu_schedule tol 19) y = Some l'
    /\ exists q, probabilities xmax [l'] [l] = [q] /\ q <= 2 ^ length c * exp (- 32).
Proof.
  intros V constraints x y c c' tol xmax Ex Fx Ey Fy T XM.
  destruct (C183_feasible V (fun _ => 1) constraints x c (nu_schedule tol 19) (nu_schedule tol 19)) as (l & _ & L1 & _ & _ & L2); auto; [lra|rewrite schedule_last by auto; lra|].
  destruct (C183_violated V (fun _ => 1) constraints y c' tol) as (l' & L3 & L4); auto; [lra|]. exists l, l'. split; auto. split; auto. rewrite ln_1 in L2, L4.
  unfold probabilities. cbn [zip existsb map]. destruct (Rlt_dec xmax (l' - l)); [lra|]. eexists. split; [reflexivity|]. eapply Rle_trans; [apply Rmin_l|]. rewrite Rmax_left by (left; apply exp_pos).
  rewrite <- (exp_ln 2) at 1 by lra. rewrite <- Rpower_pow by apply exp_pos. unfold Rpower. rewrite ln_exp, <- exp_plus. destruct (Req_dec (l' - l) (INR (length c) * ln 2 + - 32)) as [->|]; [lra|]. left. apply exp_increasing. lra.
Qed.
Print Assumptions C183_leaving.
Example C183_case : exists c c' : list R, List.Forall (fun v => v <= 0) c /\ List.Exists (fun v => / 100 <= v) c' /\ length c = 2%nat /\ INR (length c) * ln 2 - 32 <= 709.
Proof.
  exists [0; -1], [-1; 1]. split; [repeat constructor; lra|]. split; [right; left; lra|]. split; [reflexivity|]. cbn. assert (ln 2 <= 1); [|lra]. rewrite <- (ln_exp 1). apply Rcomplements.ln_le; [lra|]. pose proof (exp_ineq1 1). lra.
Qed.
