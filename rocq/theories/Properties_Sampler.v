(** Property C36: sampling under constraints; C94: it keeps to the precision and the step. *)
From Coq Require Import List Bool Arith ZArith QArith Qabs String Lia.
From Verif Require Import Model_Opt Model_Var Model_Grid Model_Ask Spec_Ask Model_Sampler Spec_Sampler Proofs_Sampler.
Import ListNotations.
Open Scope nat_scope.
Open Scope string_scope.

(** C36, constraints and number: for every space, every constraint (also one that raises), every
    random stream: if sample(N) returns, it returns at most N points and every one satisfies the
    constraints.  [choose] is np.random.choice, which returns N positions. *)
Theorem C36_constraints_hold : forall str ks draw accepted h g tol init choose N X,
  (forall m, List.length (choose m N) = N) ->
  sample str ks draw accepted h g tol init choose N = Some X ->
  List.length X <= N /\ forall x, In x X -> satisfied h g tol x.
Proof.
  intros str ks draw accepted h g tol init choose N X C H. apply sample_rows in H. destruct H as (S1 & _ & K & L).
  split; [|intros x I; apply (K x I)]. destruct L as [L|(m & L)]; [exact L|]. rewrite C in L. exact L.
Qed.
Print Assumptions C36_constraints_hold.

(** C36, domain: if every variable is real, integer, boolean, or has levels which are all strings or
    all numbers, and the initial sample lies in the space, all points lie in the space.
    Missing: levels of mixed types and Subset variables, refuted below. *)
Theorem C36_domain_partial : forall str ks draw accepted h g tol init choose N X,
  Forall plain ks -> (forall n x, In x (init n) -> in_kinds ks x) ->
  sample str ks draw accepted h g tol init choose N = Some X ->
  forall x, In x X -> in_kinds ks x.
Proof.
  intros str ks draw accepted h g tol init choose N X P I H x Ix. apply sample_rows in H.
  destruct H as (S1 & E & K & _). destruct (K x Ix) as [I1 _].
  destruct (given h || given g).
  - apply (schedule_ok str draw accepted ks P) in E; [|apply Forall_forall; apply I].
    destruct E as [G _]. rewrite Forall_forall in G. auto.
  - injection E as <-. exact (I N x I1).
Qed.
Print Assumptions C36_domain_partial.

(** A space with all admitted kinds and an inequality constraint: one point of two is feasible. *)
Definition str36 (v : val) : string := match v with VI 1 => "1" | VB true => "True" | _ => "?" end.
Definition ks36 : list kind := [KReal 0 1 None; KInt 0 9 1; KDiscrete [VS "a"; VS "b"]; KBool].
Definition x36 : point := [VR (1 # 2); VI 3; VS "a"; VB true].
Definition y36 : point := [VR 1; VI 3; VS "b"; VB true].
Definition g36 (x : point) : option (list Q) :=
  match x with VR q :: _ => Some [(q - (3 # 4))%Q] | _ => None end.
Example C36_example :
  Forall plain ks36 /\ in_kinds ks36 x36 /\ in_kinds ks36 y36 /\
  sample str36 ks36 (fun _ _ _ _ => mkN 0 1 None) (fun _ _ _ i => Nat.eqb i 1) None (Some g36) (1 # 100)
    (fun n => List.app (repeat x36 (n - 1)) [y36]) (fun _ N => seq 0 N) 2 =
  Some [[VR (1 # 2); VI 9; VS "a"; VB true]; [VR (1 # 2); VI 9; VS "a"; VB true]].
Proof.
  split.
  { apply Forall_cons; [discriminate|]. apply Forall_cons; [cbn; lia|].
    apply Forall_cons; [left; intros v [<-|[<-|[]]]; eauto|]. apply Forall_cons; [exact I|constructor]. }
  split.
  { apply Forall2_cons; [exists (1 # 2); repeat split; discriminate|]. apply Forall2_cons; [exists 3%Z; split; [reflexivity|lia]|].
    apply Forall2_cons; [exists (VS "a"); split; [left|]; reflexivity|].
    apply Forall2_cons; [exists (VB true); split; [right; left|]; reflexivity|constructor]. }
  split.
  { apply Forall2_cons; [exists 1%Q; repeat split; discriminate|]. apply Forall2_cons; [exists 3%Z; split; [reflexivity|lia]|].
    apply Forall2_cons; [exists (VS "b"); split; [right; left|]; reflexivity|].
    apply Forall2_cons; [exists (VB true); split; [right; left|]; reflexivity|constructor]. }
  vm_compute. reflexivity.
Qed.

(** C36 refuted for levels of mixed types: np.array turns the level 1 into the string '1'. *)
Definition mixed : list kind := [KDiscrete [VI 1; VS "a"]].
Theorem C36_mixed_levels_refuted : exists str draw accepted g tol init choose X x,
  (forall n y, In y (init n) -> in_kinds mixed y) /\ (forall m, List.length (choose m 1) = 1) /\
  sample str mixed draw accepted None (Some g) tol init choose 1 = Some X /\ In x X /\ ~ in_kinds mixed x.
Proof.
  exists str36, (fun _ _ _ _ => mkN 0 0 (Some 0)), (fun _ _ _ _ => true), (fun _ => Some [(-1)%Q]), (1 # 100),
    (fun n => repeat [VS "a"] n), (fun _ N => seq 0 N), [[VS "1"]], [VS "1"].
  split. { intros n y I. apply repeat_spec in I. subst y. apply Forall2_cons; [|constructor]. exists (VS "a"). split; [right; left|]; reflexivity. }
  split; [reflexivity|]. split; [vm_compute; reflexivity|]. split; [left; reflexivity|].
  intro I. inversion I as [|? ? ? ? B]; subst. destruct B as (a & [<-|[<-|[]]] & E); discriminate.
Qed.
Print Assumptions C36_mixed_levels_refuted.

(** C36 refuted for Subset variables: no sample can be drawn under constraints at all (the call
    raises) from a space with a Subset variable, whatever the constraints and the random stream. *)
Theorem C36_subset_refuted : forall str draw accepted g tol init choose N x0 r,
  init (Nat.max N 10) = x0 :: r -> List.length x0 = 1 ->
  sample str [KSubset [VS "a"; VS "b"]] draw accepted None (Some g) tol init choose N = None.
Proof.
  intros str draw accepted g tol init choose N x0 r I L. unfold sample. cbn [given orb]. rewrite I. unfold scmc. cbn [schedule mh_steps].
  assert (E : mh_step str [KSubset [VS "a"; VS "b"]] draw accepted 0 0 (x0 :: r) = None).
  { unfold mh_step, propose, rows. cbn [List.length seq combine map fst snd].
    destruct x0 as [|v [|]]; try discriminate. cbn [propose_row propose_val].
    change (np_array str (levels (KSubset [VS "a"; VS "b"]))) with (@None (list val)). cbn [Model_Ask.sequence]. reflexivity. }
  rewrite E. reflexivity.
Qed.
Print Assumptions C36_subset_refuted.
Example C36_subset_example : exists x0 r, (fun n => repeat [VT [VS "a"]] n) (Nat.max 3 10) = x0 :: r /\ List.length x0 = 1 /\
  in_kinds [KSubset [VS "a"; VS "b"]] x0.
Proof.
  eexists _, _. split; [reflexivity|]. split; [reflexivity|]. apply Forall2_cons; [|constructor].
  exists (VT [VS "a"]). split; [left|]; reflexivity.
Qed.

(** C94 refuted: under constraints an Integer variable with step 2 takes an odd value, and a real
    variable with precision 0 takes the value 1/2. *)
Theorem C94_grid_refuted : exists str draw accepted g tol init choose X x,
  let vs := [mkVar "i" (KInt 0 4 2); mkVar "r" (KReal 0 4 (Some 0%Z))] in
  (forall n y, In y (init n) -> in_space vs y /\ round_point vs y = y) /\
  sample str (map vkind vs) draw accepted None (Some g) tol init choose 1 = Some X /\ In x X /\
  ~ in_space vs x /\ round_point vs x <> x.
Proof.
  exists str36, (fun t s _ i => match t, s with 0, 0 => mkN (1 # 2) 1 None | _, _ => mkN 0 0 None end), (fun _ _ _ _ => true),
    (fun _ => Some [(-1)%Q]), (1 # 100), (fun n => repeat [VI 0; VR 0] n), (fun _ N => seq 0 N).
  eexists _, _. cbv zeta. split.
  { intros n y I. apply repeat_spec in I. subst y. split; [|reflexivity]. apply Forall2_cons.
    - exists 0%Z. repeat split; discriminate.
    - apply Forall2_cons; [|constructor]. exists 0%Q. repeat split; discriminate. }
  split; [vm_compute; reflexivity|]. split; [left; reflexivity|]. split.
  - intro I. inversion I as [|? ? ? ? B]; subst. destruct B as (i & _ & E & _). injection E as E. lia.
  - vm_compute. discriminate.
Qed.
Print Assumptions C94_grid_refuted.
