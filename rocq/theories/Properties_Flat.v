(** When telling values raises the flat-fitness error (C260). *)
From Coq Require Import List Bool Arith ZArith QArith String Lia.
From Coq Require Lqa.
From Verif Require Import Model_Opt Spec_Opt Proofs_Opt Spec_Flat.
Import ListNotations.
Open Scope Q_scope.

Local Notation N n := (inject_Z (Z.of_nat n)).
Lemma N_S n : N (S n) == 1 + N n.
Proof. rewrite Nat2Z.inj_succ, <- Z.add_1_l, inject_Z_plus. reflexivity. Qed.
Lemma qsum_app a b : qsum (a ++ b) == qsum a + qsum b.
Proof. induction a as [|x a IH]; unfold qsum in *; cbn [app fold_right]; [ring|]. rewrite IH. ring. Qed.
Lemma shifted m l : qsum (map (fun x => (x - m) * (x - m)) l) == qsum (map (fun x => x * x) l) - 2 * m * qsum l + N (List.length l) * m * m.
Proof. induction l as [|x l IH]; unfold qsum in *; cbn [map fold_right List.length]; [change (N 0) with 0; ring|]. rewrite IH, N_S. ring. Qed.
Lemma spread_eq l : spread l == 2 * N (List.length l) * qsum (map (fun x => x * x) l) - 2 * qsum l * qsum l.
Proof.
  unfold spread. change (fold_right Qplus 0) with qsum.
  assert (G : forall k, qsum (map (fun p => (fst p - snd p) * (fst p - snd p)) (list_prod k l))
    == N (List.length l) * qsum (map (fun x => x * x) k) - 2 * qsum k * qsum l + N (List.length k) * qsum (map (fun x => x * x) l)).
  { induction k as [|x k IH]; [unfold qsum; cbn [list_prod map fold_right List.length]; change (N 0) with 0; ring|]. cbn [list_prod]. rewrite map_app, qsum_app, IH, map_map. cbn [fst snd].
    assert (E : qsum (map (fun y => (x - y) * (x - y)) l) == qsum (map (fun y => (y - x) * (y - x)) l)).
    { clear. induction l as [|y l IH]; unfold qsum in *; cbn [map fold_right]; [reflexivity|]. rewrite IH. ring. }
    rewrite E, shifted. unfold qsum. cbn [List.length map fold_right]. rewrite N_S. ring. }
  rewrite G. ring.
Qed.
Lemma N_pos n : (0 < n)%nat -> 0 < N n.
Proof. intros H. change 0 with (inject_Z 0). rewrite <- Zlt_Qlt. lia. Qed.
Lemma qvar_spread l : l <> [] -> qvar l == spread l / (2 * N (List.length l) * N (List.length l)).
Proof.
  intros NE. assert (P : 0 < N (List.length l)) by (apply N_pos; destruct l; [congruence|cbn; lia]). rewrite spread_eq. unfold qvar, qmean at 1. rewrite map_length, shifted. unfold qmean. field.
  intros E. rewrite E in P. discriminate P.
Qed.
Lemma flat_spec {xv} (d : list (row xv)) : flat d = true <-> flat_values (map (fun r => fnum (rf r)) d).
Proof.
  unfold flat, flat_values. rewrite map_length, andb_true_iff, Nat.ltb_lt, Qle_bool_iff. set (l := map _ d). set (n := N (List.length d)). set (e := 1 # 10000000000000000). clearbody e.
  assert (B : (5 < List.length d)%nat -> (qvar l <= e <-> spread l <= 2 * n * n * e)).
  { intros A. assert (P : 0 < n) by (apply N_pos; lia). assert (PP : 0 < 2 * n * n) by (repeat apply Qmult_lt_0_compat; auto; reflexivity).
    assert (V : spread l == qvar l * (2 * n * n)).
    { rewrite qvar_spread by (unfold l; destruct d; cbn in *; [lia|discriminate]). unfold l. rewrite map_length. fold n. field. intros E. rewrite E in P. discriminate P. }
    rewrite V, (Qmult_comm _ e). split; intros H; [apply Qmult_le_compat_r; auto; now apply Qlt_le_weak|]. eapply Qmult_lt_0_le_reg_r; eauto. }
  tauto.
Qed.
Lemma stored_rows {xv} (s : st xv) : Forall finrow (rows s) -> stored s = map (fun r => fnum (rf r)) (rows s).
Proof.
  unfold stored. induction 1 as [|r l F _ IH]; cbn; auto. rewrite IH. unfold finrow in F. destruct (rf r); cbn in *; auto; destruct F; discriminate.
Qed.

(** After any history of calls: the next call raises the error only if the stored values are flat, returns only if they are not, and
    raises the error whenever it has stored values that make the data flat.  (The fitting of the model does not raise this error.) *)
Theorem C260_raised : forall (xv : Type) c (ks : list (call xv)) k e s', snd (c_fit k) <> Some EFlat ->
  tell c (exec_any c init ks) k = (e, s') ->
  (e = Some EFlat -> flat_values (stored s')) /\ (e = None -> ~ flat_values (stored s')) /\
  (rows s' <> rows (exec_any c init ks) -> flat_values (stored s') -> e = Some EFlat).
Proof.
  intros xv c ks k e s' NF E. assert (F : Forall finrow (rows s')).
  { pose proof (tell_any_finite c (exec_any c init ks) k (exec_any_finite c ks init (Forall_nil _))) as G. now rewrite E in G. }
  rewrite (stored_rows _ F), <- flat_spec. set (s := exec_any c init ks) in *. clearbody s. clear ks F. unfold tell in E.
  destruct (to_geno (emode c) (c_X k) (c_idx k)) as [X|ex] eqn:G.
  2:{ injection E as <- <-. repeat split; try discriminate; [|congruence]. intros [= ->]. exfalso. clear -G. unfold to_geno in G. destruct (emode c), (c_X k); try destruct (c_idx k); try discriminate G; repeat (match type of G with context [if ?b then _ else _] => destruct b end; try discriminate G). }
  destruct (assign X (c_f k)) as [X1|].
  2:{ injection E as <- <-. repeat split; try discriminate. intros R. destruct R. destruct (c_warm k); reflexivity. }
  set (s1 := if c_warm k then s else add_evals s (List.length X1)) in *. assert (D1 : data s1 = data s) by (unfold s1; destruct (c_warm k); reflexivity).
  assert (R1 : rows s1 = rows s) by (unfold rows; now rewrite D1).
  assert (M : forall d, (let (fi, er) := update_model d (fitted (set_data s1 d)) (c_fit k) in
     let s3 := set_fitted (set_data s1 d) fi in
          match er with
          | Some e => (Some e, s3)
          | None => match xopt c s3 with Err e => (Some e, s3) | Ok None => (Some EAttribute, s3)
                    | Ok (Some r) => (None, if c_warm k then s3 else push_hist s3 (rf r)) end
          end) = (e, s') ->
     (e = Some EFlat -> flat (rows s') = true) /\ (e = None -> flat (rows s') <> true) /\ (rows s' <> rows s -> flat (rows s') = true -> e = Some EFlat)).
  { intros d H. unfold update_model in H. destruct (flat d) eqn:Fd.
    - cbn zeta in H. injection H as <- <-. cbn. rewrite Fd. repeat split; auto; discriminate.
    - assert (Rd : rows s' = d /\ e <> Some EFlat).
      { assert (U : exists fi er, match d with [] => (fitted (set_data s1 d), Some EValue) | _ => c_fit k end = (fi, er) /\ er <> Some EFlat).
        { destruct d; [do 2 eexists; split; [reflexivity|discriminate]|]. destruct (c_fit k) as [fi er]. exists fi, er. auto. }
        destruct U as (fi & er & U & Ne). rewrite U in H. cbn zeta in H. destruct er as [ee|]; [injection H as <- <-; split; [reflexivity|congruence]|].
        destruct (xopt c (set_fitted (set_data s1 d) fi)) as [[r|]|ee] eqn:X0.
        - injection H as <- <-. split; [destruct (c_warm k); reflexivity|discriminate].
        - injection H as <- <-. split; [reflexivity|discriminate].
        - injection H as <- <-. split; [reflexivity|]. intros [= ->]. clear -X0. unfold xopt in X0. repeat (match type of X0 with context [match ?b with _ => _ end] => destruct b end; try discriminate X0). }
      destruct Rd as [-> Ne]. rewrite Fd. repeat split; auto; try congruence; discriminate. }
  destruct (data s1) as [[|r0 l0]|] eqn:Ed; [destruct (post_eval_check X1) as [|r1 l1] eqn:Ep| |].
  - injection E as <- <-. repeat split; try discriminate. rewrite R1. congruence.
  - exact (M _ E).
  - exact (M _ E).
  - exact (M _ E).
Qed.
Print Assumptions C260_raised.
(** Six values, of which one differs, are told; then a call with equal values only. *)
Example C260_example : let c := mkCfg true None None EList in let call v := mkCall [1; 2; 3; 4; 5; 6]%nat v None false (true, None) in
  fst (tell c init (call (FNum 2 :: repeat (FNum 1) 5))) = None /\
  fst (tell c init (call (FNum (1 + (1 # 1000000000)) :: repeat (FNum 1) 5))) = Some EFlat.
Proof. split; vm_compute; reflexivity. Qed.
