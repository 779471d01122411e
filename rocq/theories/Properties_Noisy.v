(** C154 - C156: the noisy and the self-adaptive optimizer. *)
From Coq Require Import List Bool Arith ZArith QArith String Lia Permutation.
From Verif Require Import Model_Opt Model_Var Model_Ask Model_Noisy.
Import ListNotations.
Open Scope nat_scope.

(** A search that finds nothing returns the empty list. *)
Definition all_found (inner : nat -> point) (n : nat) : Prop := forall i, i < n -> inner i <> [].

Lemma filter_all {A} (f : A -> bool) l : (forall a, In a l -> f a = true) -> filter f l = l.
Proof. induction l as [|a l IH]; simpl; intros H; [reflexivity|]. rewrite (H a) by now left. now rewrite IH by auto. Qed.
Lemma candidates_all vs inner n : 1 <= n -> all_found inner n -> arg_max_acquisition vs inner true n None = Ok (map inner (seq 0 n)).
Proof.
  intros Hn H. unfold arg_max_acquisition. assert (E : (if 1 <? n then Ok (map inner (seq 0 n)) else Ok [inner 0]) = Ok (map inner (seq 0 n))).
  { destruct (1 <? n) eqn:E; [reflexivity|]. apply Nat.ltb_ge in E. assert (n = 1) by lia. subst n. reflexivity. }
  rewrite E. simpl. f_equal. apply filter_all. intros x Hx. apply in_map_iff in Hx as [i [<- Hi]]. apply in_seq in Hi.
  specialize (H i). destruct (inner i); [exfalso; now apply H; [lia|]|reflexivity].
Qed.

(** C154: if every search finds a point, the noisy optimizer proposes exactly these points, in order, with
    repetitions, whatever has been observed before. *)
Theorem C154_proposals_partial vs samp inner n_default doe_size n_point :
  let n := match n_point with Some n => n | None => n_default end in
  1 <= n -> all_found inner n ->
  noisy_ask vs samp inner true n_default doe_size n_point None = Ok (map inner (seq 0 n)).
Proof.
  intros n Hn H. unfold noisy_ask. fold n. rewrite candidates_all by assumption.
  assert (HL : List.length (map inner (seq 0 n)) = n) by now rewrite map_length, seq_length.
  destruct (map inner (seq 0 n)) as [|x X] eqn:E; [simpl in HL; lia|]. cbn [noisy_check].
  rewrite HL, Nat.ltb_irrefl. reflexivity.
Qed.
Print Assumptions C154_proposals_partial.
(** If some search finds no feasible point, it raises where the other optimizers take a random point
    instead: AssertionError, or IndexError if no search finds one. *)
Theorem C154_proposals_refuted vs samp inner n_default doe_size n_point :
  let n := match n_point with Some n => n | None => n_default end in
  (exists i, i < n /\ inner i = []) ->
  (forall count k x, In x (samp count k) -> List.length x = List.length vs) ->
  exists e, noisy_ask vs samp inner true n_default doe_size n_point None = Err e /\ (e = EAssert \/ e = EIndex).
Proof.
  intros n [i [Hi H0]] HS. unfold noisy_ask. fold n.
  assert (EC : exists C, arg_max_acquisition vs inner true n None = Ok C /\ List.length C < n).
  { unfold arg_max_acquisition.
    assert (E : (if 1 <? n then Ok (map inner (seq 0 n)) else Ok [inner 0]) = Ok (map inner (seq 0 n))).
    { destruct (1 <? n) eqn:E; [reflexivity|]. apply Nat.ltb_ge in E. assert (n = 1) by lia. subst n. now rewrite H. }
    rewrite E. simpl. eexists; split; [reflexivity|].
    assert (G : forall l, In i l -> List.length (filter (fun c : point => negb (List.length c =? 0)) (map inner l)) < List.length l).
    { induction l as [|a l IH]; [intros []|]. simpl. intros HI.
      assert (L : List.length (filter (fun c : point => negb (List.length c =? 0)) (map inner l)) <= List.length l).
      { clear. induction l as [|b l IH]; simpl; [lia|]. destruct (negb _); simpl; lia. }
      destruct (Nat.eq_dec i a) as [->|N].
      - rewrite H0. simpl. lia.
      - destruct HI as [HI|HI]; [congruence|]. specialize (IH HI). destruct (negb _); simpl; lia. }
    specialize (G (seq 0 n)). rewrite seq_length in G. apply G, in_seq. lia. }
  destruct EC as [C [-> HL]]. destruct C as [|c C]; [exists EIndex; split; [reflexivity|now right]|].
  cbn [noisy_check]. apply Nat.ltb_lt in HL. rewrite HL.
  assert (D : exists D, noisy_create_doe vs samp (n - List.length (c :: C)) None = Ok D).
  { unfold noisy_create_doe.
    assert (Fok : forall X, (forall x : point, In x X -> List.length x = List.length vs) -> exists Y, fillin vs (Some []) X = Ok Y).
    { intros X HX. unfold fillin. assert (F : forall ws (x : point), List.length x = List.length ws -> exists y, fill ws [] x = Some y).
      { induction ws as [|v ws IH]; intros [|a x] E; try discriminate; [now exists []|]. simpl.
        destruct (IH x) as [y ->]; [now injection E|]. eexists; reflexivity. }
      assert (G : exists Y, sequence (map (fill vs []) X) = Some Y).
      { induction X as [|x X IH]; [now exists []|]. simpl. destruct (F vs x) as [y ->]; [apply HX; now left|].
        destruct IH as [Y ->]; [intros z Hz; apply HX; now right|]. eexists; reflexivity. }
      destruct G as [Y ->]. now exists Y. }
    assert (G : forall passes count todo doe, exists D, noisy_doe_loop vs samp [] passes count todo doe = Ok D).
    { induction passes as [|k IH]; intros count [|todo] doe; simpl; try (eexists; reflexivity).
      destruct (Fok (samp count (S todo))) as [Y E]; [intros x Hx; now apply (HS count (S todo))|].
      unfold fillin in E. destruct (sequence (map (fill vs []) (samp count (S todo)))) as [Y'|] eqn:E'; [|discriminate].
      injection E as ->. destruct Y as [|y Y]; [apply IH|]. cbn [map noisy_check]. apply IH. }
    apply G. }
  destruct D as [D ->]. exists EAssert. split; [reflexivity|now left].
Qed.
Print Assumptions C154_proposals_refuted.
(** The initial design: a sampler that delivers what it is asked for gives exactly that many points. *)
Theorem C154_initial_design vs samp inner n_default doe_size n_point :
  let n := match n_point with Some n => n | None => doe_size end in
  1 <= n -> List.length (samp 0 n) = n -> (forall x, In x (samp 0 n) -> List.length x = List.length vs) ->
  exists X, noisy_ask vs samp inner false n_default doe_size n_point None = Ok X /\ List.length X = n /\
    X = map (round_point vs) (samp 0 n).
Proof.
  intros n Hn HL HS. unfold noisy_ask. fold n. unfold noisy_create_doe.
  destruct n as [|m] eqn:En; [lia|]. clearbody n.
  match goal with |- context [noisy_doe_loop _ _ ?f _ _ _ _] => change f with (@nil (string * val)) end. cbn [noisy_doe_loop].
  assert (F : fillin vs (Some []) (samp 0 (S m)) = Ok (samp 0 (S m))).
  { unfold fillin. assert (F : forall ws (x : point), List.length x = List.length ws -> fill ws [] x = Some x).
    { induction ws as [|v ws IH]; intros [|a x] E; try discriminate; [reflexivity|]. simpl.
      rewrite IH by now injection E. reflexivity. }
    revert HS. generalize (samp 0 (S m)). induction l as [|x l IH]; intros HS; [reflexivity|]. simpl.
    rewrite F by (apply HS; now left). simpl in IH.
    destruct (sequence (map (fill vs []) l)) eqn:E.
    - assert (E2 : @Ok (list point) l0 = Ok l) by (apply IH; intros; apply HS; now right). injection E2 as ->. reflexivity.
    - assert (E2 : @Err (list point) EValue = Ok l) by (apply IH; intros; apply HS; now right). discriminate. }
  match goal with |- context [fillin vs ?b (samp 0 (S m))] => replace (fillin vs b (samp 0 (S m))) with (@Ok (list point) (samp 0 (S m))) by (symmetry; exact F) end.
  destruct (samp 0 (S m)) as [|x X] eqn:ES; [discriminate|]. cbn [map noisy_check].
  assert (E : S m - List.length (round_point vs x :: map (round_point vs) X) = 0).
  { simpl. rewrite map_length. simpl in HL. lia. }
  rewrite E. cbn [noisy_doe_loop app]. eexists; split; [reflexivity|]. split; [|reflexivity].
  simpl. rewrite map_length. simpl in HL. lia.
Qed.
Print Assumptions C154_initial_design.

Definition ex_vs : list var := [mkVar "x" (KReal 0 1 None)].
Definition ex_all (i : nat) : point := [VR (1 # 2)].
Definition ex_some (i : nat) : point := if i =? 1 then [] else [VR (1 # 2)].
Definition ex_samp (count n : nat) : list point := repeat [VR (1 # 3)] n.
(** Non-vacuity: three equal proposals are all kept; one failed search out of three raises. *)
Example C154_ex :
  all_found ex_all 3 /\
  noisy_ask ex_vs ex_samp ex_all true 3 5 None None = Ok [[VR (1 # 2)]; [VR (1 # 2)]; [VR (1 # 2)]] /\
  (exists i, i < 3 /\ ex_some i = []) /\
  noisy_ask ex_vs ex_samp ex_some true 3 5 None None = Err EAssert /\
  noisy_ask ex_vs ex_samp ex_all false 3 2 None None = Ok [[VR (1 # 3)]; [VR (1 # 3)]].
Proof. repeat split; try (vm_compute; reflexivity); [discriminate|]. exists 1. split; [lia|reflexivity]. Qed.

(** C156: after a batch of the self-adaptive optimizer the parameter is the mean of the parameters of the better
    half of the criteria.  It never is: every batch raises, whatever the criteria found (a result is a point with
    its value, or nothing). *)
Definition is_found (r : found) : Prop := (exists q, snd r = Some q) \/ r = ([], None).
Theorem C156_adaptation_refuted (ts : list Q) (results : list found) :
  2 <= List.length ts -> List.length results = List.length ts -> List.Forall is_found results ->
  exists e, adapt ts results = Raised e.
Proof.
  intros H2 HL HF. unfold adapt.
  assert (HN : 1 <= List.length ts / 2) by (change 1 with (2 / 2); apply Nat.div_le_mono; lia).
  set (N := List.length ts / 2) in *. clearbody N. destruct (nth_error results 1) as [r|] eqn:E; [|eexists; reflexivity].
  assert (Hr : is_found r) by (rewrite Forall_forall in HF; apply HF; eapply nth_error_In; eassumption).
  destruct r as [x f]; destruct Hr as [[q Hq]|Hr]; simpl in *.
  - subst f. cbn. eexists; reflexivity.
  - injection Hr as -> ->. cbn [as_items fst snd]. cbn [np_argsort numbers rows fold_right forallb List.length Nat.eqb andb map].
    destruct N as [|N]; [lia|]. cbn. eexists; reflexivity.
Qed.
Print Assumptions C156_adaptation_refuted.
(** In particular for a batch of three in which the searches find values 1, 3 and 2: the better half would
    be the second. *)
Example C156_ex : let results := [([VR 0], Some 1%Q); ([VR 1], Some 3%Q); ([VR (1 # 2)], Some 2%Q)] in
  List.Forall is_found results /\ adapt [1 # 2; 2 # 1; 3 # 1]%Q results = Raised AValue.
Proof. split; [|reflexivity]. repeat (apply Forall_cons; [left; eexists; reflexivity|]). apply Forall_nil. Qed.
