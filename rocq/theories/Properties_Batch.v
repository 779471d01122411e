(** Properties C241-C244: box repair of several points and of the caller's array, bounds and settings as arguments. *)
From Coq Require Import List Bool Arith ZArith QArith Qabs Lia Lqa.
From Verif Require Import Model_Box Proofs_Box Properties_Box Model_Batch.
Import ListNotations.
Open Scope nat_scope.

(** Points as rows of a matrix of floats. *)
Definition points (l : list (list Q)) : list (list cell) := map (map Some) l.
(** Every point has [d] coordinates. *)
Definition of_dim (d : nat) (l : list (list Q)) : Prop := forall x, In x l -> length x = d.

Lemma repair_rows_length bs rows : length rows = length bs -> length (repair_rows bs rows) = length rows.
Proof. revert rows. induction bs as [|b bs IH]; intros [|r rows] H; simpl in *; try lia. rewrite IH; lia. Qed.
Lemma repair_rows_nth bs rows j b r :
  nth_error bs j = Some b -> nth_error rows j = Some r -> nth_error (repair_rows bs rows) j = Some (repair_row b r).
Proof. revert rows j. induction bs as [|b' bs IH]; intros [|r' rows] [|j] Hb Hr; simpl in *; try congruence. apply IH; assumption. Qed.
Lemma proper_tail b bs : Properties_Box.proper (b :: bs) -> Properties_Box.proper bs.
Proof. intros H lb ub Hin. apply H. right. exact Hin. Qed.
Lemma cell_repair b v : (forall lb ub, b = (Some lb, Some ub) -> (lb < ub)%Q) -> repair_row b [Some v] = [Some (repair1 b v)].
Proof.
  intros H. destruct b as [[lb|] [ub|]]; try reflexivity. cbn.
  destruct (Qeq_bool lb ub) eqn:E; [|reflexivity].
  apply Qeq_bool_iff in E. specialize (H lb ub eq_refl). rewrite E in H. exfalso. exact (Qlt_irrefl _ H).
Qed.
Lemma row_repair b row : (forall lb ub, b = (Some lb, Some ub) -> (lb < ub)%Q) -> repair_row b (map Some row) = map (fun v => Some (repair1 b v)) row.
Proof.
  intros H. destruct b as [[lb|] [ub|]]; try (cbn; apply map_ext; reflexivity). cbn [repair_row].
  rewrite map_map. apply map_ext. intros v.
  pose proof (cell_repair (Some lb, Some ub) v H) as K. cbn in K. cbn. congruence.
Qed.
Lemma proper_nth bs j b : Properties_Box.proper bs -> nth_error bs j = Some b -> forall lb ub, b = (Some lb, Some ub) -> (lb < ub)%Q.
Proof. intros H Hj lb ub ->. apply H. eapply nth_error_In; exact Hj. Qed.

Lemma nth_error_ext {A} (l l' : list A) : (forall i, nth_error l i = nth_error l' i) -> l = l'.
Proof.
  revert l'. induction l as [|a l IH]; intros [|a' l'] H; auto.
  - specialize (H 0). discriminate.
  - specialize (H 0). discriminate.
  - f_equal; [specialize (H 0); simpl in H; congruence|]. apply IH. intros i. exact (H (S i)).
Qed.
Lemma transpose_length c rows : length (transpose c rows) = c.
Proof. unfold transpose. rewrite map_length, seq_length. reflexivity. Qed.
Lemma transpose_row c rows j : j < c -> nth_error (transpose c rows) j = Some (map (fun r => nth j r None) rows).
Proof.
  intros H. unfold transpose.
  rewrite nth_error_map.
  rewrite (nth_error_nth' _ 0) by (rewrite seq_length; exact H). rewrite seq_nth by exact H. reflexivity.
Qed.

Lemma handle_box_length x bs : length x = length bs -> length (handle_box_constraint x bs) = length bs.
Proof. intros H. unfold handle_box_constraint. rewrite map_length, combine_length, H. lia. Qed.

Lemma columns_repaired (bs : list (bound * bound)) (l : list (list Q)) :
  Properties_Box.proper bs -> of_dim (length bs) l ->
  transpose (length l) (repair_rows bs (transpose (length bs) (points l))) = points (map (fun x => handle_box_constraint x bs) l).
Proof.
  intros HP HD. apply nth_error_ext. intros i.
  destruct (Nat.lt_ge_cases i (length l)) as [Hi | Hi].
  2:{ unfold points. rewrite (proj2 (nth_error_None _ _)), (proj2 (nth_error_None _ _)); auto; [rewrite !map_length; exact Hi|rewrite transpose_length; exact Hi]. }
  rewrite transpose_row by exact Hi. unfold points. rewrite !nth_error_map.
  destruct (nth_error l i) as [x|] eqn:Ex; [|apply nth_error_None in Ex; lia]. cbn [option_map]. f_equal.
  assert (Lx : length x = length bs) by (apply HD; eapply nth_error_In; exact Ex).
  apply nth_error_ext. intros j.
  destruct (Nat.lt_ge_cases j (length bs)) as [Hj | Hj].
  2:{ rewrite (proj2 (nth_error_None _ _)), (proj2 (nth_error_None _ _)); auto.
      - rewrite map_length, handle_box_length; assumption.
      - rewrite map_length, repair_rows_length; rewrite transpose_length; auto. }
  rewrite !nth_error_map.
  destruct (nth_error bs j) as [b|] eqn:Eb; [|apply nth_error_None in Eb; lia].
  destruct (nth_error x j) as [v|] eqn:Ev; [|apply nth_error_None in Ev; lia].
  rewrite (handle_nth _ _ _ _ _ Eb Ev). cbn [option_map].
  rewrite (repair_rows_nth bs _ j b (map (fun r => nth j r None) (map (map Some) l)) Eb (transpose_row _ _ _ Hj)).
  cbn [option_map]. f_equal.
  assert (R : map (fun r : list cell => nth j r None) (map (map Some) l) = map Some (map (fun y => nth j y 0%Q) l)).
  { rewrite !map_map. apply map_ext_in. intros y Hy. rewrite (nth_indep _ None (Some 0%Q)) by (rewrite map_length, (HD y Hy); exact Hj).
    apply map_nth. }
  rewrite R, row_repair by (exact (proper_nth _ _ _ HP Eb)). rewrite map_map.
  apply nth_error_nth with (d := None). rewrite nth_error_map, Ex. cbn [option_map]. f_equal.
  f_equal. f_equal. apply nth_error_nth. exact Ev.
Qed.

(** C241: for every number of points that is not the number of variables, a batch is repaired as its points are. *)
Theorem C241_batch_partial :
  forall (bounds : list (option Q * option Q)) (l : list (list Q)),
    Properties_Box.proper bounds -> of_dim (length bounds) l -> length l <> length bounds ->
    handle bounds (Mat (length bounds) (points l)) =
    Done (Mat (length bounds) (points (map (fun x => handle_box_constraint x bounds) l))).
Proof.
  intros bs l HP HD HN. unfold handle, bound in *. cbv beta iota zeta.
  assert (L : length (points l) = length l) by apply map_length. rewrite L.
  destruct (Nat.eqb_spec (length l) (length bs)) as [E|_]; [contradiction|].
  rewrite Nat.eqb_refl. rewrite columns_repaired by assumption. reflexivity.
Qed.
Print Assumptions C241_batch_partial.
(** C241: one point as a vector. *)
Theorem C241_vector_partial :
  forall (bounds : list (option Q * option Q)) (x : list Q),
    Properties_Box.proper bounds -> length x = length bounds -> bounds <> [] ->
    handle bounds (Vec (map Some x)) = Done (Vec (map Some (handle_box_constraint x bounds))).
Proof.
  intros bs x HP HD HN. unfold handle, bound in *. cbv beta iota zeta. rewrite map_length. cbn [length].
  destruct (Nat.eqb_spec 1 (length bs)) as [E|E].
  - destruct bs as [|b [|? ?]]; try discriminate. destruct x as [|v [|? ?]]; try discriminate.
    cbn. rewrite cell_repair; [reflexivity|]. intros lb ub ->. apply HP. left. reflexivity.
  - rewrite HD, Nat.eqb_refl.
    assert (K : transpose 1 (repair_rows bs (transpose (length bs) [map Some x])) = [map Some (handle_box_constraint x bs)]).
    { apply (columns_repaired bs [x] HP). intros y [<- | []]. exact HD. }
    unfold bound in *. rewrite K. reflexivity.
Qed.
Print Assumptions C241_vector_partial.
(** C241: a matrix that fits the bounds in neither direction is refused. *)
Theorem C241_misfit_partial :
  forall (bounds : list (option Q * option Q)) c rows,
    handle bounds (Mat c rows) = IndexError <-> c <> length bounds /\ length rows <> length bounds.
Proof.
  intros bs c rows. unfold handle, bound in *. cbv beta iota zeta.
  destruct (Nat.eqb_spec (length rows) (length bs)), (Nat.eqb_spec c (length bs)); split; try discriminate; tauto.
Qed.
Print Assumptions C241_misfit_partial.
(** C241 fails with as many points as variables: coordinates are taken for points, and a point can be left outside of its box. *)
Theorem C241_square_refuted :
  exists (bounds : list (option Q * option Q)) (l : list (list Q)) (y : list (list Q)),
    Properties_Box.proper bounds /\ of_dim (length bounds) l /\ length l = length bounds /\
    Forall (fun x => Forall2 within bounds x) l /\
    handle bounds (Mat (length bounds) (points l)) = Done (Mat (length bounds) (points y)) /\
    exists z, In z y /\ ~ Forall2 within bounds z.
Proof.
  exists [(Some 0, Some 1); (Some 10, Some 12)]%Q, [[0; 11]; [1; 12]]%Q.
  eexists [[_; _]; [_; _]]. split; [|split; [|split; [|split; [|split]]]].
  - intros lb ub [H|[H|[]]]; injection H as <- <-; reflexivity.
  - intros x [<-|[<-|[]]]; reflexivity.
  - reflexivity.
  - repeat constructor; cbn; intros ? H; injection H as <-; unfold Qle; cbn; lia.
  - reflexivity.
  - eexists. split; [right; left; reflexivity|]. intros H. inversion H as [|? ? ? ? H1 H2]; subst. destruct H1 as [_ H1].
    specialize (H1 1%Q eq_refl). revert H1. unfold Qle. vm_compute. intros H1. apply H1. reflexivity.
Qed.
Print Assumptions C241_square_refuted.
(** With equal bounds for a variable the repaired value is not a number. *)
Theorem C241_equal_bounds_refuted :
  forall (c : Q) (v : Q), handle [(Some c, Some c)] (Vec [Some v]) = Done (Vec [None]).
Proof. intros c v. cbn. assert (E : Qeq_bool c c = true) by (apply Qeq_bool_iff; reflexivity). rewrite E. reflexivity. Qed.
Print Assumptions C241_equal_bounds_refuted.
Example C241_example :
  let bounds := [(Some 0, Some 2); (Some 1, None)]%Q in
  let l := [[5; 0]; [-1; 7]; [1; 1]]%Q in
  Properties_Box.proper bounds /\ of_dim (length bounds) l /\ length l <> length bounds /\
  exists y, handle bounds (Mat 2 (points l)) = Done (Mat 2 (points y)) /\ Forall2 (Forall2 Qeq) y [[1; 0]; [1; 7]; [1; 1]]%Q.
Proof.
  cbv zeta. split; [|split; [|split]].
  - intros lb ub [H|[H|[]]]; [injection H as <- <-; reflexivity|discriminate].
  - intros x [<-|[<-|[<-|[]]]]; reflexivity.
  - discriminate.
  - eexists [[_; _]; [_; _]; [_; _]]. split; [reflexivity|]. repeat constructor.
Qed.

(** C242: the caller's data.  Anything but an array of floats is left as it was, and so is an array of floats when the call
    raises. *)
Theorem C242_copied_partial :
  forall bounds x, snd (handle_call Copied bounds x) = x.
Proof. intros bs x. unfold handle_call. destruct (handle bs x); reflexivity. Qed.
Print Assumptions C242_copied_partial.
Theorem C242_raised_partial :
  forall st bounds x, fst (handle_call st bounds x) = IndexError -> snd (handle_call st bounds x) = x.
Proof. intros st bs x. unfold handle_call. destruct (handle bs x); [discriminate|reflexivity]. Qed.
Print Assumptions C242_raised_partial.
(** C242: points inside of the box keep their values, however they are stored. *)
Theorem C242_inside_partial :
  forall st (bounds : list (option Q * option Q)) (l : list (list Q)),
    Properties_Box.proper bounds -> length l <> length bounds -> Forall (fun x => Forall2 within bounds x) l ->
    exists l', snd (handle_call st bounds (Mat (length bounds) (points l))) = Mat (length bounds) (points l') /\
               Forall2 (Forall2 Qeq) l' l.
Proof.
  intros st bs l HP HN HW.
  assert (HD : of_dim (length bs) l).
  { intros x Hx. rewrite Forall_forall in HW. specialize (HW x Hx). clear -HW. induction HW; simpl; auto. }
  unfold handle_call. rewrite C241_batch_partial by assumption.
  assert (R : forall l : list (list Q), Forall2 (Forall2 Qeq) l l).
  { clear. induction l as [|x l IH]; constructor; auto. clear. induction x; constructor; auto. reflexivity. }
  destruct st; cbn [snd]; [|exists l; split; [reflexivity|apply R]].
  eexists. split; [reflexivity|].
  clear HN HD R. induction HW as [|x l Hx HW IH]; cbn [map]; constructor; [|exact IH].
  clear IH HW. unfold handle_box_constraint.
  revert HP. induction Hx as [|b v bs x Hb Hx IH]; intros HP; cbn [combine map fst snd]; constructor.
  - destruct b as [[lb|] [ub|]]; cbn [repair1]; try reflexivity.
    destruct Hb as [H1 H2]. apply reflect_id; [apply HP; left; reflexivity|apply H1; reflexivity|apply H2; reflexivity].
  - apply IH. exact (proper_tail _ _ HP).
Qed.
Print Assumptions C242_inside_partial.
(** C242 fails for an array of floats: after the call it holds the repaired values, for every array. *)
Theorem C242_float_array_refuted :
  forall bounds x y, fst (handle_call FloatArray bounds x) = Done y -> snd (handle_call FloatArray bounds x) = y.
Proof. intros bs x y. unfold handle_call. destruct (handle bs x); cbn; congruence. Qed.
Print Assumptions C242_float_array_refuted.
Theorem C242_changed_refuted :
  exists (bounds : list (option Q * option Q)) x,
    Properties_Box.proper bounds /\ snd (handle_call FloatArray bounds (Vec (map Some x))) <> Vec (map Some x) /\
    snd (handle_call Copied bounds (Vec (map Some x))) = Vec (map Some x) /\ length x = length bounds.
Proof.
  exists [(Some 0, Some 1)]%Q, [3 # 2]%Q. split; [|split; [|split]]; try reflexivity.
  - intros lb ub [H|[]]; injection H as <- <-; reflexivity.
  - cbn. unfold repair_row, reflect_cell. cbn. discriminate.
Qed.
Print Assumptions C242_changed_refuted.

(** ** C243 *)
(** One number, or an iterable with one entry, stands for all variables; an iterable with an entry for each variable is taken as
    it is. *)
Definition number (v : pyval) : Prop := match v with PInt _ | PFloat _ | PNan | PInf _ => True | _ => False end.
Definition all_variables (b : pyval) (dim : nat) (l : list pyval) : Prop := length l = dim /\ forall v, In v l -> v = b.

Lemma repeat_all {A} (b : A) n : length (repeat b n) = n /\ forall v, In v (repeat b n) -> v = b.
Proof. split; [apply repeat_length|]. intros v H. exact (repeat_spec _ _ _ H). Qed.
Lemma concat_repeat {A} (b : A) n : List.concat (repeat [b] n) = repeat b n.
Proof. induction n; cbn; congruence. Qed.

Theorem C243_number_partial :
  forall eval b dim, number b ->
    (exists l, set_bounds eval b dim = inr l /\ all_variables b dim l) /\
    (exists l, set_bounds eval (PIter [b]) dim = inr l /\ all_variables b dim l).
Proof.
  intros ev b dim H. split; exists (repeat b dim); (split; [|apply repeat_all]).
  - unfold set_bounds. destruct b; try contradiction; cbn [py_len]; rewrite repeat_length, Nat.eqb_refl; reflexivity.
  - unfold set_bounds. cbn [length Nat.eqb py_len]. rewrite concat_repeat, repeat_length, Nat.eqb_refl. reflexivity.
Qed.
Print Assumptions C243_number_partial.
Theorem C243_iterable_partial :
  forall eval l dim, length l <> 1 ->
    set_bounds eval (PIter l) dim = if length l =? dim then inr l else inl AssertionError.
Proof. intros ev l dim H. unfold set_bounds. destruct (Nat.eqb_spec (length l) 1) as [E|E]; [contradiction|]. reflexivity. Qed.
Print Assumptions C243_iterable_partial.
(** Whatever is accepted has an entry for each variable. *)
Theorem C243_length_partial :
  forall eval b dim l, set_bounds eval b dim = inr l -> length l = dim.
Proof.
  intros ev b dim l. unfold set_bounds.
  match goal with |- match ?x with inl _ => _ | inr _ => _ end = _ -> _ => destruct x as [e|v] end; [discriminate|].
  destruct (py_len v) as [e|k]; [discriminate|]. destruct (Nat.eqb_spec (length k) dim); [|discriminate]. congruence.
Qed.
Print Assumptions C243_length_partial.
(** C243 fails for texts and for numpy integers: the text of a number or of one entry is refused although the value is accepted
    (with two variables), and a numpy integer is refused. *)
Theorem C243_text_refuted :
  forall (eval : nat -> pyerror + pyval) t b, number b ->
    (eval t = inr b -> forall dim, set_bounds eval (PText t) dim = inl TypeError) /\
    (eval t = inr (PIter [b]) -> forall dim, dim <> 1 -> set_bounds eval (PText t) dim = inl AssertionError).
Proof.
  intros ev t b H. split; intros E dim; unfold set_bounds; rewrite E.
  - destruct b; try contradiction; reflexivity.
  - intros D. cbn [py_len length]. destruct dim as [|[|dim]]; [reflexivity|congruence|reflexivity].
Qed.
Print Assumptions C243_text_refuted.
Theorem C243_other_refuted : forall eval dim, set_bounds eval POther dim = inl TypeError.
Proof. reflexivity. Qed.
Print Assumptions C243_other_refuted.
Example C243_example :
  number (PInt 3) /\ set_bounds (fun _ => inr (PInt 3)) (PInt 3) 2 = inr [PInt 3; PInt 3] /\
  set_bounds (fun _ => inr (PInt 3)) (PText 0) 2 = inl TypeError /\
  set_bounds (fun _ => inr (PIter [PInt 3])) (PText 0) 2 = inl AssertionError /\
  set_bounds (fun _ => inr (PInt 3)) (PIter [PInt 1; PFloat (1#2)]) 2 = inr [PInt 1; PFloat (1#2)].
Proof. repeat split. Qed.

(** ** C244 *)
(** The integer part, towards zero. *)
Definition integer_part (q : Q) (n : Z) : Prop :=
  ((0 <= q -> inject_Z n <= q /\ q < inject_Z n + 1) /\ (q <= 0 -> q <= inject_Z n /\ inject_Z n - 1 < q))%Q.

Theorem C244_number_partial :
  forall eval, (forall n, arg_to_int eval (PInt n) = inr n) /\
    (forall q, exists n, arg_to_int eval (PFloat q) = inr n /\ integer_part q n).
Proof.
  intros ev. split; [reflexivity|]. intros [a b]. exists (truncate (a # b)). split; [reflexivity|].
  unfold truncate, integer_part. cbn [Qnum Qden].
  pose proof (Z.quot_rem' a (Zpos b)) as E. split; intros H; unfold Qle, Qlt, Qplus, Qminus, Qopp, inject_Z in *; cbn [Qnum Qden] in *;
    rewrite ?Z.mul_1_r, ?Pos.mul_1_l, ?Z.mul_1_l in *.
  - pose proof (Z.rem_bound_pos a (Zpos b) H eq_refl) as B.
    revert E B. generalize (Z.quot a (Zpos b)) (Z.rem a (Zpos b)). intros k r E B. split; lia.
  - assert (N : (a <= 0)%Z) by (rewrite ?Z.mul_1_r in H; exact H). assert (B : (- Zpos b < Z.rem a (Zpos b) <= 0)%Z).
    { pose proof (Z.rem_bound_pos (- a) (Zpos b) ltac:(lia) eq_refl) as B. rewrite Z.rem_opp_l' in B. lia. }
    revert E B. generalize (Z.quot a (Zpos b)) (Z.rem a (Zpos b)). intros k r E B. unfold Qplus. cbn [Qnum Qden]. split; lia.
Qed.
Print Assumptions C244_number_partial.
(** A text counts as the number it stands for; what is not a number is refused with ValueError, an infinity with OverflowError. *)
Theorem C244_text_partial :
  forall (eval : nat -> pyerror + pyval) t b, number b -> eval t = inr b -> arg_to_int eval (PText t) = arg_to_int eval b.
Proof. intros ev t b H E. unfold arg_to_int at 1. rewrite E. destruct b; try contradiction; reflexivity. Qed.
Print Assumptions C244_text_partial.
Theorem C244_refused_partial :
  forall eval b, (forall t, b <> PText t) ->
    ((exists n, arg_to_int eval b = inr n) <-> (exists n, b = PInt n) \/ (exists q, b = PFloat q)).
Proof.
  intros ev b T. split.
  - intros [n H]. destruct b; cbn in H; try discriminate; eauto. exfalso. exact (T t eq_refl).
  - intros [[n ->] | [q ->]]; eexists; reflexivity.
Qed.
Print Assumptions C244_refused_partial.
(** C244 fails for a numpy integer. *)
Theorem C244_other_refuted : forall eval, arg_to_int eval POther = inl ValueError.
Proof. reflexivity. Qed.
Print Assumptions C244_other_refuted.
Example C244_example :
  arg_to_int (fun _ => inr (PFloat (1000#1))) (PText 0) = inr 1000%Z /\ arg_to_int (fun _ => inr POther) (PFloat (-7#2)) = inr (-3)%Z /\
  integer_part (-7#2) (-3).
Proof. repeat split; intros; try reflexivity; unfold Qle, Qlt in *; cbn in *; lia. Qed.
