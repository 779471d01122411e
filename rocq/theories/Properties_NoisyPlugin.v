(** C155: the noisy optimizer compares with the best prediction. *)
From Coq Require Import Reals List Lra.
From Verif Require Import Lib_Normal Model_Acquisition Properties_Acquisition3 Model_NoisyPlugin.
Import ListNotations.
Open Scope R_scope.

(** Whatever values have been observed ([fmin], [fmax]) and whatever plugin the caller passes, the criterion is the
    one constructed with the best predicted value among the observed points. *)
Theorem C155_best_prediction c minimize s data fmin fmax par :
  has_plugin c = true -> data <> [] ->
  exists b, best minimize (map (fun x => fst (s_predict s x)) data) b /\
    noisy_create_acquisition c minimize s data fmin fmax par =
    construct c minimize s (Kwargs (k_alpha par) (k_epsilon par) (k_t par) (Some b)).
Proof.
  intros Hp Hd. unfold noisy_create_acquisition. rewrite Hp.
  destruct data as [|x data]; [congruence|]. cbn [map].
  set (a := fst (s_predict s x)). set (l := map (fun x => fst (s_predict s x)) data).
  exists (if minimize then list_min a l else list_max a l). split.
  - unfold best. destruct minimize; [apply list_min_spec|apply list_max_spec].
  - unfold create_acquisition. rewrite Hp. reflexivity.
Qed.
Print Assumptions C155_best_prediction.
(** So no observed point is predicted to improve: the difference between the criterion's reference value and
    the prediction, for the direction of the optimisation, is nowhere positive on the data. *)
Theorem C155_no_improvement_on_data minimize s data fmin fmax par p x :
  noisy_create_acquisition EI minimize s data fmin fmax par = Ok (AEI (Some p)) -> In x data ->
  p - fst (predict minimize s x) <= 0.
Proof.
  intros H Hx. assert (Hd : data <> []) by (intros ->; destruct Hx).
  destruct (C155_best_prediction EI minimize s data fmin fmax par eq_refl Hd) as [b [[_ Hb] E]]. rewrite E in H.
  cbn [construct k_alpha k_epsilon k_t k_plugin set_plugin bind] in H.
  destruct (unexpected _ || unexpected _ || unexpected _)%bool; [discriminate|].
  injection H as H. assert (B := Hb _ (in_map (fun x => fst (s_predict s x)) _ _ Hx)). cbv beta in B.
  unfold predict. destruct (s_predict s x) as [m v]. cbn [fst] in *. destruct minimize; subst p; lra.
Qed.
Print Assumptions C155_no_improvement_on_data.

Definition sq : surrogate := Surrogate (fun x => (nth 0 x 0 * nth 0 x 0, 1)) (fun x => ([2 * nth 0 x 0], [0])) None None.
Example C155_ex : noisy_create_acquisition EI true sq [[2]; [1]; [3]] (-5) 7 (Kwargs None None None (Some 100)) = Ok (AEI (Some 1)).
Proof.
  unfold noisy_create_acquisition. cbn. unfold Rmin. destruct (Rle_dec (2 * 2) (1 * 1)); [lra|].
  destruct (Rle_dec (1 * 1) (3 * 3)); [|lra]. do 3 f_equal. lra.
Qed.
