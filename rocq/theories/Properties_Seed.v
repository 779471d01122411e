(** Properties C16 and C83: seeds. *)
From Coq Require Import List Bool Arith Lia.
From Verif Require Import Model_Seed Proofs_Seed.
Import ListNotations.
Open Scope nat_scope.

(** A generator for the witnesses: the state counts up from the seed. *)
Definition count_gen : generator := mkGen nat nat (fun s => 100 * s) (fun r => (r, S r)).
Definition process_at (k : nat) : process count_gen := mkProcess count_gen k (fun i => 1000 * i + k).

(** C16: refuted.  For a space without a seed of its own, the optimizer's seed has no effect on
    the proposals, whatever its value: the first slice of the space re-seeds the generator from
    the operating system.  Two runs of the same program propose different points. *)
Theorem C16_seed_reproducible_refuted :
  forall s : option nat, exists (G : generator) (P1 P2 : process G) cost sp cs,
    sp_seed sp = None /\ sp_pure sp = true /\
    session G P1 cost sp s cs <> session G P2 cost sp s cs.
Proof.
  intro s. exists count_gen, (process_at 1), (process_at 2), (fun N d => N * d),
    (mkSpace None true [2]), [Ask (fun _ => 3) (fun _ => 0) (fun _ => 3)].
  repeat split. destruct s as [[|n]|]; vm_compute; discriminate.
Qed.
Print Assumptions C16_seed_reproducible_refuted.

(** Seed 0 is ignored altogether: even the numbers drawn before the first proposal (fitting a
    model on data told first) depend on the process. *)
Theorem C16_seed_zero_refuted :
  exists (G : generator) (P1 P2 : process G) cost sp cs,
    session G P1 cost sp (Some 0) cs <> session G P2 cost sp (Some 0) cs /\
    session G P1 cost sp (Some 7) cs = session G P2 cost sp (Some 7) cs.
Proof.
  exists count_gen, (process_at 1), (process_at 2), (fun N d => N * d),
    (mkSpace None true [2]), [Tell (fun _ => 2)].
  split; vm_compute; [discriminate|reflexivity].
Qed.
Print Assumptions C16_seed_zero_refuted.

(** What holds: if the space carries a seed, all numbers drawn (and hence all proposals) are
    the same in every process, for every generator, sampling method, optimizer seed and call
    sequence.  Missing: spaces without a seed. *)
Theorem C16_seed_reproducible_partial :
  forall (G : generator) (P1 P2 : process G) cost sp sd s cs,
    sp_seed sp = Some sd ->
    session G P1 cost sp s cs = session G P2 cost sp s cs.
Proof. intros G P1 P2 cost sp sd s cs H. exact (session_w G cost P1 P2 sp sd H s cs). Qed.
Print Assumptions C16_seed_reproducible_partial.

Example C16_example :
  let sp := mkSpace (Some 5) false [2; 1] in
  let cs := [Ask (fun _ => 2) (fun _ => 0) (fun _ => 1); Tell (fun h => List.length h); Ask (fun _ => 1) (fun _ => 3) (fun _ => 1)] in
  sp_seed sp = Some 5 /\ List.length (session count_gen (process_at 1) (fun N d => N * d) sp (Some 7) cs) = 24.
Proof. vm_compute. auto. Qed.

(** C83: refuted, for every generator: a seeded space of several types returns the same points
    in every call of sample with the same size, whatever happened in between. *)
Theorem C83_fresh_samples_refuted :
  forall (G : generator) (P : process G) cost sp sd N w1 w2,
    sp_seed sp = Some sd -> sp_pure sp = false ->
    fst (sample G P cost sp N w1) = fst (sample G P cost sp N w2).
Proof. exact sample_repeats. Qed.
Print Assumptions C83_fresh_samples_refuted.

(** A single-type space consumes the stream: two successive samples are consecutive draws. *)
Theorem C83_fresh_samples_partial :
  forall (G : generator) (P : process G) cost sp N M w,
    sp_pure sp = true ->
    let k N := fold_right plus 0 (map (cost N) (sp_groups sp)) in
    let '(xs, w1) := sample G P cost sp N w in
    xs ++ fst (sample G P cost sp M w1) = fst (draws G (k N + k M) w).
Proof. exact sample_pure_stream. Qed.
Print Assumptions C83_fresh_samples_partial.

Example C83_example :
  let sp := mkSpace (Some 5) false [2; 1] in
  let sp' := mkSpace (Some 5) true [2] in
  let '(xs, w) := sample count_gen (process_at 1) (fun N d => N * d) sp 2 (7, 0) in
  let '(ys, v) := sample count_gen (process_at 1) (fun N d => N * d) sp' 2 (7, 0) in
  xs = [500; 501; 502; 503; 500; 501] /\
  fst (sample count_gen (process_at 1) (fun N d => N * d) sp 2 w) = xs /\
  ys = [7; 8; 9; 10] /\ fst (sample count_gen (process_at 1) (fun N d => N * d) sp' 2 v) = [11; 12; 13; 14].
Proof. vm_compute. repeat split. Qed.
