(** NoisyBO._create_acquisition, bayes_optim/bayes_opt.py 185-194: the plugin is the best prediction at the
    observed points [data]; it replaces whatever the caller passes, and BO._create_acquisition (21-23) then
    leaves it alone.  np.min and np.max of an empty array raise ValueError. *)
From Coq Require Import Reals List.
From Verif Require Import Model_Acquisition.
Import ListNotations.
Open Scope R_scope.

Definition noisy_create_acquisition (c : cls) (minimize : bool) (s : surrogate) (data : list (list R)) (fmin fmax : R) (par : kwargs) : result acquisition :=
  if has_plugin c then
    match map (fun x => fst (s_predict s x)) data with
    | [] => Err ValueError
    | a :: l =>
        let plugin := if minimize then list_min a l else list_max a l in
        create_acquisition c minimize s fmin fmax (Kwargs (k_alpha par) (k_epsilon par) (k_t par) (Some plugin))
    end
  else create_acquisition c minimize s fmin fmax par.
