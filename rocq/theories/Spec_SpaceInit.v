(** Vocabulary of the properties of the constructors of variables and search spaces. *)
From Coq Require Import List Bool Arith ZArith QArith String.
From Verif Require Import Model_Var Model_Opt Model_Space Model_SpaceInit.
Import ListNotations.
Open Scope nat_scope.

(** What the argument says about the variable number [i]. *)
Definition given {A} (o : oarg A) (i : nat) : option A :=
  match o with ONone => None | OOne a => Some a | OList l => nth i l None end.
(** A list has one entry for each variable. *)
Definition fits {A} (o : oarg A) (dim : nat) : Prop := match o with OList l => List.length l = dim | _ => True end.
(** None stands in a list. *)
Definition none_in {A} (o : oarg A) (i : nat) : Prop := match o with OList l => nth_error l i = Some None | _ => False end.
(** The name of the variable number [i] of [dim]. *)
Definition name_at (n : narg) (dim i : nat) : string :=
  match n with NOne s => if dim =? 1 then s else (s ++ str_nat i)%string | NList l => nth i l EmptyString end.
(** One name for each variable, all different. *)
Definition names_fit (n : narg) (dim : nat) : Prop := match n with NOne _ => True | NList l => List.length l = dim /\ NoDup l end.

(** The scales of the documentation. *)
Definition known_scale (s : string) : Prop := In s ["linear"; "log"; "log10"; "logit"; "bilog"]%string.
Definition scale_at (s : oarg string) (i : nat) : string := match given s i with Some s => s | None => "linear"%string end.
Definition step_at (t : oarg Z) (i : nat) : Z := match given t i with Some t => t | None => 1%Z end.

(** [v] is a variable of the class with the range [b] and the options of the variable number [i]. *)
Definition described (c : cls) (b : list val) (p : oarg Z) (s : oarg string) (t : oarg Z) (i : nat) (v : vobj) : Prop :=
  match c with
  | CReal => exists x y rest lb ub, b = x :: y :: rest /\ as_num x = Some lb /\ as_num y = Some ub /\ (lb < ub)%Q /\
      vscale v = scale_at s i /\ known_scale (scale_at s i) /\
      vk v = KReal (fst (adjust (scale_at s i) (lb, ub))) (snd (adjust (scale_at s i) (lb, ub))) (given p i)
  | CInteger => exists lb ub, dedup b = [VI lb; VI ub] /\ (lb < ub)%Z /\ vk v = KInt lb ub (step_at t i)
  | CDiscrete => vk v = KDiscrete b
  | COrdinal => vk v = KOrdinal b
  | CSubset => vk v = KSubset b
  | CBool => vk v = KBool
  end.
(** The default value is in the range. *)
Definition default_ok (k : kind) (d : option val) : Prop := match d with Some x => contains k x = Some true | None => True end.
(** The arguments of the variable number [i] make sense. *)
Definition sensible (c : cls) (b : list val) (d : oarg val) (s : oarg string) (t : oarg Z) (i : nat) : Prop :=
  match c with
  | CReal => exists x y rest lb ub, b = x :: y :: rest /\ as_num x = Some lb /\ as_num y = Some ub /\ (lb < ub)%Q /\
      ~ none_in s i /\ known_scale (scale_at s i) /\ default_ok (KReal lb ub None) (given d i)
  | CInteger => exists lb ub, dedup b = [VI lb; VI ub] /\ (lb < ub)%Z /\ ~ none_in t i /\ step_at t i <> 0%Z /\ default_ok (KInt lb ub 1) (given d i)
  | CDiscrete => default_ok (KDiscrete b) (given d i)
  | COrdinal => default_ok (KOrdinal b) (given d i)
  | CSubset => default_ok (KSubset b) (given d i)
  | CBool => False
  end.
(** Both ends of the range of a variable are in the working range of its scale (variable.py 40-46). *)
Definition in_working_range (c : cls) (b : list val) (s : string) : Prop :=
  c = CReal -> forall x y rest lb ub, b = x :: y :: rest -> as_num x = Some lb -> as_num y = Some ub ->
    (fst (working_range s) <= lb)%Q /\ (ub <= snd (working_range s))%Q.
