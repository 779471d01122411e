(** Text files written by the library: Solution.to_csv (bayes_optim/solution.py:330-378) and its
    use by BaseBO.tell (bayes_optim/base.py:343-344) and MOBO.tell (bayes_optim/mobo.py:129-130)
    as the data file of a run. *)
From Coq Require Import Bool Arith ZArith QArith String Ascii List.
From Verif Require Import Model_Var Model_Opt Model_Sol.
From Verif Require Model_MOBO.
Import ListNotations.
Open Scope nat_scope.

(** The contents of a file; None: there is no such file.  Simplification: no translation of line
    ends, no I/O errors. *)
Definition file := option string.

(** The character "\n" of solution.py:373. *)
Definition newline : ascii := ascii_of_nat 10.

(** solution.py:373  delimiter.join(map(str, row)) + "\n", for all rows. *)
Definition text (delim : string) (rows : list (list string)) : string :=
  String.concat "" (map (fun r => String.append (String.concat delim r) (String newline EmptyString)) rows).

(** solution.py:374-378  open(fname, "a" or "w") and the two writelines. *)
Definition write_file (f : file) (append : bool) (s : string) : file :=
  if append then Some (String.append (match f with Some old => old | None => EmptyString end) s) else Some s.

Section Csv.
  (** str of a component value, of a float of the fitness array and of a count. *)
  Variable str_val : val -> string.
  Variable str_flt : option Q -> string.
  Variable str_int : Z -> string.


  (** np.c_[a, b]: columns side by side; ValueError when the numbers of rows differ. *)
  Definition hcat (a b : list (list string)) : sres (list (list string)) :=
    if List.length a =? List.length b then SOk (map (fun p => fst p ++ snd p) (combine a b)) else SErr SValue.

  (** A 1-d attribute as a column. *)
  Definition column {A} (f : A -> string) (l : list A) : list (list string) := map (fun a => [f a]) l.

  (** The columns np.c_ makes of the fitness array: one column for a 1-d array, whatever it
      stands for. *)
  Definition fit_columns (h : heap) (s : sol) : list (list string) :=
    map (fun i => match i with FS f => [str_flt f] | FL l => map str_flt l end) (fit_list h s).

  (** solution.py:367-371  the table of texts. *)
  Definition table (h : heap) (s : sol) (index attribute : bool) : sres (list (list string)) :=
    let data := map (map str_val) (row_list h s) in                                       (* 367 *)
    slet data := (if index then hcat (column (fun l => l) (i_list h s)) data else SOk data) in   (* 368-369 *)
    if attribute then                                                                  (* 370-371 *)
      (slet data := hcat data (column str_int (n_list h s)) in hcat data (fit_columns h s))
    else SOk data.

  (** solution.py:357-365  the header. *)
  Definition head_row (s : sol) (index attribute : bool) : list string :=
    (if index then [EmptyString] else []) ++ vn s ++ (if attribute then "n_eval"%string :: fnm s else []).

  (** solution.py:330-378  to_csv: the file afterwards.  The table is built before the file is
      opened: an exception leaves the file as it was. *)
  Definition to_csv (h : heap) (s : sol) (f : file) (delim : string) (append header index attribute : bool) : sres file :=
    slet rows := table h s index attribute in
    SOk (write_file f append
      (String.append (if header then text delim [head_row s index attribute] else EmptyString) (text delim rows))).
End Csv.

(** The data file of a run (base.py:309-344). *)
Section DataFile.
  Context {xv : Type}.
  (** The texts of the components of a point, of a fitness value and of a count. *)
  Variable cells : xv -> list string.
  Variable str_f : fval -> string.
  Variable str_n : nat -> string.

  (** One line of to_csv(header=False, append=True): label, components, n_eval, fitness. *)
  Definition line (r : row xv) : list string := rl r :: cells (rx r) ++ [str_n (rn r); str_f (rf r)].

  (** The rows a call of tell writes (base.py:343-344): those that survive post_eval_check, and only when
      neither the conversion (329), the loop (331-337), the concatenation (340) nor the model
      update (341) raises.  None: line 344 is not reached. *)
  Definition reported (c : cfg) (s : st xv) (k : call xv) : option (list (row xv)) :=
    match to_geno (emode c) (c_X k) (c_idx k) with
    | Err _ => None
    | Ok X =>
      match assign X (c_f k) with
      | None => None
      | Some X1 =>
        let X2 := post_eval_check X1 in
        match data s, X2 with
        | Some [], [] => None
        | _, _ =>
          let d := match data s with Some d0 => d0 ++ X2 | None => X2 end in
          match snd (update_model d (fitted s) (c_fit k)) with
          | Some _ => None
          | None => Some X2
          end
        end
      end
    end.

  (** base.py:309-360  tell of an optimizer with a data file. *)
  Definition tell_file (c : cfg) (s : st xv) (f : file) (k : call xv) : option exn * st xv * file :=
    (tell c s k, match reported c s k with
                   | None => f
                   | Some X => write_file f true (text "," (map line X))
                   end).

  (** A history of calls; the caller catches the exceptions. *)
  Fixpoint history (c : cfg) (s : st xv) (f : file) (ks : list (call xv)) : st xv * file :=
    match ks with
    | [] => (s, f)
    | k :: ks' => let '(_, s', f') := tell_file c s f k in history c s' f' ks'
    end.
End DataFile.

(** The data file of a multi-objective run (mobo.py:112-131).  There the file is written before
    the points are added to the data and before the models are fitted. *)
Section MoDataFile.
  Context {X : Type}.
  Variable cells : X -> list string.
  Variable str_f : Model_MOBO.fval -> string.
  (** The text of n_eval after the increment of line 118: 2 with lists, 1 with dictionaries. *)
  Variable count : string.

  (** Simplification: tell is called without labels, so these are the positions in the call. *)
  Definition mo_line (p : nat * Model_MOBO.row X) : list string :=
    str_nat (fst p) :: cells (Model_MOBO.r_x (snd p)) ++ count :: map str_f (Model_MOBO.r_fit (snd p)).
  (** mobo.py:129-130: the lines for the points of one tell. *)
  Definition mo_lines (rows : list (Model_MOBO.row X)) : list (list string) :=
    map mo_line (combine (seq 0 (List.length rows)) rows).

  (** mobo.py:95-131 with the data file. *)
  Definition mo_tell_file (n_obj : nat) (s : Model_MOBO.mstate X) (f : file) (c : Model_MOBO.call X) : Model_MOBO.outcome X * file :=
    (Model_MOBO.tell n_obj (Model_MOBO.c_fits c) s (Model_MOBO.c_warm c) (Model_MOBO.c_xs c) (Model_MOBO.c_F c),
     match Model_MOBO.tell_rows n_obj (Model_MOBO.c_warm c) (Model_MOBO.c_xs c) (Model_MOBO.c_F c) (Model_MOBO.eval_count s) with
     | (_, None) => f
     | (_, Some rows) =>
       if existsb (fun r => existsb (fun v => negb (Model_MOBO.is_fin v)) (Model_MOBO.r_fit r)) rows then f
       else write_file f true (text "," (mo_lines rows))
     end).

  (** A sequence of calls of tell with the data file. *)
  Fixpoint mo_history (n_obj : nat) (s : Model_MOBO.mstate X) (f : file) (cs : list (Model_MOBO.call X)) : Model_MOBO.mstate X * file :=
    match cs with
    | [] => (s, f)
    | c :: cs' => let '(o, f') := mo_tell_file n_obj s f c in mo_history n_obj (Model_MOBO.state_of o) f' cs'
    end.
End MoDataFile.
