(** Reading OpenMolcas logs: util/molcas_io.py:3-58.  A file is its list of lines; readline at the end of the
    file gives the empty string for ever.  Loops run on fuel and report [More] when it is used up, so that a
    loop without end shows as [More] for every amount.  The text-to-number conversion is a parameter; rows of
    a gradient are kept as lists instead of a numpy array. *)
From Coq Require Import List Bool String Ascii.
From Verif Require Import Base.
Import ListNotations.
Local Open Scope string_scope.
Local Open Scope list_scope.

Inductive run (A : Type) := Done (a : A) (rest : list string) | Err (e : exn) | More.
Arguments Done {A}. Arguments Err {A}. Arguments More {A}.
Definition readline (rest : list string) : string * list string := match rest with [] => ("", []) | l :: r => (l, r) end.
Fixpoint skip (n : nat) (line : string) (rest : list string) : string * list string :=
  match n with O => (line, rest) | S n => let (l, r) := readline rest in skip n l r end.
Definition starts (line pre : string) : bool := String.prefix pre line.

Definition is_space (c : ascii) : bool := let n := nat_of_ascii c in Nat.eqb n 32 || (Nat.leb 9 n && Nat.leb n 13).
(** line.split (): words between white space *)
Fixpoint split_ (s : string) (w : string) : list string :=
  match s with
  | EmptyString => match w with EmptyString => [] | _ => [w] end
  | String c s => if is_space c then match w with EmptyString => split_ s "" | _ => w :: split_ s "" end
                  else split_ s (w ++ String c "")%string
  end.
Definition split (s : string) : list string := split_ s "".
Fixpoint lstrip (s : string) : string := match s with String c s' => if is_space c then lstrip s' else s | _ => s end.
Fixpoint rstrip (s : string) : string :=
  match s with
  | EmptyString => EmptyString
  | String c s => match rstrip s with EmptyString => if is_space c then EmptyString else String c EmptyString | r => String c r end
  end.
Definition strip (s : string) : string := rstrip (lstrip s).

Section Float.
  Variable F : Type.
  (** float (word) *)
  Variable float : string -> res F.
  (** float (line.split ()[-1]) *)
  Definition last_float (line : string) : res F := match rev (split line) with [] => Raise IndexError | w :: _ => float w end.
  (** [float (w) for w in words[1:]] *)
  Definition row_floats (line : string) : res (list F) := mapM float (tl (split line)).

  Record data := mkData { d_ras : option (list (list F)); d_pdft : option (list F); d_grad : option (list (list (list F))) }.
  Definition app_opt {X} (o : option (list X)) (x : X) : option (list X) := Some (match o with Some l => l ++ [x] | None => [x] end).
  Definition init_opt {X} (o : option (list X)) : option (list X) := Some (match o with Some l => l | None => [] end).

  (** lines 17-19 *)
  Fixpoint energies (fuel : nat) (line : string) (rest : list string) (acc : list F) : run (list F) :=
    match fuel with
    | O => More
    | S k => if starts line "::    RASSCF root number" then
               match last_float line with
               | Raise e => Err e
               | Ok x => let (l, r) := readline rest in energies k l r (acc ++ [x])
               end
             else Done acc rest
    end.
  (** lines 14-20 *)
  Definition ras_handler (fuel : nat) (line : string) (rest : list string) (d : data) : run data :=
    let (l, r) := skip 3 line rest in
    match energies fuel l r [] with
    | Done es r' => Done (mkData (app_opt (d_ras d) es) (d_pdft d) (d_grad d)) r'
    | Err e => Err e | More => More
    end.
  (** lines 27-28 *)
  Definition pdft_handler (fuel : nat) (line : string) (rest : list string) (d : data) : run data :=
    match last_float line with Ok x => Done (mkData (d_ras d) (app_opt (d_pdft d) x) (d_grad d)) rest | Raise e => Err e end.
  (** lines 38-41 *)
  Fixpoint grad_rows (fuel : nat) (line : string) (rest : list string) (acc : list (list F)) : run (list (list F)) :=
    match fuel with
    | O => More
    | S k => if starts line " ---" then Done acc rest
             else match row_floats line with
                  | Raise e => Err e
                  | Ok g => let (l, r) := readline rest in grad_rows k l r (acc ++ [g])
                  end
    end.
  (** lines 35-42 *)
  Definition grad_handler (fuel : nat) (line : string) (rest : list string) (d : data) : run data :=
    let (l, r) := skip 8 line rest in
    match grad_rows fuel l r [] with
    | Done g r' => Done (mkData (d_ras d) (d_pdft d) (app_opt (d_grad d) g)) r'
    | Err e => Err e | More => More
    end.

  (** lines 3-8; every caller passes one flag *)
  Fixpoint read_module_loop (fuel : nat) (stop flag : string) (fn : nat -> string -> list string -> data -> run data)
      (line : string) (rest : list string) (d : data) : run data :=
    match fuel with
    | O => More
    | S k => if starts line stop then Done d rest
             else let (l, r) := readline rest in
                  if starts l flag then
                    match fn k l r d with
                    | Done d' r' => read_module_loop k stop flag fn l r' d'
                    | Err e => Err e | More => More
                    end
                  else read_module_loop k stop flag fn l r d
    end.
  Definition stop_ras := "--- Stop Module: rasscf".
  Definition stop_pdft := "--- Stop Module: mcpdft".
  Definition stop_grad := "--- Stop Module: alaska".
  Definition flag_ras := "      Final state energy(ies):".
  Definition flag_pdft := "      Total MC-PDFT energy for state".
  Definition flag_grad := " *              Molecular gradients               *".
  (** lines 10-43 *)
  Definition read_rasscf (fuel : nat) (rest : list string) (d : data) : run data :=
    read_module_loop fuel stop_ras flag_ras ras_handler "" rest (mkData (init_opt (d_ras d)) (d_pdft d) (d_grad d)).
  Definition read_mcpdft (fuel : nat) (rest : list string) (d : data) : run data :=
    read_module_loop fuel stop_pdft flag_pdft pdft_handler "" rest (mkData (d_ras d) (init_opt (d_pdft d)) (d_grad d)).
  Definition read_alaska (fuel : nat) (rest : list string) (d : data) : run data :=
    read_module_loop fuel stop_grad flag_grad grad_handler "" rest (mkData (d_ras d) (d_pdft d) (init_opt (d_grad d))).

  (** lines 49-58 *)
  Fixpoint read_log (fuel : nat) (rest : list string) (d : data) : run data :=
    match fuel with
    | O => More
    | S k =>
        match rest with
        | [] => Done d []
        | line :: rest =>
            if starts line "()()()" then
              let (_, r) := readline rest in
              let (l, r) := readline r in
              let modname := strip l in
              let go rd := match rd k r d with Done d' r' => read_log k r' d' | Err e => Err e | More => More end in
              if String.eqb modname "&ALASKA" then go read_alaska
              else if String.eqb modname "&RASSCF" then go read_rasscf
              else if String.eqb modname "&MCPDFT" then go read_mcpdft
              else read_log k r d
            else read_log k rest d
        end
    end.
  Definition read_molcas_logfile (fuel : nat) (lines : list string) : run data := read_log fuel lines (mkData None None None).
End Float.
