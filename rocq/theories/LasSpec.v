(** Vocabulary for the state-table properties. *)
From Coq Require Import List ZArith.
From Verif Require Import Base LasModel.
Import ListNotations.
Local Open Scope Z_scope.

Definition table_entry (t : table) (r f : nat) : Z := nth f (nth r t []) 0.
(** The quantum numbers asked for, with the documented defaults (docstring of state_average_). *)
Definition req_spin (ne : Z * Z) (spins : option table) r f : Z :=
  match spins with Some t => table_entry t r f | None => fst ne - snd ne end.
Definition requested (ne : Z * Z) (charges spins smults wfnsyms : option table) (r f : nat) : qn :=
  mkQ (match charges with Some t => table_entry t r f | None => 0 end)
      (req_spin ne spins r f)
      (match smults with Some t => table_entry t r f | None => Z.abs (req_spin ne spins r f) + 1 end)
      (match wfnsyms with Some t => table_entry t r f | None => 0 end).

(** the quantum numbers reported for state r and fragment f *)
Definition reported {C} (l : las C) (r f : nat) : option qn :=
  match nth_error (get_space_info l) r with Some row => nth_error row f | None => None end.

(** the CI vector of fragment f in state r; no such entry counts as none *)
Definition ci_at {C} (ci : list (list (option C))) (f r : nat) : option C :=
  match nth_error ci f with
  | Some fr => match nth_error fr r with Some x => x | None => None end
  | None => None
  end.
Definition well_shaped {A} (n m : nat) (t : list (list A)) : Prop :=
  length t = n /\ Forall (fun row => length row = m) t.
Definition given_shape (n m : nat) (t : option table) : Prop :=
  match t with Some t => well_shaped n m t | None => True end.

(** old state i has the quantum numbers asked for as new state j *)
Definition same_numbers {C} (l : las C) charges spins smults wfnsyms (i j : nat) : Prop :=
  forall f ne, nth_error (las_nelec l) f = Some ne ->
    reported l i f = Some (requested ne charges spins smults wfnsyms j f).
