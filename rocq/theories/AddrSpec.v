(** Specification of addresses, independent of the model's helpers. *)
From Coq Require Import List ZArith Arith.
Import ListNotations.
Local Open Scope nat_scope.

(** Position of a digit string when the first digit moves fastest. *)
Fixpoint colmajor (dims digits : list nat) : nat :=
  match dims, digits with
  | d :: ds, x :: xs => x + d * colmajor ds xs
  | _, _ => 0
  end.

(** Position when the last digit moves fastest. *)
Fixpoint rowmajor_from (acc : nat) (dims digits : list nat) : nat :=
  match dims, digits with
  | d :: ds, x :: xs => rowmajor_from (acc * d + x) ds xs
  | _, _ => acc
  end.
Definition rowmajor := rowmajor_from 0.

Definition in_range (dims digits : list nat) : Prop := Forall2 (fun d x => x < d) dims digits.

(** Number of local states of each fragment in rootspace r *)
Definition dims_of (lroots : list (list nat)) (r : nat) : list nat :=
  map (fun row => nth r row 0) lroots.

(** Number of product states in the rootspaces before r *)
Definition states_before (lroots : list (list nat)) (r : nat) : nat :=
  fold_right Nat.add 0
    (map (fun r' => fold_right Nat.mul 1 (dims_of lroots r')) (seq 0 r)).

(** State k belongs to rootspace r and has the local indices ds. *)
Definition state_at (ra : list nat) (fa : list (list nat)) (k r : nat) (ds : list nat) : Prop :=
  nth_error ra k = Some r /\ Forall2 (fun row x => nth_error row k = Some x) fa ds.

(** Total size of the blocks before block b *)
Definition before (sizes : list nat) (b : nat) : nat := fold_right Nat.add 0 (firstn b sizes).
