(** Independent specifications for the interaction listing. *)
From Coq Require Import List ZArith Bool Arith.
From Verif Require Import Base SCModel.
Import ListNotations.
Local Open Scope Z_scope.

(** Move one electron of one spin (true: alpha) from fragment i to fragment j. *)
Definition bump (alpha : bool) (k : Z) (x : Z * Z) : Z * Z :=
  if alpha then (fst x + k, snd x) else (fst x, snd x + k).
Definition electrons (alpha : bool) (x : Z * Z) : Z := if alpha then fst x else snd x.
Definition move (o o' : occ) : Prop :=
  exists alpha i j x, i <> j /\ (j < length o)%nat /\ nth_error o i = Some x /\ 1 <= electrons alpha x /\
    o' = upd j (bump alpha 1) (upd i (bump alpha (-1)) o).
Inductive reach : nat -> occ -> occ -> Prop :=
| Reach0 o : reach 0 o o
| ReachS k o1 o2 o3 : move o1 o2 -> reach k o2 o3 -> reach (S k) o1 o3.

Definition occ_ok (o : occ) : Prop := Forall (fun x => 0 <= fst x /\ 0 <= snd x) o.

(** The interactions, in the order of an ascending double loop. *)
Definition all_pairs (nbra nket : nat) (coupled : nat -> nat -> bool) : list (nat * nat) :=
  filter (fun p => coupled (fst p) (snd p)) (list_prod (seq 0 nbra) (seq 0 nket)).
Definition as_row (p : nat * nat) : Z * Z := (Z.of_nat (fst p), Z.of_nat (snd p)).
