(** What a CI array of a fragment stands for. *)
From Coq Require Import List NArith Arith Bool.
From Verif Require Import Star FockSpec DetModel.
Import ListNotations.
Local Open Scope nat_scope.

(** occupation of the orbitals from, from + 1, ... *)
Definition bits (d : N) (from n : nat) : det := map (fun k => bt d (from + k)) (seq 0 n).
(** Vector of Fock space whose coefficients are the entries of a CI array: rows are the strings of spin-up electrons, columns those
    of spin-down electrons. *)
Definition civec {K : star_ring} (n : nat) (ne : nat * nat) (c : mat K) : vec K := fun d =>
  let a := bits d n n in let b := bits d 0 n in
  if (count a =? fst ne) && (count b =? snd ne) then c (addr n (fst ne) a) (addr n (snd ne) b) else s0.
