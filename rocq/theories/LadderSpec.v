(** What a CI array stands for when the orbitals 0..n-1 are those of spin up, and states of good spin. *)
From Coq Require Import List NArith ZArith Arith Bool Reals.
From Verif Require Import Star FockSpec DetModel HalfSpec LsisUpdModel SmultSpec.
Import ListNotations.
Local Open Scope nat_scope.

(** rows are the strings of spin-up electrons, columns those of spin-down electrons; the creators of the spin-up electrons stand
    to the left of those of the spin-down electrons, which have the higher numbers here *)
Definition ci_state (n : nat) (ne : nat * nat) (c : nat -> nat -> R) : vec Rs := fun d =>
  let a := bits d 0 n in let b := bits d n n in
  if (count a =? fst ne) && (count b =? snd ne) then sg Rs (Nat.odd (fst ne) && Nat.odd (snd ne)) (c (addr n (fst ne) a) (addr n (snd ne) b)) else 0%R.
(** S(S+1) with S = 2s *)
Definition spin_pure (n : nat) (S : Z) (v : vec Rs) : Prop := veq Rs (2 * n) (Ssquare Rs (1 / 2)%R n v) (fun e => hf S * (hf S + 1) * v e)%R.
(** the electrons of spin up and down of the member 2m of a multiplet 2s whose member m = s has [ne0] *)
Definition member_nelec (ne0 : nat * nat) (S M : Z) : nat * nat := let j := Z.to_nat ((S - M) / 2) in (fst ne0 - j, snd ne0 + j).
