(** Integrals of the Hamiltonian with spin-orbit coupling: soc_context, lassi/op_o1/hams2ovlp.py:495-519, and how they reach HamS2Ovlp in ham,
    lines 521-623.  h1[i,j] has the orbitals with spin up before those with spin down; h2[p,q,r,u] has no spin.  The CI vectors, electron
    numbers and sign factors of the mapped rootspaces are those of [SpinlessModel]. *)
From Coq Require Import List Arith Bool.
From Verif Require Import Base Star TransModel SpinlessModel.
Import ListNotations.
Local Open Scope nat_scope.

(** orbital number x of fragment f among all: the slices of get_ham_2q, hams2ovlp.py:206-217 *)
Definition flat_orb (nlas : list nat) (p : nat * nat) : nat := list_sum (firstn (fst p) nlas) + snd p.
Section Soc.
  Context {K : star_ring}.
  Variable (h1 : nat -> nat -> K) (h2 : nat -> nat -> nat -> nat -> K).
  (** np.stack ([h1[:n,:n], h1[n:,n:]], axis=0): line 502 *)
  Definition pure_h1 (n s p q : nat) : K := if s =? 0 then h1 p q else h1 (n + p) (n + q).
  (** lines 506-510: an index of h2_ is below n or not *)
  Definition blocked_h2 (n i j k l : nat) : K :=
    let up x := x <? n in let orb x := if up x then x else x - n in
    if Bool.eqb (up i) (up j) && Bool.eqb (up k) (up l) then h2 (orb i) (orb j) (orb k) (orb l) else s0.
  (** h1[np.ix_(ix,ix)], h2_[np.ix_(ix,ix,ix,ix)], ix = np.argsort (spin_shuffle_idx (nlas)): lines 504-505, 511 *)
  Definition soc_ix (nlas : list nat) : list nat := argsort (spin_shuffle_idx nlas).
  Definition mapped_h1 (nlas : list nat) (i j : nat) : K := h1 (nth i (soc_ix nlas) 0) (nth j (soc_ix nlas) 0).
  Definition mapped_h2 (nlas : list nat) (i j k l : nat) : K :=
    let x a := nth a (soc_ix nlas) 0 in blocked_h2 (list_sum nlas) (x i) (x j) (x k) (x l).
End Soc.
