(** The operators whose matrix elements the tables of a fragment hold, and which elements there are. *)
From Coq Require Import List Bool Arith ZArith Reals.
From Verif Require Import Star FockSpec LsisUpdModel SmultSpec HalfModel.
Import ListNotations.
Local Open Scope nat_scope.

Section Spec.
  Variable n : nat.
  (** spin indices: 0 is up, 1 is down; pairs: aa, ba, bb for hh and aa, ab, ba, bb for dm2 *)
  Definition dn (k : nat) : bool := negb (k =? 0).
  Definition opn (t : tag) (i : list nat) (v : vec Rs) : vec Rs :=
    match t, i with
    | Th s, [p] => A n (dn s) p v
    | Thh c, [p; q] => A n (1 <=? c) p (A n (2 <=? c) q v)
    | Tphh s, [k; r; p; q] => C n (dn k) p (A n (dn k) q (A n (dn s) r v))
    | Tsm, [p; q] => C n true p (A n false q v)
    | Tdm1, [k; p; q] => C n (dn k) p (A n (dn k) q v)
    | Tdm2, [c; p; q; r; u] => C n (dn (c / 2)) p (C n (dn (c mod 2)) r (A n (dn (c mod 2)) u (A n (dn (c / 2)) q v)))
    | _, _ => v
    end.
  Definition index (t : tag) (i : list nat) : Prop :=
    match t, i with
    | Th s, [p] => s < 2 /\ p < n
    | Thh c, [p; q] => c < 3 /\ p < n /\ q < n
    | Tphh s, [k; r; p; q] => s < 2 /\ k < 2 /\ r < n /\ p < n /\ q < n
    | Tsm, [p; q] => p < n /\ q < n
    | Tdm1, [k; p; q] => k < 2 /\ p < n /\ q < n
    | Tdm2, [c; p; q; r; u] => c < 4 /\ p < n /\ q < n /\ r < n /\ u < n
    | _, _ => False
    end.
  (** the electrons of spin up and down that the operators add *)
  Definition adds (t : tag) : Z * Z :=
    match t with
    | Tdm1 | Tdm2 => (0, 0)%Z
    | Th s | Tphh s => if dn s then (0, -1)%Z else (-1, 0)%Z
    | Tsm => (-1, 1)%Z
    | Thh c => (Z.of_nat c - 2, - Z.of_nat c)%Z
    end.
End Spec.
