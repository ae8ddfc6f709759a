(** Spin multiplets and the matrix elements of strings of field operators between them. *)
From Coq Require Import ZArith Reals NArith List Lia Lra.
From Verif Require Import Star FockSpec LsisUpdModel.
Local Open Scope R_scope.

(** quantum numbers are doubled: [S] = 2s, [M] = 2m *)
Definition hf (z : Z) : R := IZR z / 2.
(** m = -s, -s+1, ..., s *)
Definition member (S M : Z) : Prop := (- S <= M <= S)%Z /\ exists j, (S - M = 2 * j)%Z.
(** S-|s,m> = down |s,m-1>, S+|s,m> = up |s,m+1> *)
Definition down (S M : Z) : R := sqrt ((hf S + hf M) * (hf S - hf M + 1)).
Definition up (S M : Z) : R := sqrt ((hf S - hf M) * (hf S + hf M + 1)).

(** the vectors |s,m> of [n] orbitals of each spin, numbered by 2m *)
Definition multiplet (n : nat) (S : Z) (psi : Z -> vec Rs) : Prop := forall M, member S M ->
  veq Rs (2 * n) (Sminus Rs n (psi M)) (fun e => down S M * psi (M - 2)%Z e) /\ veq Rs (2 * n) (Splus Rs n (psi M)) (fun e => up S M * psi (M + 2)%Z e).

(** field operators of orbital [p] with spin up (false) and down (true) *)
Definition so (n : nat) (b : bool) (p : nat) : nat := if b then (p + n)%nat else p.
Definition C (n : nat) (b : bool) (p : nat) : vec Rs -> vec Rs := cre Rs (2 * n) (so n b p).
Definition A (n : nat) (b : bool) (p : nat) : vec Rs -> vec Rs := ann Rs (2 * n) (so n b p).
(** <s',m'| X |s,m> *)
Definition el (n : nat) (psi' psi : Z -> vec Rs) (X : vec Rs -> vec Rs) (M' M : Z) : R := inner Rs (2 * n) (psi' M') (X (psi M)).
