(** Terms of the squared spin before spin factors: my_pyscf/lassi/op_o1/hams2ovlp.py:219-265, 339-367; the other functions have none (None). *)
From Coq Require Import List Bool Arith ZArith Reals.
From Verif Require Import SpfacModel.
Import ListNotations.
Local Open Scope R_scope.

(** _crunch_1d_, s2: lines 228-234; d2s.diagonal (3,4).diagonal (3,4) has the elements [c,p,p,r,r], (...).diagonal (2,5).diagonal (2,3) [p,q,q,p] *)
Definition s2_1d (n : nat) (d1 : nat -> nat -> nat -> R) (d2 : nat -> nat -> nat -> nat -> nat -> R) : list (R * list nat) :=
  let s2 := 3 * sm 2 (fun s => sm n (fun p => d1 s p p)) / 4 in
  let m2 c := sm n (fun p => sm n (fun r => d2 c p p r r)) / 4 in
  let s2 := s2 + (m2 0%nat + m2 3%nat - m2 1%nat - m2 2%nat) in
  [(s2 - sm n (fun p => sm n (fun q => d2 1%nat p q q p + d2 2%nat p q q p)) / 2, [])].
(** _crunch_2d_, s2: lines 255-261 *)
Definition s2_2d (ni nj : nat) (d_i d_j : nat -> nat -> nat -> R) : list (R * list nat) :=
  let m n d := sm n (fun p => cs d 1 p p) in [(0, [0; 0]%nat); (m nj d_j * m ni d_i / 2, [1; 1]%nat)].
(** _crunch_1s_, s2: lines 359-361 *)
Definition s2_1s (ni nj : nat) (sp_i sm_j : nat -> nat -> R) : list (R * list nat) :=
  [(sm nj (fun p => sm_j p p) * sm ni (fun p => sp_i p p), [])].
