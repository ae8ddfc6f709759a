(** exploratory/unitary_cc/uccsd_sym1.py: the orbitals a UCCS calculation returns. *)
From Coq Require Import List Arith Reals.
From Verif Require Import Base Star UggModel UccModel UccReal UccSymModel.
Import ListNotations.
Local Open Scope R_scope.

Notation rfun := (nat -> nat -> R).
Section Orb.
(** scipy.linalg.expm of a square matrix with the given number of rows *)
Variable expm : nat -> rfun -> rfun.
(** t1[np.tril_indices (norb, k=-1)] = x[:]; t1 -= t1.T: uccsd_sym1.py:298-300.  numpy spreads a vector of
    one element over all positions. *)
Definition low (norb : nat) (x : list R) (p q : nat) : R :=
  match index_from 0 (tril_strict norb) p q with Some k => nth k x 0 | None => 0 end.
Definition skew_t1 (norb : nat) (x : list R) : res rfun :=
  let n := length (tril_strict norb) in
  let x := if (length x =? 1)%nat then repeat (nth 0 x 0) n else x in
  if (length x =? n)%nat then Ok (fun p q => low norb x p q - low norb x q p) else Raise ValueError.
(** rotate_mo: uccsd_sym1.py:294-302 *)
Definition rotate_mo (norb : nat) (mo_coeff : rfun) (x : list R) : res rfun :=
  do t1 <- skew_t1 norb x ;;
  let umat := expm norb t1 in
  Ok (fun mu q => bsum (K := Rstar) (seq 0 norb) (fun k => mo_coeff mu k * umat k q)).
End Orb.

(** the operator of UCCS with the amplitudes x: uccsd_sym1.py:290-292, 306-307 *)
Definition uccs_uop (norb : nat) (x : list R) : res (uop R) :=
  do u <- get_uccs_op R 0 norb None None ;;
  Ok (set_amps R (fst u) (set_uniq R (snd u) x (u_amps R (fst u)))).
(** the number of amplitudes of a UCCSD calculation, which inherits rotate_mo: uccsd_sym1.py:312-314 *)
Definition uccsd_ngen_uniq (norb : nat) : res nat :=
  do u <- get_uccsd_op R 0 norb None true ;; Ok (length (snd u)).
