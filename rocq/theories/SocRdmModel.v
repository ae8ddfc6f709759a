(** Density matrices of states with spin-orbit coupling: roots_trans_rdm12s, lassi/op_o1/rdm.py:623-728, when the rootspaces may have different
    numbers of electrons of each spin.  The mapping of the CI vectors is that of [SpinlessModel]; masks, memory check and logging are left out. *)
From Coq Require Import List NArith ZArith Arith Bool.
From Verif Require Import Base Star AddrModel TransModel SpinlessModel LasFock CrunchModel CrunchSpec CrunchEnd PropCrunch HalfModel HalfFacts HalfDms PropHalf ScatterModel StdmModel RdmModel RdmEnd PropScatter PropSpinless.
Import ListNotations.
Local Open Scope nat_scope.

(** the arrays returned: rdm1s[root,spin,p,q], rdm2s[root,spin,p,q,spin,r,u], or with the spins among the orbitals of rdm1s *)
Inductive rdm_out {K : star_ring} : Type :=
| BySpin (d1 : nat -> nat -> nat * nat -> nat * nat -> K) (d2 : nat -> nat -> nat * nat -> nat * nat -> nat -> nat * nat -> nat * nat -> K)
| BySpinOrbital (d1 : nat -> nat -> nat -> K) (d2 : nat -> nat -> nat -> nat -> nat -> nat -> nat -> K).
(** rdm.py:666, 709-726: ix = spin_shuffle_idx (nlas) on every axis, the blocks of both spins, [:,0] and the transposes.  The orbital with number i
    of the arrays of LRRDM is that of the fragments with twice their orbitals (line 667). *)
Definition tidy {K : star_ring} (nlas : list nat) (R : @rdms K) : @rdm_out K :=
  let n := list_sum nlas in
  let ix i := locate (map (Nat.mul 2) nlas) (nth i (spin_shuffle_idx nlas) 0) in
  BySpinOrbital (fun root p q => R root (X1 0 (ix q) (ix p)))
    (fun root s p q t r u => sconj (R root (X2 0 (ix (s * n + p)) (ix (s * n + q)) (ix (t * n + r)) (ix (t * n + u))))).
(** with the tables and overlaps of the fragments given; the second result is the argument nelec_frs after the call (lines 670-671) *)
Definition trans_rdm12s {K : star_ring} (C : ci_set K) (ptr : nat -> nat -> nat) (half : K) (big : K -> bool) (pyset : list nat -> list nat) (ints : nat -> @fmats K) (ovlp : nat -> nat -> nat -> list (list K))
    (si_bra si_ket : list (list K)) (hermi : bool) : res (rdm_out * (nat -> nat -> nat * nat)) :=
  if is_spin_pure (c_nf C) (c_nroots C) (nelec_frs C)
  then do R <- make_rdm (space C) half big pyset ints ovlp si_bra si_ket hermi ;; Ok (BySpin (out1 R) (out2 R), nelec_frs C)
  else do R <- make_rdm_shuffled (space (spinless_ci C ptr)) (spinK K (w_nelec (space C))) half big pyset ints ovlp si_bra si_ket hermi ;;
    Ok (tidy (w_nlas (space C)) R, fun f r => spinless_ne (nelec_frs C f r)).
(** from the CI vectors, lines 677-684 *)
Definition trans_rdm12s_of_ci {K : star_ring} (C : ci_set K) (ptr : nat -> nat -> nat) (half : K) (small big : K -> bool) (pyset : list nat -> list nat)
    (si_bra si_ket : list (list K)) (hermi : bool) : res (rdm_out * (nat -> nat -> nat * nat)) :=
  let C' := if is_spin_pure (c_nf C) (c_nroots C) (nelec_frs C) then C else spinless_ci C ptr in
  do l <- tables C' small ;; trans_rdm12s C ptr half big pyset (fun f => nth f l (mkFmats (fun _ _ _ => None) (fun _ _ _ => None) (fun _ _ _ => None) (fun _ _ => None) (fun _ _ => None) (fun _ _ => None))) (frag_ovlp C') si_bra si_ket hermi.
