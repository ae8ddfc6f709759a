(** Product-state CI: density matrices and effective fragment Hamiltonians,
    my_pyscf/mcscf/productstate.py.  The fragment CI solvers are represented by the density matrices
    they return; numbers are elements of a commutative ring, 0.5 is an element [half]. *)
From Coq Require Import List Arith Bool.
From Verif Require Import Star.
Import ListNotations.
Local Open Scope star_scope.

Section P.
Context {K : star_ring}.

(** What the solver of one fragment returns: number of orbitals, spin-separated one-body and
    spin-summed two-body density matrices (make_rdm1s, make_rdm2), with fragment-local indices. *)
Record pfrag := mkPF { p_no : nat; p_d1 : bool -> nat -> nat -> K; p_d2 : nat -> nat -> nat -> nat -> K }.

(** ni = np.cumsum (norb_f) - norb_f *)
Fixpoint offs (k : nat) (fr : list pfrag) : list nat :=
  match fr with [] => [] | F :: r => k :: offs (k + p_no F) r end.
Definition blocks (fr : list pfrag) : list (nat * pfrag) := combine (offs 0 fr) fr.
Definition norb (fr : list pfrag) : nat := list_sum (map p_no fr).
(** the slice i:j of fragment (i, F) *)
Definition inb (b : nat * pfrag) (p : nat) : bool := (fst b <=? p) && (p <? fst b + p_no (snd b)).
Definition blk (b : nat * pfrag) : list nat := seq (fst b) (p_no (snd b)).

Definition T2 := nat -> nat -> K.
Definition T4 := nat -> nat -> nat -> nat -> K.

(** make_rdm1s: productstate.py:284-305 *)
Definition write1 (s : bool) (t : T2) (b : nat * pfrag) : T2 := fun p q =>
  if inb b p && inb b q then p_d1 (snd b) s (p - fst b) (q - fst b) else t p q.
Definition make_rdm1s (fr : list pfrag) (s : bool) : T2 := fold_left (write1 s) (blocks fr) (fun _ _ => s0).

(** make_rdm2: productstate.py:311-331 *)
Definition write2 (t : T4) (b : nat * pfrag) : T4 := fun p q r s =>
  if inb b p && inb b q && inb b r && inb b s
  then p_d2 (snd b) (p - fst b) (q - fst b) (r - fst b) (s - fst b) else t p q r s.
Fixpoint combinations2 {A} (l : list A) : list (A * A) :=
  match l with [] => [] | x :: r => map (pair x) r ++ combinations2 r end.
(** dm2[b0,b1,b2,b3] = v *)
Definition put (t : T4) (b0 b1 b2 b3 : nat * pfrag) (v : T4) : T4 := fun p q r s =>
  if inb b0 p && inb b1 q && inb b2 r && inb b3 s then v p q r s else t p q r s.
Definition write_pair (da db : T2) (t : T4) (bc : (nat * pfrag) * (nat * pfrag)) : T4 :=
  let b := fst bc in let c := snd bc in
  let d1 := fun p q => da p q + db p q in
  (* d2 = outer (d1_ij, d1_kl) *)
  let d2 : T4 := fun p q r s => d1 p q * d1 r s in
  let t := put t b b c c d2 in
  let t := put t c c b b (fun p q r s => d2 r s p q) in
  (* d2 = outer (d1a_ij, d1a_kl) + outer (d1b_ij, d1b_kl) *)
  let x2 : T4 := fun p q r s => da p q * da r s + db p q * db r s in
  let t := put t b c c b (fun p q r s => - x2 p s q r) in
  put t c b b c (fun p q r s => - x2 q r p s).
Definition make_rdm2 (fr : list pfrag) : T4 :=
  let t := fold_left write2 (blocks fr) (fun _ _ _ _ => s0) in
  fold_left (write_pair (make_rdm1s fr false) (make_rdm1s fr true)) (combinations2 (blocks fr)) t.

(** *** Energies *)
Variable half : K.
Definition dot1 (L : list nat) (h d : bool -> T2) : K :=
  bsum [false; true] (fun s => bsum L (fun p => bsum L (fun q => h s p q * d s p q))).
Definition dot2 (L : list nat) (h d : T4) : K :=
  bsum L (fun p => bsum L (fun q => bsum L (fun r => bsum L (fun s => h p q r s * d p q r s)))).
(** energy_elec: productstate.py:239-245 *)
Definition energy_elec (ecore : K) (h1 : bool -> T2) (h2 : T4) (fr : list pfrag) : K :=
  let L := seq 0 (norb fr) in
  ecore + dot1 L h1 (make_rdm1s fr) + half * dot2 L h2 (make_rdm2 fr).

(** The potential of the density on the orbitals L: productstate.py:253-255 and 265-269.
    (v1 += v1[::-1] adds the other spin; numpy buffers the overlapping operands.) *)
Definition potential (L : list nat) (dm : bool -> T2) (h2 : T4) (s : bool) : T2 := fun a d =>
  bsum L (fun p => bsum L (fun q => dm s p q * h2 p q a d))
  + bsum L (fun p => bsum L (fun q => dm (negb s) p q * h2 p q a d))
  - bsum L (fun p => bsum L (fun q => dm s p q * h2 a q p d)).

(** project_hfrag: productstate.py:247-281; the effective Hamiltonians of one fragment; h1eff
    has fragment-local indices *)
Definition project_frag (ecore : K) (h1 : bool -> T2) (h2 : T4) (fr : list pfrag) (b : nat * pfrag)
  : (bool -> T2) * K :=
  let L := seq 0 (norb fr) in
  let dm1s := make_rdm1s fr in
  let dm2 := make_rdm2 fr in
  let energy_tot := ecore + dot1 L h1 dm1s + half * dot2 L h2 dm2 in
  let v1 := potential L dm1s h2 in
  let f1 := fun s p q => h1 s p q + v1 s p q in
  let v1_i := potential (blk b) dm1s h2 in
  let e_i := energy_tot - dot1 L dm1s v1_i in
  let h1eff := fun s x y => f1 s (fst b + x)%nat (fst b + y)%nat - v1_i s (fst b + x)%nat (fst b + y)%nat in
  let h1_i := fun s p q => h1 s p q - v1_i s p q in
  let e_i := e_i - (dot1 (blk b) h1_i dm1s + half * dot2 (blk b) h2 dm2) in
  (h1eff, e_i).
Definition project_hfrag (ecore : K) (h1 : bool -> T2) (h2 : T4) (fr : list pfrag) : list ((bool -> T2) * K) :=
  map (project_frag ecore h1 h2 fr) (blocks fr).
End P.
Arguments pfrag : clear implicits. Arguments T2 : clear implicits. Arguments T4 : clear implicits.
