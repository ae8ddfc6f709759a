(** my_pyscf/mcscf/lasscf_sync_o0.py: LASSCF_UnitaryGroupGenerators, the packing of orbital rotations
    and CI vectors into one vector of variables.

    A square matrix over the orbitals is a function of two indices, an index mask a boolean one.  A CI
    vector is the list of its elements.  The CSF transformer of a fragment and state (pyscf) is a pair
    of functions with the sizes of both sides. *)
From Coq Require Import List Arith Bool.
From Verif Require Import Base.
Import ListNotations.

(** ** all_nonredundant_idx: lasscf_sync_o0.py:334-362 *)
(** idx[a:b,c:d] = True *)
Definition in_block (a b c d p q : nat) : bool := (a <=? p) && (p <? b) && (c <=? q) && (q <? d).
Definition cumsum0 (start : nat) (l : list nat) : list nat :=
  snd (fold_left (fun st x => let '(acc, out) := st in (acc + x, out ++ [acc + x])) l (start, [start])).
Definition all_nonredundant_idx (nmo ncore : nat) (ncas_sub : list nat) (p q : nat) : bool :=
  let nocc := ncore + fold_left Nat.add ncas_sub 0 in
  let sub_slice := cumsum0 ncore ncas_sub in
  let n := length ncas_sub in
  in_block ncore nmo 0 ncore p q || in_block nocc nmo ncore nocc p q ||
  in_block (nth n sub_slice 0) nmo 0 (nth 0 sub_slice 0) p q ||
  existsb (fun ix1 => existsb (fun ix2 =>
    in_block (nth ix1 sub_slice 0) (nth (S ix1) sub_slice 0) (nth ix2 sub_slice 0) (nth (S ix2) sub_slice 0) p q)
    (seq 0 ix1)) (seq 0 n).
(** frozen orbitals, given by their numbers: lasscf_sync_o0.py:406-411; symmetry: 529-532 *)
Definition nonfrozen (frozen : list nat) (idx : nat -> nat -> bool) (p q : nat) : bool :=
  idx p q && negb (existsb (Nat.eqb p) frozen || existsb (Nat.eqb q) frozen).
Definition symm_allowed (orbsym : nat -> nat) (idx : nat -> nat -> bool) (p q : nat) : bool :=
  idx p q && (orbsym p =? orbsym q).

Section Ugg.
Context {K : Type}.
Variables (k0 : K) (ksub : K -> K -> K).
Record tf : Type := mkTf { ncsf : nat; ndet : nat; det2csf : list K -> list K; csf2det : list K -> list K }.

Variable nmo : nat.
Variable uniq_orb_idx : nat -> nat -> bool.
Variable tfs : list (list tf).
Variable frozen_ci : list nat.
Definition frz (i : nat) : bool := existsb (Nat.eqb i) frozen_ci.

(** positions where the mask is True, in the order in which numpy reads and writes kappa[mask] *)
Definition positions : list (nat * nat) :=
  filter (fun pq => uniq_orb_idx (fst pq) (snd pq)) (list_prod (seq 0 nmo) (seq 0 nmo)).
(** lasscf_sync_o0.py:496-508 *)
Definition nvar_orb : nat := length positions.
Definition ncsf_sub : list (list nat) :=
  map (fun ix => map ncsf (snd ix)) (filter (fun ix => negb (frz (fst ix))) (combine (seq 0 (length tfs)) tfs)).
Definition sumN (l : list nat) : nat := fold_right Nat.add 0 l.
Definition nvar_tot : nat := nvar_orb + sumN (map sumN ncsf_sub).

(** pack: lasscf_sync_o0.py:443-450 *)
Definition pack (kappa : nat -> nat -> K) (ci_sub : list (list (list K))) : res (list K) :=
  let x := map (fun pq => kappa (fst pq) (snd pq)) positions in
  let x := fold_left (fun x ix =>
    let '(i, (trans_frag, ci_frag)) := ix in
    if frz i then x
    else fold_left (fun x tc => x ++ det2csf (fst tc) (snd tc)) (combine trans_frag ci_frag) x)
    (combine (seq 0 (length tfs)) (combine tfs ci_sub)) x in
  py_assert (length x =? nvar_tot) (Ok x).

(** unpack: lasscf_sync_o0.py:452-472.  A vector with too few elements raises.  (numpy would spread an
    orbital part of exactly one element over several positions; that case is not modelled.) *)
Fixpoint index_from (n : nat) (l : list (nat * nat)) (p q : nat) : option nat :=
  match l with
  | [] => None
  | r :: l => if (fst r =? p) && (snd r =? q) then Some n else index_from (S n) l p q
  end.
Definition scatter (x : list K) (p q : nat) : K :=
  match index_from 0 positions p q with Some n => nth n x k0 | None => k0 end.
Fixpoint unpack_frag (frozen : bool) (l : list tf) (y : list K) : res (list (list K) * list K) :=
  match l with
  | [] => Ok ([], y)
  | t :: l =>
      if frozen then do r <- unpack_frag frozen l y ;; Ok (repeat k0 (ndet t) :: fst r, snd r)
      else if length y <? ncsf t then Raise ValueError
      else do r <- unpack_frag frozen l (skipn (ncsf t) y) ;; Ok (csf2det t (firstn (ncsf t) y) :: fst r, snd r)
  end.
Fixpoint unpack_ci (i : nat) (l : list (list tf)) (y : list K) : res (list (list (list K))) :=
  match l with
  | [] => Ok []
  | trans_frag :: l =>
      do r <- unpack_frag (frz i) trans_frag y ;;
      do c <- unpack_ci (S i) l (snd r) ;; Ok (fst r :: c)
  end.
Definition unpack (x : list K) : res ((nat -> nat -> K) * list (list (list K))) :=
  if length x <? nvar_orb then Raise ValueError
  else
    let k := scatter (firstn nvar_orb x) in
    let kappa := fun p q => ksub (k p q) (k q p) in
    do c <- unpack_ci 0 tfs (skipn nvar_orb x) ;; Ok (kappa, c).

(** addr2idstr: lasscf_sync_o0.py:474-494, what the string names.  A name that was never bound
    raises NameError.  (With every fragment frozen the sum over axis 1 raises instead; here it is NameError.) *)
Inductive what : Type := Orb (p q : nat) | CI (i j k : nat).
Fixpoint a2i_state (i j addr : nat) (l : list tf) : res what :=
  match l with
  | [] => Raise NameError
  | t :: l => if ncsf t <=? addr then a2i_state i (S j) (addr - ncsf t) l else Ok (CI i j addr)
  end.
Fixpoint a2i_frag (ncsf_frag : list nat) (i addr : nat) (l : list (list tf)) : res what :=
  match l with
  | [] => Raise NameError
  | trans_frag :: l =>
      if frz i then a2i_frag ncsf_frag (S i) addr l
      else match nth_error ncsf_frag i with
           | None => Raise IndexError
           | Some n => if n <=? addr then a2i_frag ncsf_frag (S i) (addr - n) l
                       else a2i_state i 0 addr trans_frag
           end
  end.
Definition addr2idstr (addr : nat) : res what :=
  if addr <? nvar_orb then
    match nth_error positions addr with Some (p, q) => Ok (Orb p q) | None => Raise IndexError end
  else a2i_frag (map sumN ncsf_sub) 0 (addr - nvar_orb) tfs.
End Ugg.
