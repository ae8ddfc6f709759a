(** my_pyscf/lassi/lassis/coords.py: UnitaryGroupGenerators of LASSIS, the variables of a LASSI
    calculation with singly excited model states (LASSIS).

    Arrays are matrices with their shape and an element function.  Numbers are elements of a
    commutative ring with conjugation in which 2 has an inverse.  A block of CI vectors is named by a
    key: reference of fragment i, spin flip s of fragment i, charge transfer from i to a with spins s
    at its two ends p. *)
From Coq Require Import List Arith ZArith Bool.
From Verif Require Import Base Star UggModel.
Import ListNotations.

Inductive key : Type := KRef (i : nat) | KSf (i s : nat) | KCh (i a s p : nat).
Definition key_eq_dec : forall a b : key, {a = b} + {a <> b}.
Proof. decide equality; apply Nat.eq_dec. Defined.

(** order of the loops of pack and unpack: lassis/coords.py:92-96, 99-107, 110-129 *)
Definition keys (nfrags : nat) : list key :=
  map KRef (seq 0 nfrags) ++
  flat_map (fun i => map (KSf i) (seq 0 2)) (seq 0 nfrags) ++
  flat_map (fun i => flat_map (fun a => flat_map (fun s => map (KCh i a s) (seq 0 2)) (seq 0 4)) (seq 0 nfrags)) (seq 0 nfrags).

(** ** the tables of CSF transformers: lassis/coords.py:25-50, arguments (norb, neleca, nelecb, smult) *)
Definition tfarg : Type := (Z * Z * Z * Z)%type.
Definition t_ref_arg (no na nb s : Z) : tfarg := (no, na, nb, s).
Definition t_sf_arg (no na nb s : Z) (k : nat) : option tfarg :=
  (if (k =? 0)%nat then if nb <? na - 1 then Some (no, na - 1, nb + 1, s - 2) else None
   else if (0 <? nb) && (na <? no) then Some (no, na + 1, nb - 1, s + 2) else None)%Z.
Definition t_ch_i_arg (no na nb s : Z) (k : nat) : option tfarg :=
  (if (k =? 0)%nat then if nb <? na then Some (no, na - 1, nb, s - 1) else None
   else if 0 <? nb then Some (no, na, nb - 1, s + 1) else None)%Z.
Definition t_ch_a_arg (no na nb s : Z) (k : nat) : option tfarg :=
  (if (k =? 0)%nat then if nb <? na then Some (no, na, nb + 1, s - 1) else None
   else if na <? no then Some (no, na + 1, nb, s + 1) else None)%Z.

Section Coords.
Variable K : star_ring.
Variable half : K.
Local Open Scope star_scope.
Record mat : Type := mkMat { nr : nat; nc : nat; el : nat -> nat -> K }.
Definition ravel (m : mat) : list K := flat_map (fun r => map (el m r) (seq 0 (nc m))) (seq 0 (nr m)).
Definition reshape (n c : nat) (y : list K) : mat := mkMat n c (fun r j => nth (r * c + j)%nat y s0).
(** a CSF transformer acts on each row *)
Record tfm : Type := mkTfm { tncsf : nat; tndet : nat; d2c : (nat -> K) -> nat -> K; c2d : (nat -> K) -> nat -> K }.
Definition vec_det2csf (t : tfm) (m : mat) : mat := mkMat (nr m) (tncsf t) (fun r => d2c t (el m r)).
Definition vec_csf2det (t : tfm) (m : mat) : mat := mkMat (nr m) (tndet t) (fun r => c2d t (el m r)).
(** c1 -= np.dot (np.dot (c1, c0.conj ().T), c0) *)
Definition remove (c0 c1 : mat) : mat :=
  mkMat (nr c1) (nc c1) (fun r j => el c1 r j -
    bsum (seq 0 (nr c0)) (fun k => bsum (seq 0 (nc c1)) (fun l => el c1 r l * sconj (el c0 k l)) * el c0 k j)).

Variables (nfrags nmo : nat) (uniq_orb_idx : nat -> nat -> bool).
(** self.t_ref[i], self.t_sf[i][s], self.t_ch_i[i][s//2] and self.t_ch_a[a][s%2] *)
Variable transformer : key -> option tfm.
(** self.ci_ref, self.ci_sf, self.ci_ch: vectors of CSFs, or None *)
Variable ci0 : key -> option mat.
Variables (north nroots : nat) (si0 : mat).
Variables (raw2orth raw2orthH : mat -> mat).

(** ncsf_ref, ncsf_sf and ncsf_ch: lassis/coords.py:202-225.  Both ends of a charge transfer get the shape of
    the vectors of its first end. *)
Definition shape (c : option mat) : nat * nat := match c with Some m => (nr m, nc m) | None => (0, 0)%nat end.
Definition ncsf_of (k : key) : nat * nat :=
  match k with
  | KRef _ | KSf _ _ => shape (ci0 k)
  | KCh i a s p => shape (ci0 (KCh i a s 0))
  end.
(** c0 is not None and (ncsf[..,0]<ncsf[..,1]); reference vectors are always packed *)
Definition active (k : key) : bool :=
  match ci0 k with
  | None => false
  | Some _ => match k with KRef _ => true | _ => (fst (ncsf_of k) <? snd (ncsf_of k))%nat end
  end.

(** pack: lassis/coords.py:88-133 *)
Definition pack_block (ci : key -> option mat) (k : key) : res (list K) :=
  if active k then
    match transformer k, ci0 k, ci k with
    | Some t, Some c0, Some c => Ok (ravel (remove c0 (vec_det2csf t c)))
    | None, _, _ => Raise AttributeError
    | _, _, _ => Raise TypeError
    end
  else Ok [].
Definition tril (n : nat) : list (nat * nat) := flat_map (fun r => map (fun s => (r, s)) (seq 0 r)) (seq 0 n).
Definition adj_mul (a b : mat) : mat :=
  mkMat (nc a) (nc b) (fun r s => bsum (seq 0 (nr a)) (fun o => sconj (el a o r) * el b o s)).
Definition mul (a b : mat) : mat :=
  mkMat (nr a) (nc b) (fun r s => bsum (seq 0 (nc a)) (fun k => el a r k * el b k s)).
Definition sub (a b : mat) : mat := mkMat (nr a) (nc a) (fun r s => el a r s - el b r s).
Definition add (a b : mat) : mat := mkMat (nr a) (nc a) (fun r s => el a r s + el b r s).
Definition pack (kappa : nat -> nat -> K) (ci : key -> option mat) (si : mat) : res (list K) :=
  let x := map (fun pq => half * (kappa (fst pq) (snd pq) - kappa (snd pq) (fst pq))) (positions nmo uniq_orb_idx) in
  do b <- mapM (pack_block ci) (keys nfrags) ;;
  let si := raw2orth si in
  let z := adj_mul si0 si in
  let xz := if (1 <? nroots)%nat then map (fun rs => el z (fst rs) (snd rs) - el z (snd rs) (fst rs)) (tril nroots) else [] in
  Ok (x ++ concat b ++ xz ++ ravel (sub si (mul si0 z))).

(** unpack: lassis/coords.py:135-200.  A part of the wrong length cannot be reshaped. *)
Fixpoint unpack_blocks (ks : list key) (y : list K) : res (list (key * option mat) * list K) :=
  match ks with
  | [] => Ok ([], y)
  | k :: ks =>
      do b <- match ci0 k with
              | None => Ok (None, y)
              | Some c0 =>
                  match transformer k with
                  | None => Raise AttributeError
                  | Some t =>
                      if active k then
                        if (length y <? nr c0 * nc c0)%nat then Raise ValueError
                        else Ok (Some (vec_csf2det t (reshape (nr c0) (nc c0) (firstn (nr c0 * nc c0) y))), skipn (nr c0 * nc c0) y)
                      else Ok (Some (mkMat (fst (ncsf_of k)) (tndet t) (fun _ _ => s0)), y)
                  end
              end ;;
      do r <- unpack_blocks ks (snd b) ;; Ok ((k, fst b) :: fst r, snd r)
  end.
Definition getk (l : list (key * option mat)) (k : key) : option mat :=
  match find (fun kv => if key_eq_dec (fst kv) k then true else false) l with Some (_, v) => v | None => None end.
Definition tril_index (r s : nat) : nat := r * (r - 1) / 2 + s.
Definition nz : nat := nroots * (nroots - 1) / 2.
Definition unpack (x : list K) : res ((nat -> nat -> K) * (key -> option mat) * mat) :=
  if (length x <? nvar_orb nmo uniq_orb_idx)%nat then Raise ValueError
  else
    let s := scatter s0 nmo uniq_orb_idx (firstn (nvar_orb nmo uniq_orb_idx) x) in
    let kappa := fun p q => s p q - s q p in
    do cy <- unpack_blocks (keys nfrags) (skipn (nvar_orb nmo uniq_orb_idx) x) ;;
    let y := snd cy in
    let si := mkMat north nroots (fun _ _ => s0) in
    let si := if (nz =? 0)%nat then si
              else
                let zl := fun r s => if (s <? r)%nat then nth (tril_index r s) (firstn nz y) s0 else s0 in
                let z := mkMat nroots nroots (fun r s => half * (zl r s - zl s r)) in
                add si (mul si0 z) in
    let y := skipn nz y in
    if (length y =? north * nroots)%nat
    then Ok (kappa, getk (fst cy), raw2orthH (add si (reshape north nroots y)))
    else Raise ValueError.

(** sum_ncsf, nvar_tot and get_sector_offsets: lassis/coords.py:227-260 *)
Definition sum_ncsf (l : list (nat * nat)) : nat :=
  sumN (map (fun s => if (fst s =? snd s)%nat then 0%nat else (fst s * snd s)%nat) l).
Definition is_sf (k : key) : bool := match k with KSf _ _ => true | _ => false end.
Definition is_ch (k : key) : bool := match k with KCh _ _ _ _ => true | _ => false end.
Definition ncsf_ref (i : nat) : nat := match transformer (KRef i) with Some t => tncsf t | None => 0 end.
Definition lens : list nat :=
  [nvar_orb nmo uniq_orb_idx; sumN (map ncsf_ref (seq 0 nfrags));
   sum_ncsf (map ncsf_of (filter is_sf (keys nfrags)));
   sum_ncsf (map ncsf_of (filter is_ch (keys nfrags)));
   nz; north * nroots]%nat.
Definition nvar_tot : nat := sumN lens.
Definition get_sector_offsets : list (nat * nat) :=
  map (fun n => (sumN (firstn n lens), sumN (firstn (S n) lens))) (seq 0 6).
End Coords.
Arguments mkMat {K}. Arguments nr {K}. Arguments nc {K}. Arguments el {K}.
Arguments mkTfm {K}. Arguments tncsf {K}. Arguments tndet {K}. Arguments d2c {K}. Arguments c2d {K}.
