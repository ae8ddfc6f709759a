(** The "spinless mapping" of lassi/op_o1: rootspaces with different numbers of electrons of each spin are handled as products of
    fragments with twice as many orbitals and electrons of one spin.  lassi/op_o1/utilities.py:189-227, lassi/op_o1/stdm.py:1165-1175, 1208-1230.
    CI vectors are as in DetModel; arrays of shape (ndet,1) have one column.  Addresses of buffers are numbers. *)
From Coq Require Import List Arith Bool.
From Verif Require Import Base Star DetModel.
Import ListNotations.
Local Open Scope nat_scope.

(** np.cumsum *)
Fixpoint cumsum_from (acc : nat) (l : list nat) : list nat := match l with [] => [] | x :: r => (acc + x) :: cumsum_from (acc + x) r end.
(** range (a, b) *)
Definition range (a b : nat) : list nat := seq a (b - a).
(** spin_shuffle_idx: utilities.py:209-227 *)
Definition spin_shuffle_idx (norb_f : list nat) : list nat :=
  let off := cumsum_from 0 norb_f in
  let '(idxa, idxb) := fold_left (fun ab ij => let '(i, j) := ij in (fst ab ++ range (2 * (i - j)) (2 * i - j), snd ab ++ range (2 * i - j) (2 * i))) (combine off norb_f) ([], []) in
  idxa ++ idxb.

(** len (set (nelec_rs)) == 1, stdm.py:1165-1166 *)
Definition total_nelec (nf : nat) (nelec : nat -> nat -> nat * nat) (r : nat) : nat * nat :=
  (list_sum (map (fun f => fst (nelec f r)) (seq 0 nf)), list_sum (map (fun f => snd (nelec f r)) (seq 0 nf))).
Definition same_ne (a b : nat * nat) : bool := (fst a =? fst b) && (snd a =? snd b).
Definition is_spin_pure (nf nroots : nat) (nelec : nat -> nat -> nat * nat) : bool :=
  (0 <? nroots) && forallb (fun r => same_ne (total_nelec nf nelec r) (total_nelec nf nelec 0)) (seq 0 nroots).
(** nelec_frs[:,:,0] += nelec_frs[:,:,1]; nelec_frs[:,:,1] = 0, lines 1172-1173 *)
Definition spinless_ne (ne : nat * nat) : nat * nat := (fst ne + snd ne, 0).

Section Map.
  Context {K : star_ring}.
  (** one CI array of shape (lroots,ndeta,ndetb) to (lroots,ndet,1): civec_spinless_repr with the same nelec for all, op_o0.py:96-152 *)
  Definition spinless_mat (norb : nat) (ne : nat * nat) (ci : mat K) : mat K := fun x _ => ss2spinless norb (fst ne + snd ne) ne ci x.
  (** ci_map2spinless: utilities.py:189-207.  ptr f r: address of ci0_fr[f][r].  np.unique gives, for every address, its first
      position in the flattened array of addresses. *)
  Definition positions (nf nroots : nat) : list (nat * nat) := flat_map (fun i => map (fun j => (i, j)) (seq 0 nroots)) (seq 0 nf).
  Definition first_position (ptr : nat -> nat -> nat) (nf nroots f r : nat) : nat * nat :=
    match find (fun p => ptr (fst p) (snd p) =? ptr f r) (positions nf nroots) with Some p => p | None => (f, r) end.
  Definition ci_map2spinless (ci0 : nat -> nat -> nat -> mat K) (ptr : nat -> nat -> nat) (norb : nat -> nat) (nelec : nat -> nat -> nat * nat) (nf nroots : nat) : nat -> nat -> nat -> mat K :=
    fun f r => let '(i, j) := first_position ptr nf nroots f r in fun l => spinless_mat (norb i) (nelec i j) (ci0 i j l).
  (** lines 1203-1216 and 1226-1228: the arrays tdm1s[bra,ket,spin,p,q] and tdm2s[bra,ket,spins,p,q,r,u] over the orbitals of the mapped
      fragments, given as they are returned without the mapping, [bra,spin,q,p,ket] and [bra,spin,p,q,spin,r,u,ket] *)
  Definition clean_up (ix : list nat) (n : nat) (raw : (nat -> nat -> nat -> nat -> nat -> K) * (nat -> nat -> nat -> nat -> nat -> nat -> nat -> nat -> K)) :
    (nat -> nat -> nat -> nat -> K) * (nat -> nat -> nat -> nat -> nat -> nat -> nat -> nat -> K) :=
    let at_ i := nth i ix 0 in
    let tdm1s b k s p q := fst raw b s (at_ q) (at_ p) k in
    let tdm2s b k p q r u := snd raw b 0 (at_ p) (at_ q) 0 (at_ r) (at_ u) k in
    let tdm2s_ b k s t p q r u := tdm2s b k (s * n + p) (s * n + q) (t * n + r) (t * n + u) in
    (fun b p q k => tdm1s b k 0 q p, fun b s p q t r u k => tdm2s_ b k s t p q r u).
End Map.
