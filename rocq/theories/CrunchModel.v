(** The cruncher functions of LSTDM, lassi/op_o1/stdm.py:744-1000, which build the transition density matrices of the
    fragments of an interaction from fragment matrices, and the accessors of the latter, lassi/op_o1/frag.py:206-430.

    Arrays are functions of their list of indices.  d1 and d2 are addressed by (fragment, orbital of the fragment): the ranges
    of get_range (lines 456-467) follow one another without overlap.  The local states have no spin multiplet to be lowered
    (smult is None: lines 224-232 and 251-258 of frag.py return the table entry).  Arithmetic is exact. *)
From Coq Require Import List ZArith Bool Arith.
From Verif Require Import Base Star SignsModel.
Import ListNotations.
Local Open Scope nat_scope.

(** An entry of tdm1s (spin, two orbitals) or of tdm2s (aa, ab, ba, bb; four orbitals). An orbital: fragment, number *)
Inductive tix := X1 (s : nat) (p q : nat * nat) | X2 (b : nat) (p q r u : nat * nat).
(** transpose (..., 4,3) and (..., 4,3,6,5): lines 1081-1083 *)
Definition tix_tr (x : tix) : tix := match x with X1 s p q => X1 s q p | X2 b p q r u => X2 b q p u r end.

Section Crunch.
  Context {K : star_ring}.
  Definition arr := list nat -> K.
  (** np.multiply.outer; a has na axes *)
  Definition outer (na : nat) (a b : arr) : arr := fun i => smul (a (firstn na i)) (b (skipn na i)).
  Definition axis (k : nat) (axes : list nat) : nat := match index_of k axes with Some m => m | None => 0 end.
  (** a.transpose (axes): axis m of the result is axis axes[m] of a *)
  Definition tpose (axes : list nat) (a : arr) : arr := fun i => a (map (fun k => nth (axis k axes) i 0) (seq 0 (length axes))).
  Definition aconj (a : arr) : arr := fun i => sconj (a i).
  (** fac * a with fac = -1 if neg *)
  Definition fmul (neg : bool) (a : arr) : arr := fun i => if neg then sopp (a i) else a i.
  (** a[(b0,b1,...),...] *)
  Definition pick (bs : list nat) (a : arr) : arr := fun i => a (nth (hd 0 i) bs 0 :: tl i).
  (** a[s,...] *)
  Definition sub (s : nat) (a : arr) : arr := fun i => a (s :: i).
  (** a.reshape (4,...) of an array with axes 2, 2, ... *)
  Definition join2 (a : arr) : arr := fun i => a (hd 0 i / 2 :: hd 0 i mod 2 :: tl i).

  (** number of orbitals of each fragment *)
  Variable norb : nat -> nat.
  Definition orb := (nat * nat)%type.
  Definition D1 := nat -> orb -> orb -> K.
  Definition D2 := nat -> orb -> orb -> orb -> orb -> K.
  Definition ofrag (f : nat) (p : orb) : bool := (fst p =? f) && (snd p <? norb f).
  Definition z1 : D1 := fun _ _ _ => s0.
  Definition z2 : D2 := fun _ _ _ _ _ => s0.
  (** d1[bs,f,g] = a *)
  Definition set1 (bs : list nat) (f g : nat) (a : arr) (d : D1) : D1 := fun s p q =>
    match index_of s bs with
    | Some k => if ofrag f p && ofrag g q then a [k; snd p; snd q] else d s p q
    | None => d s p q end.
  (** d2[bs,f1,f2,f3,f4] = a *)
  Definition set2 (bs : list nat) (f1 f2 f3 f4 : nat) (a : arr) (d : D2) : D2 := fun b p q r u =>
    match index_of b bs with
    | Some k => if ofrag f1 p && ofrag f2 q && ofrag f3 r && ofrag f4 u then a [k; snd p; snd q; snd r; snd u] else d b p q r u
    | None => d b p q r u end.
  (** the same with one block, named by an integer: a has no axis for it *)
  Definition set1b (s : nat) (f g : nat) (a : arr) : D1 -> D1 := set1 [s] f g (fun i => a (tl i)).
  Definition set2b (b : nat) (f1 f2 f3 f4 : nat) (a : arr) : D2 -> D2 := set2 [b] f1 f2 f3 f4 (fun i => a (tl i)).
  Definition dens (d1 : D1) (d2 : D2) : tix -> K := fun x => match x with X1 s p q => d1 s p q | X2 b p q r u => d2 b p q r u end.

  (** the tables mats[tag] of each fragment; a local state: unique root, number *)
  Definition lst := (nat * nat)%type.
  Record fmats := mkFmats { m_h : nat -> lst -> lst -> option arr; m_hh : nat -> lst -> lst -> option arr;
    m_phh : nat -> lst -> lst -> option arr; m_sm : lst -> lst -> option arr; m_dm1 : lst -> lst -> option arr; m_dm2 : lst -> lst -> option arr }.
  Variable ints : nat -> fmats.
  (** uroot_idx of fragment f *)
  Variable uroot : nat -> nat -> nat.
  (** nelec_rf *)
  Variable nelec_rf : nat -> list nat.
  (** x != 0 *)
  Variable nz : K -> bool.
  (** A state: rootspace, local states of the fragments (rootaddr, fragaddr) *)
  Definition state := (nat * list nat)%type.
  Definition loc (f : nat) (a : state) : lst := (uroot f (fst a), nth f (snd a) 0).
  (** frag.py:206-211, 216-258: an element that is not there is a RuntimeError *)
  Definition got (o : option arr) : res arr := match o with Some a => Ok a | None => Raise RuntimeError end.
  (** frag.py:301-305 *)
  Definition get_1_h (f : nat) (i j : state) (s : nat) : res arr := got (m_h (ints f) s (loc f i) (loc f j)).
  Definition get_1_p (f : nat) (i j : state) (s : nat) : res arr := do a <- got (m_h (ints f) s (loc f j) (loc f i)) ;; Ok (aconj a).
  (** frag.py:322-327 *)
  Definition get_1_hh (f : nat) (i j : state) (s : nat) : res arr := got (m_hh (ints f) s (loc f i) (loc f j)).
  Definition get_1_pp (f : nat) (i j : state) (s : nat) : res arr := do a <- got (m_hh (ints f) s (loc f j) (loc f i)) ;; Ok (tpose [1; 0] (aconj a)).
  (** frag.py:344-348 *)
  Definition get_1_phh (f : nat) (i j : state) (s : nat) : res arr := do a <- got (m_phh (ints f) s (loc f i) (loc f j)) ;; Ok (tpose [0; 2; 3; 1] a).
  Definition get_1_pph (f : nat) (i j : state) (s : nat) : res arr :=
    do a <- got (m_phh (ints f) s (loc f j) (loc f i)) ;; Ok (tpose [0; 1; 3; 2] (aconj a)).
  (** frag.py:364-368 *)
  Definition get_1_sm (f : nat) (i j : state) : res arr := got (m_sm (ints f) (loc f i) (loc f j)).
  Definition get_1_sp (f : nat) (i j : state) : res arr := do a <- got (m_sm (ints f) (loc f j) (loc f i)) ;; Ok (tpose [1; 0] (aconj a)).
  (** frag.py:404-410, 422-428 *)
  Definition get_1_dm1 (f : nat) (i j : state) : res arr :=
    if uroot f (fst i) <? uroot f (fst j)
    then do a <- got (m_dm1 (ints f) (loc f j) (loc f i)) ;; Ok (tpose [0; 2; 1] (aconj a))
    else got (m_dm1 (ints f) (loc f i) (loc f j)).
  Definition get_1_dm2 (f : nat) (i j : state) : res arr :=
    if uroot f (fst i) <? uroot f (fst j)
    then do a <- got (m_dm2 (ints f) (loc f j) (loc f i)) ;; Ok (tpose [0; 2; 1; 4; 3] (aconj a))
    else got (m_dm2 (ints f) (loc f i) (loc f j)).
  (** fermion_des_shuffle (nelec_f_bra, frags, i) *)
  Definition des (a : state) (frags : list nat) (i : nat) : res bool := fermion_des_shuffle (nelec_rf (fst a)) frags i.

  (** _crunch_1d_: stdm.py:750-763 *)
  Definition crunch_1d (bra ket : state) (i : nat) : res (tix -> K) :=
    do d1_s_ii <- get_1_dm1 i bra ket ;; do dm2 <- get_1_dm2 i bra ket ;;
    Ok (dens (set1 [0; 1] i i d1_s_ii z1) (set2 [0; 1; 2; 3] i i i i dm2 z2)).
  (** _crunch_2d_: stdm.py:765-783 *)
  Definition crunch_2d (bra ket : state) (i j : nat) : res (tix -> K) :=
    do d1_s_ii <- get_1_dm1 i bra ket ;; do d1_s_jj <- get_1_dm1 j bra ket ;;
    let a := join2 (tpose [0; 3; 1; 2; 4; 5] (outer 3 d1_s_ii d1_s_jj)) in
    let d2 := set2 [0; 1; 2; 3] i i j j a z2 in
    let d2 := set2 [0; 3] j j i i (tpose [0; 3; 4; 1; 2] (pick [0; 3] a)) d2 in
    let d2 := set2 [1; 2] j j i i (tpose [0; 3; 4; 1; 2] (pick [2; 1] a)) d2 in
    let d2 := set2 [0; 3] i j j i (fmul true (tpose [0; 1; 4; 3; 2] (pick [0; 3] a))) d2 in
    let d2 := set2 [0; 3] j i i j (fmul true (tpose [0; 3; 2; 1; 4] (pick [0; 3] a))) d2 in
    Ok (dens z1 d2).
  (** _crunch_1c_tdm2: stdm.py:810-819, 847-856 *)
  Definition crunch_1c_tdm2 (s1 : nat) (a : arr) (i j k : nat) (d2 : D2) : D2 :=
    let d2 := set2 [s1 * 2; s1 * 2 + 1] i j k k a d2 in
    let d2 := set2 [s1; s1 + 2] k k i j (tpose [0; 3; 4; 1; 2] a) d2 in
    let d2 := set2b (s1 * 3) i k k j (fmul true (tpose [0; 3; 2; 1] (sub s1 a))) d2 in
    set2b (s1 * 3) k j i k (fmul true (tpose [2; 1; 0; 3] (sub s1 a))) d2.
  (** _crunch_1c_: stdm.py:785-831 *)
  Definition crunch_1c (bra ket : state) (i j s1 : nat) : res (tix -> K) :=
    do f1 <- des bra [i; j] i ;; do f2 <- des ket [i; j] j ;; let fac := xorb f1 f2 in
    do p_i <- get_1_p i bra ket s1 ;; do h_j <- get_1_h j bra ket s1 ;;
    let d1 := set1b s1 i j (fmul fac (outer 1 p_i h_j)) z1 in
    do pph <- get_1_pph i bra ket s1 ;;
    let d2 := crunch_1c_tdm2 s1 (tpose [0; 1; 4; 2; 3] (fmul fac (outer 4 pph h_j))) i j i z2 in
    do phh <- get_1_phh j bra ket s1 ;;
    let d2 := crunch_1c_tdm2 s1 (tpose [1; 0; 4; 2; 3] (fmul fac (outer 1 p_i phh))) i j j d2 in
    Ok (dens d1 d2).
  (** _crunch_1c1d_: stdm.py:833-864 *)
  Definition crunch_1c1d (bra ket : state) (i j k s1 : nat) : res (tix -> K) :=
    do f1 <- des bra [i; j; k] i ;; do f2 <- des ket [i; j; k] j ;; let fac := xorb f1 f2 in
    do p_i <- get_1_p i bra ket s1 ;; do h_j <- get_1_h j bra ket s1 ;;
    do d1_skk <- get_1_dm1 k bra ket ;;
    Ok (dens z1 (crunch_1c_tdm2 s1 (tpose [2; 0; 1; 3; 4] (fmul fac (outer 2 (outer 1 p_i h_j) d1_skk))) i j k z2)).
  (** _crunch_1s_: stdm.py:866-889 *)
  Definition crunch_1s (bra ket : state) (i j : nat) : res (tix -> K) :=
    do sp_i <- get_1_sp i bra ket ;; do sm_j <- get_1_sm j bra ket ;;
    let d2_spsm := fmul true (outer 2 sp_i sm_j) in
    let d2 := set2b 1 i j j i (tpose [0; 3; 2; 1] d2_spsm) z2 in
    Ok (dens z1 (set2b 2 j i i j (tpose [2; 1; 0; 3] d2_spsm) d2)).
  (** _crunch_1s1c_: stdm.py:891-925 *)
  Definition crunch_1s1c (bra ket : state) (i j k s1 : nat) : res (tix -> K) :=
    let s2 := 1 - s1 in
    do f1 <- des bra [i; j; k] i ;; do f2 <- des ket [i; j; k] j ;; let fac := xorb true (xorb f1 f2) in
    do p_i <- get_1_p i bra ket s1 ;; do h_j <- get_1_h j bra ket s2 ;;
    let d_ij := outer 1 p_i h_j in
    do d_kk <- (if s1 =? 0 then get_1_sm k bra ket else get_1_sp k bra ket) ;;
    let d2_ikkj := tpose [0; 3; 2; 1] (fmul fac (outer 2 d_ij d_kk)) in
    let d2 := set2b (1 + s1) i k k j d2_ikkj z2 in
    Ok (dens z1 (set2b (2 - s1) k j i k (tpose [2; 3; 0; 1] d2_ikkj) d2)).
  (** assert (np.all (np.abs (a + a.T)) < 1e-8): the comparison applies to the truth value of "all entries differ from 0" *)
  Definition check_pair (f s2lt : nat) (a : arr) (k : res (tix -> K)) : res (tix -> K) :=
    if s2lt =? 1 then k
    else py_assert (negb (forallb (fun x => forallb (fun y => nz (sadd (a [x; y]) (a [y; x]))) (seq 0 (norb f))) (seq 0 (norb f)))) k.
  (** _crunch_2c_: stdm.py:927-1000 *)
  Definition crunch_2c (bra ket : state) (i j k l s2lt : nat) : res (tix -> K) :=
    let s2 := nth s2lt [0; 1; 3] 0 in
    let s2T := nth s2lt [0; 2; 3] 0 in
    let s11 := s2 / 2 in
    let s12 := s2 mod 2 in
    let fr := [i; j; k; l] in
    let finish (fac : bool) (pp hh : arr) : res (tix -> K) :=
      let a := tpose [0; 3; 1; 2] (fmul fac (outer 2 pp hh)) in
      let d2 := set2b s2 i j k l a z2 in
      let d2 := set2b s2T k l i j (tpose [2; 3; 0; 1] a) d2 in
      let d2 := if s2 =? s2T then
                  set2b s2 k j i l (fmul true (tpose [2; 1; 0; 3] a)) (set2b s2 i l k j (fmul true (tpose [0; 3; 2; 1] a)) d2)
                else d2 in
      Ok (dens z1 d2) in
    let second (fac : bool) (pp : arr) : res (tix -> K) :=
      if j =? l then do hh <- get_1_hh j bra ket s2lt ;; check_pair j s2lt hh (finish fac pp hh)
      else do h_l <- get_1_h l bra ket s12 ;; do h_j <- get_1_h j bra ket s11 ;;
           do f3 <- des ket fr j ;; do f4 <- des ket fr l ;;
           finish (xorb (xorb (xorb fac (l <? j)) f3) f4) pp (outer 1 h_l h_j) in
    if i =? k then do pp <- get_1_pp i bra ket s2lt ;; check_pair i s2lt pp (second false pp)
    else do p_i <- get_1_p i bra ket s11 ;; do p_k <- get_1_p k bra ket s12 ;;
         do f1 <- des bra fr i ;; do f2 <- des bra fr k ;;
         second (xorb (xorb (k <? i) f1) f2) (outer 1 p_i p_k).

  (** the function and its arguments for each table: stdm.py:1004-1013, 1071-1079 *)
  Definition crunch (lbl : nat) (frags : list nat) (spin : option nat) (bra ket : state) : res (tix -> K) :=
    match lbl, frags, spin with
    | 0, [i], None => crunch_1d bra ket i
    | 1, [i; j], None => crunch_2d bra ket i j
    | 2, [i; j], Some s => crunch_1c bra ket i j s
    | 3, [i; j; k], Some s => crunch_1c1d bra ket i j k s
    | 4, [i; j], None => crunch_1s bra ket i j
    | 5, [i; j; k], Some s => crunch_1s1c bra ket i j k s
    | 6, [i; j; k; l], Some s => crunch_2c bra ket i j k l s
    | _, _, _ => Raise TypeError
    end.
  Definition crunch_D (lbl : nat) (frags : list nat) (spin : option nat) (bra ket : state) : tix -> K :=
    match crunch lbl frags spin bra ket with Ok d => d | Raise _ => fun _ => s0 end.
End Crunch.
