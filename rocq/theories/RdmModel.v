(** Class LRRDM: the density matrices of linear combinations of product states without the array of transition density matrices.
    lassi/op_o1/rdm.py:43-608 with the tables of lassi/op_o1/frag.py:206-430, and the ordering of the result by roots_trans_rdm12s,
    lassi/op_o1/rdm.py:623-732, when the states have the same numbers of electrons of either spin.

    The SI vectors are lists of columns.  There is no umat_root (lines 60-61 change nothing), smult is None, and there are no masks.
    The axis of the SI roots, the first of every array, is left out: a cruncher is applied to each root.  As in CrunchModel,
    orbitals are addressed by fragment and number.  Arithmetic is exact. *)
From Coq Require Import List ZArith Bool Arith.
From Verif Require Import Base Star AddrModel TransModel ExcModel UexcModel StdmModel SignsModel CrunchModel HamLoop.
Import ListNotations.
Local Open Scope nat_scope.

(** the C-order position in an array of a given shape *)
Fixpoint ravel (acc : nat) (shape ix : list nat) : nat :=
  match shape, ix with d :: ds, i :: r => ravel (acc * d + i) ds r | _, _ => acc end.
(** every second element, from the first and from the second *)
Fixpoint evens (l : list nat) : list nat := match l with a :: _ :: r => a :: evens r | _ => [] end.
Fixpoint odds (l : list nat) : list nat := match l with _ :: b :: r => b :: odds r | _ => [] end.

Section Rdm.
  Context {K : star_ring}.
  Notation arr := (@arr K).
  Variable half : K.
  Variable big : K -> bool.
  Variable pyset : list nat -> list nat.
  Variable lroots : list (list nat).
  Variable ovlp : nat -> nat -> nat -> list (list K).
  Variable spin_shuffle : nat -> K.
  Variable frag_shuffle : nat -> list nat -> K.
  Variable norb : nat -> nat.
  Variable ints : nat -> @fmats K.
  Variable uroot : nat -> nat -> nat.
  Variable nelec_rf : nat -> list nat.
  Variable nonuniq_exc : list ((nat * nat * list nat) * list (nat * nat)).
  Definition nl (f r : nat) : nat := nth f (column lroots r) 0.

  (** ** Tables of a fragment *)
  (** try_get: frag.py:198-205, 213-222; i and j are rootspaces, the first two axes their local states *)
  Definition try_get (m : lst -> lst -> option arr) (f i j : nat) : res arr :=
    if forallb (fun x => forallb (fun y => match m (uroot f i, x) (uroot f j, y) with Some _ => true | None => false end) (seq 0 (nl f j))) (seq 0 (nl f i))
    then Ok (fun ix => match ix with x :: y :: r => match m (uroot f i, x) (uroot f j, y) with Some a => a r | None => s0 end | _ => s0 end)
    else Raise RuntimeError.
  (** frag.py:289-299 *)
  Definition get_h (f i j s : nat) : res arr := try_get (m_h (ints f) s) f i j.
  Definition get_p (f i j s : nat) : res arr := do a <- try_get (m_h (ints f) s) f j i ;; Ok (tpose [1; 0; 2] (aconj a)).
  (** frag.py:309-320 *)
  Definition get_hh (f i j s : nat) : res arr := try_get (m_hh (ints f) s) f i j.
  Definition get_pp (f i j s : nat) : res arr := do a <- try_get (m_hh (ints f) s) f j i ;; Ok (tpose [1; 0; 3; 2] (aconj a)).
  (** frag.py:332-342 *)
  Definition get_phh (f i j s : nat) : res arr := do a <- try_get (m_phh (ints f) s) f i j ;; Ok (tpose [0; 1; 2; 4; 5; 3] a).
  Definition get_pph (f i j s : nat) : res arr := do a <- try_get (m_phh (ints f) s) f j i ;; Ok (tpose [1; 0; 2; 3; 5; 4] (aconj a)).
  (** frag.py:352-362 *)
  Definition get_sm (f i j : nat) : res arr := try_get (m_sm (ints f)) f i j.
  Definition get_sp (f i j : nat) : res arr := do a <- try_get (m_sm (ints f)) f j i ;; Ok (tpose [1; 0; 3; 2] (aconj a)).
  (** frag.py:382-390, 414-420 *)
  Definition get_dm1 (f i j : nat) : res arr :=
    if uroot f i <? uroot f j then do a <- try_get (m_dm1 (ints f)) f j i ;; Ok (tpose [1; 0; 2; 4; 3] (aconj a)) else try_get (m_dm1 (ints f)) f i j.
  Definition get_dm2 (f i j : nat) : res arr :=
    if uroot f i <? uroot f j then do a <- try_get (m_dm2 (ints f)) f j i ;; Ok (tpose [1; 0; 2; 4; 3; 6; 5] (aconj a)) else try_get (m_dm2 (ints f)) f i j.

  (** ** Density matrices of the involved fragments *)
  (** get_single_rootspace_sivec: rdm.py:129-143, data in column-major order *)
  Definition si_slice (si : list (list K)) (r : nat) : list K := flat_map (fun c => firstn (prodN (column lroots r)) (skipn (addr0 lroots r) c)) si.
  (** transposed SI vector: element [root, state of the fragments inv, state of the others]; rdm.py:145-161 *)
  Definition si_at (d : list K * (nat * nat * nat)) (root a i : nat) : K :=
    let '(l, (ncols, nrows, _)) := d in nth (i + ncols * (a + nrows * root)) l s0.
  (** get_fdm_1space: rdm.py:206-254; extents of the last two axes, elements [root, a, c] *)
  Definition fdm_1space (si_bra si_ket : list (list K)) (rbra rket : nat) (inv : list nat) : res ((nat * nat) * (nat -> nat -> nat -> K)) :=
    do sibra <- make_fragments_slow s0 (si_slice si_bra rbra) (column lroots rbra) inv ;;
    do siket <- make_fragments_slow s0 (si_slice si_ket rket) (column lroots rket) inv ;;
    let inv := pyset inv in
    let fac := smul (smul (smul (spin_shuffle rbra) (spin_shuffle rket)) (frag_shuffle rbra inv)) (frag_shuffle rket inv) in
    let spec := filter (fun f => negb (existsb (Nat.eqb f) inv)) (seq 0 (length lroots)) in
    let o := fold_left (fun o f => kron (ovlp f rbra rket) o) spec [[fac]] in
    let kept := flat_map (fun i => flat_map (fun j =>
      let v := nth j (nth i o []) s0 in
      if big v && (if rbra =? rket then j <=? i else true) then [(i, j, if (rbra =? rket) && (i =? j) then smul v half else v)] else [])
      (seq 0 (length (nth i o [])))) (seq 0 (length o)) in
    Ok ((snd (fst (snd sibra)), snd (fst (snd siket))),
        fun root a c => bsum kept (fun e => let '(i, j, v) := e in smul (smul (sconj (si_at sibra root a i)) v) (si_at siket root c j))).
  (** get_fdm: rdm.py:163-204; axes: bra and ket state of the last fragment of inv, ..., of the first one *)
  Definition get_fdm (si_bra si_ket : list (list K)) (root rbra rket : nat) (inv keyorder : list nat) : res arr :=
    match get_key (rbra, rket, keyorder) nonuniq_exc with
    | None => Raise KeyError
    | Some table =>
        let inv := inv_unique inv in
        do parts <- mapM (fun p => fdm_1space si_bra si_ket (fst p) (snd p) inv) table ;;
        let nb := map (fun f => nl f rbra) (rev inv) in
        let nk := map (fun f => nl f rket) (rev inv) in
        if forallb (fun q => (fst (fst q) =? prodN nb) && (snd (fst q) =? prodN nk)) parts
        then Ok (fun ix => bsum parts (fun q => snd q root (ravel 0 nb (evens ix)) (ravel 0 nk (odds ix))))
        else Raise ValueError
    end.

  (** ** Contraction *)
  (** np.tensordot (d, t, axes=((pos,pos+1),(0,1))); d has nd axes, those two of lengths nb and nk *)
  Definition tdot (nd pos nb nk : nat) (d t : arr) : arr := fun i =>
    bsum (seq 0 nb) (fun x => bsum (seq 0 nk) (fun y =>
      smul (d (firstn pos i ++ x :: y :: firstn (nd - 2 - pos) (skipn pos i))) (t (x :: y :: skipn (nd - 2) i)))).
  Section Row.
    Variable fdm : list nat -> list nat -> res arr.
    Variables bra ket : nat.
    Notation des := (fun r => fermion_des_shuffle (nelec_rf r)).
    Notation ex f := (nl f bra) (only parsing).
    Notation ey f := (nl f ket) (only parsing).
    (** _crunch_1d_: rdm.py:256-270 *)
    Definition rdm_1d (i : nat) : res (tix -> K) :=
      do d_II <- fdm [i] [i] ;; do dm1 <- get_dm1 i bra ket ;; do dm2 <- get_dm2 i bra ket ;;
      Ok (dens (set1 norb [0; 1] i i (tdot 2 0 (ex i) (ey i) d_II dm1) z1) (set2 norb [0; 1; 2; 3] i i i i (tdot 2 0 (ex i) (ey i) d_II dm2) z2)).
    (** _crunch_2d_: rdm.py:272-291 *)
    Definition rdm_2d (i j : nat) : res (tix -> K) :=
      do d_ <- fdm [i; j] [i; j] ;; do dm1_i <- get_dm1 i bra ket ;; do dm1_j <- get_dm1 j bra ket ;;
      let d_ := tdot 4 2 (ex i) (ey i) d_ dm1_i in
      let d_ := tdot 5 0 (ex j) (ey j) d_ dm1_j in
      let a := join2 (tpose [0; 3; 1; 2; 4; 5] d_) in
      let d2 := set2 norb [0; 1; 2; 3] i i j j a z2 in
      let d2 := set2 norb [0; 3] j j i i (tpose [0; 3; 4; 1; 2] (pick [0; 3] a)) d2 in
      let d2 := set2 norb [1; 2] j j i i (tpose [0; 3; 4; 1; 2] (pick [2; 1] a)) d2 in
      let d2 := set2 norb [0; 3] i j j i (fmul true (tpose [0; 1; 4; 3; 2] (pick [0; 3] a))) d2 in
      let d2 := set2 norb [0; 3] j i i j (fmul true (tpose [0; 3; 2; 1; 4] (pick [0; 3] a))) d2 in
      Ok (dens z1 d2).
    (** _crunch_1c_tdm2: rdm.py:321-325, 365-369 *)
    Definition rdm_1c_tdm2 (s1 : nat) (a : arr) (i j k : nat) (d2 : D2) : D2 :=
      let d2 := set2 norb [s1 * 2; s1 * 2 + 1] i j k k a d2 in
      let d2 := set2 norb [s1; s1 + 2] k k i j (tpose [0; 3; 4; 1; 2] a) d2 in
      let d2 := set2b norb (s1 * 3) i k k j (fmul true (tpose [0; 3; 2; 1] (sub s1 a))) d2 in
      set2b norb (s1 * 3) k j i k (fmul true (tpose [2; 1; 0; 3] (sub s1 a))) d2.
    (** _crunch_1c_: rdm.py:293-340 *)
    Definition rdm_1c (i j s1 : nat) : res (tix -> K) :=
      do d_JJII <- fdm [i; j] [i; j] ;;
      do f1 <- des bra [i; j] i ;; do f2 <- des ket [i; j] j ;; let fac := xorb f1 f2 in
      do p_i <- get_p i bra ket s1 ;; do h_j <- get_h j bra ket s1 ;;
      let d_iJJ := tpose [2; 0; 1] (tdot 4 2 (ex i) (ey i) d_JJII p_i) in
      let d1 := set1b norb s1 i j (fmul fac (tdot 3 1 (ex j) (ey j) d_iJJ h_j)) z1 in
      do phh <- get_phh j bra ket s1 ;;
      let d_ := fmul fac (tpose [1; 0; 4; 2; 3] (tdot 3 1 (ex j) (ey j) d_iJJ phh)) in
      let d2 := rdm_1c_tdm2 s1 d_ i j j z2 in
      do pph <- get_pph i bra ket s1 ;;
      let d_ := tpose [2; 3; 4; 5; 0; 1] (tdot 4 2 (ex i) (ey i) d_JJII pph) in
      let d_ := tdot 6 4 (ex j) (ey j) d_ h_j in
      let d_ := fmul fac (tpose [0; 1; 4; 2; 3] d_) in
      Ok (dens d1 (rdm_1c_tdm2 s1 d_ i j i d2)).
    (** _crunch_1c1d_: rdm.py:342-378 *)
    Definition rdm_1c1d (i j k s1 : nat) : res (tix -> K) :=
      do d_ <- fdm [i; j; k] [i; j; k] ;;
      do f1 <- des bra [i; j; k] i ;; do f2 <- des ket [i; j; k] j ;; let fac := xorb f1 f2 in
      do p_i <- get_p i bra ket s1 ;; do h_j <- get_h j bra ket s1 ;; do dm1_k <- get_dm1 k bra ket ;;
      let d_ := tdot 6 4 (ex i) (ey i) d_ p_i in
      let d_ := tdot 5 2 (ex j) (ey j) d_ h_j in
      let d_ := tdot 4 0 (ex k) (ey k) d_ dm1_k in
      let d_ := fmul fac (tpose [2; 0; 1; 3; 4] d_) in
      Ok (dens z1 (rdm_1c_tdm2 s1 d_ i j k z2)).
    (** _crunch_1s_: rdm.py:380-405 *)
    Definition rdm_1s (i j : nat) : res (tix -> K) :=
      do d_ <- fdm [i; j] [i; j] ;; do sp_i <- get_sp i bra ket ;; do sm_j <- get_sm j bra ket ;;
      let d_ := tpose [2; 3; 0; 1] (tdot 4 2 (ex i) (ey i) d_ sp_i) in
      let d_ := fmul true (tdot 4 2 (ex j) (ey j) d_ sm_j) in
      let d2 := set2b norb 1 i j j i (tpose [0; 3; 2; 1] d_) z2 in
      Ok (dens z1 (set2b norb 2 j i i j (tpose [2; 1; 0; 3] d_) d2)).
    (** _crunch_1s1c_: rdm.py:407-443 *)
    Definition rdm_1s1c (i j k s1 : nat) : res (tix -> K) :=
      let s2 := 1 - s1 in
      do d_ <- fdm [i; j; k] [i; j; k] ;;
      do f1 <- des bra [i; j; k] i ;; do f2 <- des ket [i; j; k] j ;; let fac := xorb true (xorb f1 f2) in
      do p_i <- get_p i bra ket s1 ;; do h_j <- get_h j bra ket s2 ;;
      let d_ := tdot 6 4 (ex i) (ey i) d_ p_i in
      let d_ := tdot 5 2 (ex j) (ey j) d_ h_j in
      do d_kk <- (if s1 =? 0 then get_sm k bra ket else get_sp k bra ket) ;;
      let d_ := tdot 4 0 (ex k) (ey k) d_ d_kk in
      let d_ := fmul fac (tpose [0; 3; 2; 1] d_) in
      let d2 := set2b norb (1 + s1) i k k j d_ z2 in
      Ok (dens z1 (set2b norb (2 - s1) k j i k (tpose [2; 3; 0; 1] d_) d2)).
    (** _crunch_2c_: rdm.py:445-526 *)
    Definition rdm_2c (i j k l s2lt : nat) : res (tix -> K) :=
      let s2 := nth s2lt [0; 1; 3] 0 in
      let s2T := nth s2lt [0; 2; 3] 0 in
      let s11 := s2 / 2 in
      let s12 := s2 mod 2 in
      let fr := [i; j; k; l] in
      (* axes of the fragments of the ket that are still to be contracted *)
      let nrest := if j =? l then 2 else 4 in
      do d_ <- fdm [i; k; l; j] fr ;;
      do fd <- (if i =? k
                then do pp <- get_pp i bra ket s2lt ;; Ok (false, tdot (nrest + 2) nrest (ex i) (ey i) d_ pp)
                else do p_i <- get_p i bra ket s11 ;; do p_k <- get_p k bra ket s12 ;;
                     let d_ := tdot (nrest + 4) (nrest + 2) (ex i) (ey i) d_ p_i in
                     let d_ := tdot (nrest + 3) nrest (ex k) (ey k) d_ p_k in
                     do f1 <- des bra fr i ;; do f2 <- des bra fr k ;; Ok (xorb (xorb (k <? i) f1) f2, d_)) ;;
      let '(fac, d_) := fd in
      let d_ := tpose ([nrest; nrest + 1] ++ seq 0 nrest) d_ in
      do fd <- (if j =? l
                then do hh <- get_hh j bra ket s2lt ;; Ok (fac, tdot 4 2 (ex j) (ey j) d_ hh)
                else do h_l <- get_h l bra ket s12 ;; do h_j <- get_h j bra ket s11 ;;
                     let d_ := tdot 6 4 (ex l) (ey l) d_ h_l in
                     let d_ := tdot 5 2 (ex j) (ey j) d_ h_j in
                     do f3 <- des ket fr j ;; do f4 <- des ket fr l ;; Ok (xorb (xorb (xorb fac (l <? j)) f3) f4, d_)) ;;
      let '(fac, d_) := fd in
      let a := fmul fac (tpose [0; 3; 1; 2] d_) in
      let d2 := set2b norb s2 i j k l a z2 in
      let d2 := set2b norb s2T k l i j (tpose [2; 3; 0; 1] a) d2 in
      let d2 := if s2 =? s2T then
                  set2b norb s2 k j i l (fmul true (tpose [2; 1; 0; 3] a)) (set2b norb s2 i l k j (fmul true (tpose [0; 3; 2; 1] a)) d2)
                else d2 in
      Ok (dens z1 d2).
    Definition rdm_crunch (lbl : nat) (frags : list nat) (spin : option nat) : res (tix -> K) :=
      match lbl, frags, spin with
      | 0, [i], None => rdm_1d i
      | 1, [i; j], None => rdm_2d i j
      | 2, [i; j], Some s => rdm_1c i j s
      | 3, [i; j; k], Some s => rdm_1c1d i j k s
      | 4, [i; j], None => rdm_1s i j
      | 5, [i; j; k], Some s => rdm_1s1c i j k s
      | 6, [i; j; k; l], Some s => rdm_2c i j k l s
      | _, _, _ => Raise TypeError
      end.
  End Row.

  (** ** The loops *)
  Variables si_bra si_ket : list (list K).
  (** self.hermi: rdm.py:58 *)
  Variable hermi : bool.
  Definition rdms := nat -> tix -> K.
  (** the cruncher for every root *)
  Definition crunch_roots (transpose : bool) (lbl : nat) (row : erow) : res (list (tix -> K)) :=
    mapM (fun root => rdm_crunch (get_fdm (if transpose then si_ket else si_bra) (if transpose then si_bra else si_ket) root (e_bra row) (e_ket row))
                        (e_bra row) (e_ket row) lbl (e_frags row) (e_spin row)) (seq 0 (length si_bra)).
  (** _put_D1_, _put_D2_: rdm.py:528-546 *)
  Definition put_D (transpose : bool) (ds : list (tix -> K)) (t : rdms) : rdms := fun root x =>
    let d := nth root ds (fun _ => s0) in sadd (t root x) (if transpose then sconj (d (tix_tr x)) else d x).
  (** _crunch_env_: rdm.py:548-560 *)
  Definition crunch_env (lbl : nat) (t : rdms) (row : erow) : res rdms :=
    do ds <- crunch_roots false lbl row ;; let t := put_D false ds t in
    if hermi then Ok t else do ds <- crunch_roots true lbl row ;; Ok (put_D true ds t).
  Fixpoint rdm_rows (lbl : nat) (rows : list erow) (t : rdms) : res rdms :=
    match rows with [] => Ok t | r :: rs => do t' <- crunch_env lbl t r ;; rdm_rows lbl rs t' end.
  Fixpoint rdm_tables (lbl : nat) (tabs : list (list erow)) (t : rdms) : res rdms :=
    match tabs with [] => Ok t | l :: ls => do t' <- rdm_rows lbl l t ;; rdm_tables (S lbl) ls t' end.
  (** _crunch_all_ of the parent class, stdm.py:1071-1079, and _add_transpose_: rdm.py:72-75 *)
  Definition rdm_all (tabs : list (list erow)) : res rdms :=
    (* np.amax of an empty array, rdm.py:58 *)
    if length si_bra =? 0 then Raise ValueError else
    do t <- rdm_tables 0 tabs (fun _ _ => s0) ;;
    Ok (if hermi then fun root x => sadd (t root x) (sconj (t root (tix_tr x))) else t).
End Rdm.

(** ** The arrays returned
    roots_trans_rdm12s puts the one-body array in the convention of PySCF, rdm.py:723-726; the two axes of spin of the two-body array
    are one axis of length four in LRRDM. *)
Section Out.
  Context {K : star_ring}.
  Definition out1 (t : @rdms K) (root s : nat) (p q : nat * nat) : K := t root (X1 s q p).
  Definition out2 (t : @rdms K) (root s : nat) (p q : nat * nat) (s' : nat) (r u : nat * nat) : K := sconj (t root (X2 (s * 2 + s') p q r u)).
End Out.
