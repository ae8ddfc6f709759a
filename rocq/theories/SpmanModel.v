(** The tables of a fragment when the spin multiplicities are known: transition density matrices are made once for each pair of
    multiplets, between the members of largest m, and brought to the m asked for when they are looked up.
    my_pyscf/fci/rdm_smult.py:12-28, my_pyscf/lassi/citools.py:280-321, my_pyscf/lassi/op_o1/frag.py:169-262, 272-420, 487-517 and
    765-925, put together from LadderModel, HalfModel, SmultModel and UrootModel.

    CI vectors are real and arithmetic is exact; nothing is masked. *)
From Coq Require Import List Bool Arith ZArith Reals.
From Verif Require Import Base Star FockSpec DetModel CrunchModel HalfModel LsisUpdModel SmultModel LadderModel UrootModel.
Import ListNotations.
Local Open Scope nat_scope.

(** *** _get_highm_civecs: rdm_smult.py:12-28 *)
Definition nelec_plus (ne : nat * nat) (d : Z * Z) : nat * nat := (Z.to_nat (Z.of_nat (fst ne) + fst d), Z.to_nat (Z.of_nat (snd ne) + snd d)).
(** ((n + spin) // 2, (n - spin) // 2) *)
Definition split_nelec (ne : nat * nat) (spin : Z) : nat * nat :=
  let n := Z.of_nat (fst ne + snd ne) in (Z.to_nat ((n + spin) / 2), Z.to_nat ((n - spin) / 2)).
Definition get_highm_civecs (cibra ciket : list arr2) (norb : nat) (nelec : nat * nat) (dnelec : Z * Z) (smult_bra smult_ket : Z) : res (list arr2 * list arr2 * (nat * nat)) :=
  let nelec_bra := nelec_plus nelec dnelec in
  do b <- mup (Many cibra) norb nelec_bra smult_bra ;;
  do k <- mup (Many ciket) norb nelec smult_ket ;;
  let dspin_op := (fst dnelec - snd dnelec)%Z in
  let nelec_bra := split_nelec nelec_bra (high_bra smult_bra smult_ket dspin_op) in
  let nelec_ket := split_nelec nelec (high_ket smult_bra smult_ket dspin_op) in
  do b <- mdown b norb nelec_bra smult_bra ;;
  do k <- mdown k norb nelec_ket smult_ket ;;
  Ok (as_list b, as_list k, nelec_ket).
(** get_highm_civecs_dm, _h, _sm, _hh: rdm_smult.py:66-67, 144-145, 221-222, 290-291 *)
Definition dnelec (t : HalfModel.tag) : Z * Z :=
  match t with
  | Tdm1 | Tdm2 => (0, 0)
  | HalfModel.Th s | Tphh s => match s with O => (-1, 0) | _ => (0, -1) end
  | HalfModel.Tsm => (-1, 1)
  | HalfModel.Thh s => match s with O => (-2, 0) | S O => (-1, -1) | _ => (0, -2) end
  end%Z.

Section Fragment.
  (** orbitals; unique roots, their first rootspaces, electrons, numbers of states, CI arrays, multiplicities and discriminators *)
  Variables (norb nu : nat) (uaddr : nat -> nat) (ne : nat -> nat * nat) (nl : nat -> nat) (ci : nat -> nat -> nat -> nat -> R) (smult disc : nat -> Z).
  (** np.abs (x) < 1e-8 *)
  Variable small : R -> bool.
  (** what np.allclose allows: 1e-8 + 1e-5 *)
  Variable tol : R.
  Definition civecs (u : nat) : list arr2 := map (fun i => mkA (num_strings norb (fst (ne u))) (num_strings norb (snd (ne u))) (ci u i)) (seq 0 (nl u)).

  (** *** _get_unique_roots_with_spin: citools.py:280-321.  The images with m = s, lines 289-296 *)
  Definition images (u : nat) : res (list arr2) := mapM (mup1 norb (ne u) (smult u)) (civecs u).
  (** np.dot of two arrays of the same shape *)
  Definition dot (x y : arr2) : R := bsum (seq 0 (a_r x)) (fun i => bsum (seq 0 (a_c x)) (fun j => smul (a_el x i j : Rs) (a_el y i j : Rs))).
  (** lines 313-314 *)
  Definition close_to_one (x : R) : bool := if Rle_dec (Rabs (x - 1)) tol then true else false.
  Definition a_empty : arr2 := mkA 0 0 (fun _ _ => 0%R).
  Definition same_images (im : nat -> list arr2) (i j : nat) : bool :=
    forallb (fun l => close_to_one (dot (nth l (im i) a_empty) (nth l (im j) a_empty))) (seq 0 (nl i)).
  Definition Mz2 (u : nat) : Z := (Z.of_nat (fst (ne u)) - Z.of_nat (snd (ne u)))%Z.
  Definition udat : udata := mkUd (fun u => (Z.of_nat (fst (ne u)) + Z.of_nat (snd (ne u)))%Z) Mz2 smult (fun u => Z.of_nat (nl u)) disc.
  Definition manifolds : res (nat -> nat) :=
    do im <- mapM images (seq 0 nu) ;; Ok (spman true udat (same_images (fun u => nth u im [])) nu).

  (** *** one entry of self.mats, frag.py:797-925: the loops of HalfModel on the two lists of CI vectors *)
  Definition fill (t : HalfModel.tag) (b k : nat) (ne : nat -> nat * nat) (nl : nat -> nat) (uaddr : nat -> nat) (ci : nat -> nat -> DetModel.mat Rs) (m : @store Rs) : res (@store Rs) :=
    match t with
    | Tdm1 | Tdm2 => fill_dm norb uaddr ne nl ci b k m
    | HalfModel.Th s | Tphh s => fill_h norb ne nl ci small s b k m
    | HalfModel.Tsm => fill_sm norb ne nl ci b k m
    | HalfModel.Thh s => fill_hh norb ne nl ci s b k m
    end.
  (** [p] is the bra and [q] the ket *)
  Definition entry (t : HalfModel.tag) (p q : nat) : res (nat -> nat -> @CrunchModel.arr Rs) :=
    do r <- get_highm_civecs (civecs p) (civecs q) norb (ne q) (dnelec t) (smult p) (smult q) ;;
    let '(bra, ket, nelec_ket) := r in
    let two {X : Type} (x y : X) (u : nat) : X := match u with O => x | _ => y end in
    do m <- fill t 1 0 (two nelec_ket (nelec_plus nelec_ket (dnelec t))) (two (length ket) (length bra)) (two (uaddr q) (uaddr p))
              (fun u i => a_el (nth i (two ket bra u) a_empty)) (fun _ _ _ => None) ;;
    match m t 1 0 with Some x => Ok x | None => Raise RuntimeError end.
  (** mdown_tdm: frag.py:169-175; elements without a value (nan) are None *)
  Definition mdown_tdm (t : HalfModel.tag) (x : list nat -> R) (si sj mj : Z) (i : list nat) : num :=
    match t with
    | HalfModel.Th s => mdown_h (fun p => x [p]) si s sj mj (nth 0 i 0)
    | HalfModel.Thh s => mdown_hh (fun p q => x [p; q]) si s sj mj (nth 0 i 0) (nth 1 i 0)
    | Tphh s => mdown_phh (fun k r p q => x [k; r; p; q]) si s sj mj (nth 0 i 0) (nth 1 i 0) (nth 2 i 0) (nth 3 i 0)
    | HalfModel.Tsm => mdown_sm (fun p q => x [p; q]) si sj mj (nth 0 i 0) (nth 1 i 0)
    | Tdm1 => mdown_dm1 (fun k p q => x [k; p; q]) si sj mj (nth 0 i 0) (nth 1 i 0) (nth 2 i 0)
    | Tdm2 => mdown_dm2 (fun k p q r s => x [k; p; q; r; s]) si sj mj (nth 0 i 0) (nth 1 i 0) (nth 2 i 0) (nth 3 i 0) (nth 4 i 0)
    end.
  Definition utag (t : HalfModel.tag) : UrootModel.tag :=
    match t with
    | Tdm1 | Tdm2 => Tdm
    | HalfModel.Th s | Tphh s => UrootModel.Th (negb (s =? 0))
    | HalfModel.Tsm => UrootModel.Tsm
    | HalfModel.Thh s => UrootModel.Thh s
    end.
  (** try_get_dm, try_get_tdm: frag.py:218-262, on unique roots; an entry that was not made (lines 863-925) is a RuntimeError *)
  Definition try_get (t : HalfModel.tag) (i j : nat) : res (nat -> nat -> list nat -> num) :=
    do sp <- manifolds ;;
    do mq <- inter_map sp Mz2 nu ;;
    let '(map_, uniq) := mq in let '(p, q) := map_ i j in
    if computed (fun u => Z.of_nat (fst (ne u))) (fun u => Z.of_nat (snd (ne u))) uniq (fun _ _ => true) (utag t) p q
    then do x <- entry t p q ;; Ok (fun a b idx => mdown_tdm t (x a b) (smult i) (smult j) (Mz2 j) idx)
    else Raise RuntimeError.
  (** the element of the table of which transpose (1,0,2,4,3) or (1,0,2,4,3,6,5) has the element [idx] *)
  Definition swap_ix (t : HalfModel.tag) (idx : list nat) : list nat := match t, idx with Tdm1, [s; p; q] => [s; q; p] | Tdm2, [c; p; q; r; u] => [c; q; p; u; r] | _, _ => idx end.
  (** get_dm1, get_dm2: frag.py:382-390, 414-420 *)
  Definition get_dm (t : HalfModel.tag) (i j : nat) : res (nat -> nat -> list nat -> num) :=
    do sp <- manifolds ;;
    do mq <- inter_map sp Mz2 nu ;;
    let '(a, b) := fst mq i j in
    if a <? b then
      do x <- try_get t j i ;;
      Ok (fun a b idx => x b a (swap_ix t idx))
    else try_get t i j.
  (** get_h, get_hh, get_phh, get_sm: frag.py:289-290, 309-310, 332-333, 352-353 (the table before the last transpose of get_phh) *)
  Definition get (t : HalfModel.tag) (i j : nat) : res (nat -> nat -> list nat -> num) :=
    match t with Tdm1 | Tdm2 => get_dm t i j | _ => try_get t i j end.

  (** get_ovlp: frag.py:272-273; mats['ovlp'], lines 769-786, with the identity for mdown *)
  Definition flat_dot (p q a b : nat) : R :=
    bsum (seq 0 (num_strings norb (fst (ne p)))) (fun x => bsum (seq 0 (num_strings norb (snd (ne p)))) (fun y => smul (ci p a x y : Rs) (ci q b x y : Rs))).
  Definition get_ovlp (i j : nat) : res (nat -> nat -> R) :=
    do sp <- manifolds ;;
    do mq <- inter_map sp Mz2 nu ;;
    let '(map_, uniq) := mq in let '(p, q) := map_ i j in
    if computed (fun u => Z.of_nat (fst (ne u))) (fun u => Z.of_nat (snd (ne u))) uniq (fun _ _ => true) Tovlp p q
    then Ok (flat_dot p q) else Raise RuntimeError.
End Fragment.
