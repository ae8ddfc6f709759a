(** Fragment transition density matrices: my_pyscf/fci/rdm.py:12-648 without GPU kernels, and the tables made of them,
    my_pyscf/lassi/op_o1/frag.py:562-570, 630-934 (_make_dms_) without masks, perturbation orders and spin multiplets (smult is
    None, then every pair of unique roots is a spin-manifold pair of its own, lines 487-512).

    CI arrays are functions of their addresses, as in DetModel.  Electron numbers are natural numbers: the functions that lower
    one are asked only when there is an electron of that spin.  Arithmetic is exact. *)
From Coq Require Import List ZArith Bool Arith.
From Verif Require Import Base Star FockSpec LprodSpec DetModel CrunchModel CrunchSpec HalfSpec.
Import ListNotations.
Local Open Scope nat_scope.

Section Half.
  Context {K : star_ring}.
  Notation mat := (mat K).
  Notation arr := (@arr K).

  (** *** Library functions of pyscf (not part of /repo), by what they return for real CI arrays *)
  (** <bra| ops |ket> *)
  Definition melem (n : nat) (ne : nat * nat) (bra ket : mat) (ops : list opr) : K :=
    inner K (2 * n) (civec n ne bra) (lops K (fun _ => n) ops (civec n ne ket)).
  Definition ix (i : list nat) (k : nat) : nat * nat := (0, nth k i 0).
  (** fci.rdm.make_rdm1_spin1 ('FCItrans_rdm1a'/'FCItrans_rdm1b'): [p,q] is <q' p> *)
  Definition make_rdm1_spin1 (s : nat) (bra ket : mat) (n : nat) (ne : nat * nat) : arr := fun i => melem n ne bra ket [cr s (ix i 1); an s (ix i 0)].
  (** fci.rdm.make_rdm12_spin1 ('FCItdm12kern_a'/'FCItdm12kern_b'): <q' p> and <p' q r' s> *)
  Definition make_rdm12_par (s : nat) (bra ket : mat) (n : nat) (ne : nat * nat) : arr * arr :=
    (make_rdm1_spin1 s bra ket n ne, fun i => melem n ne bra ket [cr s (ix i 0); an s (ix i 1); cr s (ix i 2); an s (ix i 3)]).
  (** fci.rdm.make_rdm12_spin1 ('FCItdm12kern_ab')[1]: p, q spin up; r, s spin down *)
  Definition make_rdm12_ab (bra ket : mat) (n : nat) (ne : nat * nat) : arr :=
    fun i => melem n ne bra ket [cr 0 (ix i 0); an 0 (ix i 1); cr 1 (ix i 2); an 1 (ix i 3)].
  (** fci.rdm.reorder_rdm: rdm2[:,k,k,:] -= rdm1.T *)
  Definition reorder_rdm (d : arr * arr) : arr * arr :=
    (fst d, fun i => if nth 1 i 0 =? nth 2 i 0 then ssub (snd d i) (fst d [nth 3 i 0; nth 0 i 0]) else snd d i).
  (** fci.direct_spin1.trans_rdm12s, stacked: [s,p,q] is <q' p>; [aa/ab/ba/bb,p,q,r,s] is <p' r' s q> *)
  Definition trans_rdm12s (bra ket : mat) (n : nat) (ne : nat * nat) : arr * arr :=
    (fun i => melem n ne bra ket (xops (X1 (nth 0 i 0) (ix i 2) (ix i 1))), fun i => melem n ne bra ket (xops (X2 (nth 0 i 0) (ix i 1) (ix i 2) (ix i 3) (ix i 4)))).
  (** cistring.gen_linkstr_index (range (no), k).shape[1]; a pair of such arrays is known by no and the two electron numbers *)
  Definition link_width (no k : nat) : Z := (Z.of_nat k + Z.of_nat k * (Z.of_nat no - Z.of_nat k))%Z.
  Definition links : Type := nat * (nat * nat).
  Definition widths (l : links) : Z * Z := (link_width (fst l) (fst (snd l)), link_width (fst l) (snd (snd l))).

  (** *** fci/rdm.py *)
  Definition lower_nelec (spin : nat) (ne : nat * nat) : nat * nat := if spin =? 0 then (fst ne - 1, snd ne) else (fst ne, snd ne - 1).
  Definition raise_nelec (spin : nat) (ne : nat * nat) : nat * nat := if spin =? 0 then (fst ne + 1, snd ne) else (fst ne, snd ne + 1).
  (** _unpack: rdm.py:12-20 *)
  Definition unpack_links (n : nat) (ne : nat * nat) (l : option links) : links := match l with None => (n, ne) | Some l => l end.
  (** rdm.py:90-93: nelec * (norb - nelec + 2) *)
  Definition check_links {A} (l : links) (norb : nat) (ne : nat * nat) (k : res A) : res A :=
    let w x := (Z.of_nat x * (Z.of_nat norb - Z.of_nat x + 2))%Z in
    py_assert ((fst (widths l) =? w (fst ne))%Z && (snd (widths l) =? w (snd ne))%Z) k.
  Definition add1 (c : mat) (norb : nat) (ne : nat * nat) (oa ob : bool) : mat := add_one (dummy_orbital_params norb ne oa ob) c.
  (** _trans_rdm1hs_o0, _trans_rdm1hs: rdm.py:72-97 *)
  Definition trans_rdm1hs (cre : bool) (cibra ciket : mat) (norb : nat) (nelec : nat * nat) (spin : nat) (link : option links) : res arr :=
    let '(bra, ket) := if cre then (cibra, ciket) else (ciket, cibra) in
    let nelec_ket := if cre then nelec else lower_nelec spin nelec in
    let nelec_bra := raise_nelec spin nelec_ket in
    let l := unpack_links (norb + 1) nelec_bra link in
    check_links l norb nelec_bra (
      let ket := add1 ket norb nelec_ket (spin =? 0) (negb (spin =? 0)) in
      let bra := add1 bra norb nelec_bra false false in
      let tdm1h := make_rdm1_spin1 spin bra ket (norb + 1) nelec_bra in
      let row : arr := fun i => tdm1h [norb; nth 0 i 0] in
      Ok (if cre then row else aconj row)).
  (** _trans_rdm13hs_o0 with reorder=True: rdm.py:216-250 *)
  Definition trans_rdm13hs (cre : bool) (cibra ciket : mat) (norb : nat) (nelec : nat * nat) (spin : nat) (link : option links) : res (arr * arr * arr) :=
    let '(bra, ket) := if cre then (cibra, ciket) else (ciket, cibra) in
    let nelec_ket := if cre then nelec else lower_nelec spin nelec in
    let nelec_bra := raise_nelec spin nelec_ket in
    let l := unpack_links (norb + 1) nelec_bra link in
    check_links l norb nelec_bra (
      let ket := add1 ket norb nelec_ket (spin =? 0) (negb (spin =? 0)) in
      let bra := add1 bra norb nelec_bra false false in
      let '(tdm1h, par) := reorder_rdm (make_rdm12_par spin bra ket (norb + 1) nelec_bra) in
      let '(a, b) := if spin =? 0 then (par, make_rdm12_ab bra ket (norb + 1) nelec_bra)
                     else (tpose [3; 2; 1; 0] (make_rdm12_ab ket bra (norb + 1) nelec_bra), par) in
      let tdm1h : arr := fun i => tdm1h [norb; nth 0 i 0] in
      let a : arr := fun i => a [nth 0 i 0; norb; nth 1 i 0; nth 2 i 0] in
      let b : arr := fun i => b [nth 0 i 0; norb; nth 1 i 0; nth 2 i 0] in
      Ok (if cre then (tdm1h, a, b) else (aconj tdm1h, tpose [0; 2; 1] (aconj a), tpose [0; 2; 1] (aconj b)))).
  (** _trans_sfudm1_o0: rdm.py:401-415 *)
  Definition trans_sfudm1 (cibra ciket : mat) (norb : nat) (nelec : nat * nat) (link : option links) : res arr :=
    let nelec_bra := lower_nelec 1 (raise_nelec 0 nelec) in
    let nelecd := (fst nelec_bra, snd nelec) in
    let l := unpack_links (norb + 1) nelecd link in
    check_links l norb nelecd (
      let ket := add1 ciket norb nelec true false in
      let bra := add1 cibra norb nelec_bra false true in
      let dm2dum := make_rdm12_ab ket bra (norb + 1) nelecd in
      Ok (fun i => sopp (dm2dum [norb; nth 0 i 0; nth 1 i 0; norb]))).
  (** trans_sfddm1: rdm.py:448-473 *)
  Definition trans_sfddm1 (cibra ciket : mat) (norb : nat) (nelec : nat * nat) (link : option links) : res arr :=
    do x <- trans_sfudm1 ciket cibra norb (raise_nelec 1 (lower_nelec 0 nelec)) link ;; Ok (tpose [1; 0] (aconj x)).
  (** _trans_ppdm_o0: rdm.py:528-552 *)
  Definition trans_ppdm (cibra ciket : mat) (norb : nat) (nelec : nat * nat) (spin : nat) (link : option links) : res arr :=
    let s1 := if 1 <? spin then 1 else 0 in
    let s2 := if 0 <? spin then 1 else 0 in
    let ndum := 2 - spin mod 2 in
    let nelec_bra := raise_nelec s2 (raise_nelec s1 nelec) in
    let occ_a := spin <? 2 in
    let occ_b := 0 <? spin in
    let l := unpack_links (norb + ndum) nelec_bra link in
    let w x := (Z.of_nat x * (Z.of_nat norb + Z.of_nat ndum - Z.of_nat x + 1))%Z in
    py_assert (fst (widths l) =? w (fst nelec_bra))%Z (py_assert (snd (widths l) =? w (snd nelec_bra))%Z (
      let step (st : mat * mat * (nat * nat)) (i : nat) :=
        let '(bra, ket, nelecd) := st in
        (add1 bra (norb + i) nelec_bra false false, add1 ket (norb + i) nelecd occ_a occ_b, (fst nelecd + b2n occ_a, snd nelecd + b2n occ_b)) in
      let '(bra, ket, _) := fold_left step (seq 0 ndum) (cibra, ciket, nelec) in
      let dumdm2 := if spin mod 2 =? 0 then snd (reorder_rdm (make_rdm12_par s1 bra ket (norb + ndum) nelec_bra))
                    else make_rdm12_ab bra ket (norb + ndum) nelec_bra in
      Ok (fun i => dumdm2 [nth 0 i 0; norb + ndum - 1; nth 1 i 0; norb]))).
  (** trans_hhdm: rdm.py:620-648 *)
  Definition trans_hhdm (cibra ciket : mat) (norb : nat) (nelec : nat * nat) (spin : nat) (link : option links) : res arr :=
    let nelec := lower_nelec (if 0 <? spin then 1 else 0) (lower_nelec (if 1 <? spin then 1 else 0) nelec) in
    do x <- trans_ppdm ciket cibra norb nelec spin link ;; Ok (tpose [1; 0] (aconj x)).

  (** *** _make_dms_ of one fragment: frag.py:760-934 *)
  (** orbitals; unique roots, their first rootspaces (uroot_addr), electrons (nelec_r), numbers of states and CI arrays *)
  Variables (norb nu : nat) (uaddr : nat -> nat) (ne : nat -> nat * nat) (nl : nat -> nat) (ci : nat -> nat -> mat).
  (** np.abs (x) < 1e-8 *)
  Variable small : K -> bool.
  (** hopping_index[:,b,k]: utilities.py:103-119 *)
  Definition hop (b k : nat) : Z * Z := (Z.of_nat (fst (ne b)) - Z.of_nat (fst (ne k)), Z.of_nat (snd (ne b)) - Z.of_nat (snd (ne k)))%Z.
  Definition hop_is (b k : nat) (x y : Z) : bool := (fst (hop b k) =? x)%Z && (snd (hop b k) =? y)%Z.
  Inductive tag := Tdm1 | Tdm2 | Th (s : nat) | Tphh (s : nat) | Tsm | Thh (s : nat).
  Definition tag_eqb (a b : tag) : bool :=
    match a, b with
    | Tdm1, Tdm1 | Tdm2, Tdm2 | Tsm, Tsm => true
    | Th s, Th t | Tphh s, Tphh t | Thh s, Thh t => s =? t
    | _, _ => false end.
  (** self.mats: arrays with axes bra state, ket state, ... *)
  Definition store := tag -> nat -> nat -> option (nat -> nat -> arr).
  Definition put (t : tag) (b k : nat) (x : nat -> nat -> arr) (m : store) : store := fun t' b' k' =>
    if tag_eqb t t' && (b =? b') && (k =? k') then Some x else m t' b' k'.
  (** x = zeros; for i, j in product (...): x[i,j] = g (i, j) *)
  Definition loop2 {X} (d : X) (b k : nat) (g : mat -> mat -> res X) : res (nat -> nat -> X) :=
    do rows <- mapM (fun i => mapM (fun j => g (ci b i) (ci k j)) (seq 0 (nl k))) (seq 0 (nl b)) ;;
    Ok (fun i j => nth j (nth i rows []) d).
  Definition a0 : arr := fun _ => s0.
  (** lines 797-815, 872-874; set_dm1: frag.py:398-402 *)
  Definition fill_dm (b k : nat) (m : store) : res store :=
    do x <- loop2 (a0, a0) b k (fun u v => Ok (trans_rdm12s u v norb (ne k))) ;;
    py_assert (uaddr k <=? uaddr b) (
    Ok (put Tdm2 b k (fun i j => snd (x i j)) (put Tdm1 b k (fun i j => tpose [0; 2; 1] (fst (x i j))) m))).
  (** np.stack ((a, b), axis=0) *)
  Definition stack (a b : arr) : arr := fun i => if hd 0 i =? 0 then a (tl i) else b (tl i).
  (** lines 818-836, 888-895, 918-925; np.amax of an array without elements is a ValueError *)
  Definition fill_h (s b k : nat) (m : store) : res store :=
    do x <- loop2 (a0, a0, a0) b k (fun u v => trans_rdm13hs false u v norb (ne k) s (Some (norb + 1, ne k))) ;;
    let h i j := fst (fst (x i j)) in
    let phh i j := stack (snd (fst (x i j))) (snd (x i j)) in
    let m := put (Th s) b k h m in
    if (nl b =? 0) || (nl k =? 0) || (norb =? 0) then Raise ValueError else
    py_assert (forallb (fun i => forallb (fun j => forallb (fun p => forallb (fun q => forallb (fun r =>
      small (sadd (phh i j [s; p; q; r]) (phh i j [s; r; q; p]))) (seq 0 norb)) (seq 0 norb)) (seq 0 norb)) (seq 0 (nl k))) (seq 0 (nl b)))
      (Ok (put (Tphh s) b k phh m)).
  (** lines 839-849, 899 *)
  Definition fill_sm (b k : nat) (m : store) : res store :=
    do x <- loop2 a0 b k (fun u v => trans_sfddm1 u v norb (ne k) (Some (norb + 1, (fst (ne k), snd (ne k) + 1)))) ;; Ok (put Tsm b k x m).
  (** lines 850-861, 903, 907, 929 *)
  Definition fill_hh (s b k : nat) (m : store) : res store :=
    do x <- loop2 a0 b k (fun u v => trans_hhdm u v norb (ne k) s (Some (norb + (2 - s mod 2), ne k))) ;; Ok (put (Thh s) b k x m).
  (** lines 884-908 *)
  Definition fill_a (b k : nat) (m : store) : res store :=
    if hop_is b k (-1) 0 then fill_h 0 b k m
    else if hop_is b k (-1) 1 then fill_sm b k m
    else if hop_is b k (-1) (-1) then fill_hh 1 b k m
    else if hop_is b k (-2) 0 then fill_hh 0 b k m
    else Ok m.
  (** lines 914-930 *)
  Definition fill_b (b k : nat) (m : store) : res store :=
    if hop_is b k 0 (-1) then fill_h 1 b k m
    else if hop_is b k 0 (-2) then fill_hh 2 b k m
    else Ok m.
  Definition foldM {A S} (f : A -> S -> res S) (l : list A) (s : S) : res S := fold_left (fun r a => do s <- r ;; f a s) l (Ok s).
  (** np.where order: rows first; the ket loop is outside *)
  Definition make_dms : res store :=
    do m <- foldM (fun p => fill_dm (fst p) (snd p)) (filter (fun p => hop_is (fst p) (snd p) 0 0 && (snd p <=? fst p)) (list_prod (seq 0 nu) (seq 0 nu))) (fun _ _ _ => None) ;;
    let hidx sp := filter (fun k => existsb (fun b => (sp (hop b k) <? 0)%Z) (seq 0 nu)) (seq 0 nu) in
    let pairs sp := flat_map (fun k => map (fun b => (b, k)) (filter (fun b => (sp (hop b k) <? 0)%Z) (seq 0 nu))) (hidx sp) in
    do m <- foldM (fun p => fill_a (fst p) (snd p)) (pairs fst) m ;;
    foldM (fun p => fill_b (fst p) (snd p)) (pairs snd) m.
  (** the tables as the accessors see them: frag.py:206-258 *)
  Definition mats_of (m : store) : @fmats K :=
    let get t (a b : lst) := option_map (fun x => x (snd a) (snd b)) (m t (fst a) (fst b)) in
    mkFmats (fun s => get (Th s)) (fun s => get (Thh s)) (fun s => get (Tphh s)) (get Tsm) (get Tdm1) (get Tdm2).
  (** mats['ovlp']: frag.py:773-786; asked only for equal electron numbers *)
  Definition ovlp_of (b k : nat) : list (list K) :=
    map (fun i => map (fun j => if (fst (ne b) =? fst (ne k)) && (snd (ne b) =? snd (ne k))
      then bsum (seq 0 (num_strings norb (fst (ne b)))) (fun x => bsum (seq 0 (num_strings norb (snd (ne b)))) (fun y => smul (sconj (ci b i x y)) (ci k j x y)))
      else s0) (seq 0 (nl k))) (seq 0 (nl b)).
End Half.
