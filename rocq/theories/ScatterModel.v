(** From the density matrices of the fragments of an interaction to the arrays tdm1s and tdm2s: the ranges of orbitals and the
    buffers, lassi/op_o1/stdm.py:142-148, 456-471, 695-742, 1004-1083, the C functions that add a buffer to an array,
    lib/lassi/rdm.c:115-325, and what make_stdm12s returns when all rootspaces have the same numbers of electrons of each spin,
    lassi/op_o1/stdm.py:1136-1229 (spin_pure).

    int is 32 bits wide and overflow wraps around (it is undefined in C), long does not overflow, a failed assertion of C is
    an AssertionError.  The iterations of "omp for" run one after the other in any order.  Arithmetic on matrix elements is exact. *)
From Coq Require Import List ZArith Bool Arith.
From Verif Require Import Base Star AddrModel SignsModel SCModel ExcModel UexcModel StdmModel CrunchModel.
Import ListNotations.
Local Open Scope nat_scope.

Definition i32 (z : Z) : Z := ((z + 2 ^ 31) mod 2 ^ 32 - 2 ^ 31)%Z.
(** omp for: for (int i = 0; i < n; i++), in the order of the schedule *)
Definition c_for {S} (sched : nat -> list nat) (n : Z) (body : Z -> S -> res S) (s : S) : res S :=
  fold_left (fun r i => do s <- r ;; body (Z.of_nat i) s) (sched (Z.to_nat n)) (Ok s).
Definition at_ (l : list Z) (i : Z) : Z := nth (Z.to_nat i) l 0%Z.

Section C.
  Context {K : star_ring}.
  Variable sched : nat -> list nat.
  (** what a pointer points at *)
  Definition mem := Z -> K.
  (** daxpy (n, 1, x + i, 1, y + j, 1) *)
  Definition daxpy (n : Z) (x : mem) (i : Z) (y : mem) (j : Z) : mem :=
    fun a => if ((j <=? a) && (a <? j + n))%Z then sadd (y a) (x (i + (a - j))%Z) else y a.
  Local Open Scope Z_scope.
  (** LASSIRDMdputSD1, LASSIRDMzputSD1: rdm.c:115-162, 221-268; one iteration, the loop *)
  Definition put_SD1_iter (src : mem) (nroots ndest nsrc : Z) (dest_idx src_idx len : list Z) (nidx i : Z) (dest : mem) : res mem :=
    let npdest := i32 (ndest * ndest) in
    let npsrc := i32 (nsrc * nsrc) in
    let lroot := i32 (2 * nidx) in
    let src_size := i32 (i32 (nroots * 2) * npsrc) in
    let dest_size := i32 (i32 (nroots * 2) * npdest) in
    let iroot := Z.quot i lroot in
    let j := Z.rem i lroot in
    let ispin := Z.quot j nidx in
    let iidx := Z.rem j nidx in
    py_assert (iroot <? nroots) (py_assert (ispin <? 2) (py_assert (iidx <? nidx) (
    let sidx := i32 (i32 (i32 (iroot * 2 + ispin) * npsrc) + at_ src_idx iidx) in
    let didx := i32 (i32 (i32 (iroot * 2 + ispin) * npdest) + at_ dest_idx iidx) in
    py_assert (sidx <? src_size) (py_assert (didx <? dest_size) (
    Ok (daxpy (at_ len iidx) src sidx dest didx)))))).
  Definition put_SD1 (dest src : mem) (nroots ndest nsrc : Z) (dest_idx src_idx len : list Z) (nidx : Z) : res mem :=
    let nblk := i32 (i32 (nroots * 2) * nidx) in
    c_for sched nblk (put_SD1_iter src nroots ndest nsrc dest_idx src_idx len nidx) dest.
  (** LASSIRDMdputSD2, LASSIRDMzputSD2: rdm.c:164-219, 270-325; ntdest and ntsrc are long, but products of int *)
  Definition put_SD2_iter (src : mem) (nroots ndest nsrc : Z) (pdest dest_idx src_idx len : list Z) (nidx i : Z) (dest : mem) : res mem :=
    let npdest := i32 (ndest * ndest) in
    let npsrc := i32 (nsrc * nsrc) in
    let ntdest := i32 (npdest * npdest) in
    let ntsrc := i32 (npsrc * npsrc) in
    let lroot := i32 (i32 (4 * npsrc) * nidx) in
    let lspin := i32 (npsrc * nidx) in
    let src_size := i32 (nroots * 4) * ntsrc in
    let dest_size := i32 (nroots * 4) * ntdest in
    let iroot := Z.quot i lroot in
    let j := Z.rem i lroot in
    let ispin := Z.quot j lspin in
    let j := Z.rem j lspin in
    let ipdest := Z.quot j nidx in
    let iidx := Z.rem j nidx in
    py_assert (iroot <? nroots) (py_assert (ispin <? 4) (py_assert (ipdest <? npsrc) (py_assert (iidx <? nidx) (
    let sidx := i32 (iroot * 4 + ispin) * ntsrc + (ipdest * npsrc + at_ src_idx iidx) in
    let didx := i32 (iroot * 4 + ispin) * ntdest + (at_ pdest ipdest * npdest + at_ dest_idx iidx) in
    py_assert (sidx <? src_size) (py_assert (didx <? dest_size) (
    Ok (daxpy (at_ len iidx) src sidx dest didx))))))).
  Definition put_SD2 (dest src : mem) (nroots ndest nsrc : Z) (pdest dest_idx src_idx len : list Z) (nidx : Z) : res mem :=
    let npsrc := i32 (nsrc * nsrc) in
    let nblk := i32 (i32 (i32 (nroots * 4) * npsrc) * nidx) in
    c_for sched nblk (put_SD2_iter src nroots ndest nsrc pdest dest_idx src_idx len nidx) dest.
End C.

(** get_range: stdm.py:456-471 *)
Definition get_range (nlas : list nat) (i : nat) : nat * nat := let p := list_sum (firstn i nlas) in (p, p + nth i nlas 0).
(** np.sort (self.nlas)[::-1] *)
Fixpoint put_in (x : nat) (l : list nat) : list nat := match l with [] => [x] | y :: r => if y <=? x then x :: l else y :: put_in x r end.
Definition bigorb (nlas : list nat) : list nat := fold_right put_in [] nlas.
(** what _orbrange_env_kwargs sets: the restricted nlas, _nsrc_c, _pdest, _dblk_idx, _sblk_idx, _lblk *)
Record env := mkEnv { e_nlas : list nat; e_nsrc : nat; e_pdest : list nat; e_dblk : list nat; e_sblk : list nat; e_lblk : list nat }.

Section Py.
  Context {K : star_ring}.
  Variables (sched : nat -> list nat) (nlas : list nat) (nthreads : nat).
  Definition norb_tot : nat := list_sum nlas.
  (** stdm.py:1017-1024: fragidx, _orbidx and the nlas of the environment *)
  Definition fragidx (inv : list nat) (f : nat) : bool := existsb (Nat.eqb f) inv.
  Definition orbidx (inv : list nat) : list bool :=
    fold_left (fun m frag => let '(p, q) := get_range nlas frag in
      map (fun k => if (p <=? k) && (k <? q) then true else nth k m false) (seq 0 norb_tot)) inv (repeat false norb_tot).
  Definition nlas_in (inv : list nat) : list nat := map (fun f => if fragidx inv f then nth f nlas 0 else 0) (seq 0 (length nlas)).
  (** x.ravel ()[:size].reshape (shape) of a buffer with the given length *)
  Definition reshape_buf {A} (len size : nat) (k : res A) : res A := if Nat.min len size =? size then k else Raise ValueError.
  (** _orbrange_env_kwargs, _orbrange_env_kwargs_orbidx: stdm.py:1015-1061; _init_buffers_: lines 142-146 *)
  Definition orbrange_env (inv : list nat) : res env :=
    let nl := nlas_in inv in
    let norb := list_sum nl in
    let d1 := 2 * list_sum (firstn 2 (bigorb nlas)) ^ 2 in
    let d2 := 4 * list_sum (firstn 4 (bigorb nlas)) ^ 4 in
    (if length inv <? 3 then reshape_buf d1 (2 * norb ^ 2) else fun k => k) (
    reshape_buf d2 (4 * norb ^ 4) (
    let idx := orbidx inv in
    let nsrc := length (where_true idx) in
    let mask := map (fun pq => nth (fst pq) idx false && nth (snd pq) idx false) (list_prod (seq 0 norb_tot) (seq 0 norb_tot)) in
    let actpairs := where_true mask in
    do blk <- (if nsrc =? norb_tot then do r <- split_contig_array (norb_tot ^ 2) nthreads ;; Ok (fst r, fst r, snd r)
               else Ok (get_contig_blks mask)) ;;
    let '(sblk, dblk, lblk) := blk in
    Ok (mkEnv nl nsrc actpairs dblk sblk lblk))).
  (** fragment and orbital of a position in the ranges of get_range, which follow one another *)
  Fixpoint loc_from (f : nat) (nl : list nat) (p : nat) : nat * nat :=
    match nl with [] => (f, p) | n :: r => if p <? n then (f, p) else loc_from (S f) r (p - n) end.
  Definition locate (nl : list nat) (p : nat) : nat * nat := loc_from 0 nl p.
  (** d1[bs,p0:p1,q0:q1] = a and d2[bs,p0:p1,q0:q1,r0:r1,u0:u1] = a of arrays with integer indices *)
  Definition within (r : nat * nat) (p : nat) : bool := (fst r <=? p) && (p <? snd r).
  Definition slice1 (bs : list nat) (rp rq : nat * nat) (a : @arr K) (d : nat -> nat -> nat -> K) : nat -> nat -> nat -> K := fun s p q =>
    match index_of s bs with Some k => if within rp p && within rq q then a [k; p - fst rp; q - fst rq] else d s p q | None => d s p q end.
  Definition slice2 (bs : list nat) (rp rq rr ru : nat * nat) (a : @arr K) (d : nat -> nat -> nat -> nat -> nat -> K) : nat -> nat -> nat -> nat -> nat -> K := fun b p q r u =>
    match index_of b bs with
    | Some k => if within rp p && within rq q && within rr r && within ru u then a [k; p - fst rp; q - fst rq; r - fst rr; u - fst ru] else d b p q r u
    | None => d b p q r u end.
  (** the buffers self.d1 (2,n,n) and self.d2 (4,n,n,n,n) in memory, times a number; the entries are those of CrunchModel *)
  Definition buf1 (n : nat) (nl : list nat) (d : tix -> K) (w : K) : mem := fun a =>
    let a := Z.to_nat a in smul (d (X1 (a / n ^ 2) (locate nl (a / n mod n)) (locate nl (a mod n)))) w.
  Definition buf2 (n : nat) (nl : list nat) (d : tix -> K) (w : K) : mem := fun a =>
    let a := Z.to_nat a in smul (d (X2 (a / n ^ 4) (locate nl (a / n ^ 3 mod n)) (locate nl (a / n ^ 2 mod n)) (locate nl (a / n mod n)) (locate nl (a mod n)))) w.
  (** tdm1s[b,k] and tdm2s[b,k] *)
  Definition tdms := nat -> nat -> mem (K := K) * mem (K := K).
  Definition zs (l : list nat) : list Z := map Z.of_nat l.
  Definition foldR {A S} (f : S -> A -> res S) (l : list A) (s : S) : res S := fold_left (fun r a => do s <- r ;; f s a) l (Ok s).
  (** _put_SD1_, _put_SD2_: stdm.py:710-724, 733-748 *)
  Definition put_SD1_ (e : env) (d : tix -> K) (l : list (nat * nat * K)) (t : tdms) : res tdms :=
    foldR (fun t bkw => let '(b, k, w) := bkw in
      do m <- put_SD1 sched (fst (t b k)) (buf1 (list_sum (e_nlas e)) (e_nlas e) d w) 1 (Z.of_nat norb_tot) (Z.of_nat (e_nsrc e)) (zs (e_dblk e)) (zs (e_sblk e)) (zs (e_lblk e)) (Z.of_nat (length (e_lblk e))) ;;
      Ok (fun b' k' => if (b =? b') && (k =? k') then (m, snd (t b' k')) else t b' k')) l t.
  Definition put_SD2_ (e : env) (d : tix -> K) (l : list (nat * nat * K)) (t : tdms) : res tdms :=
    foldR (fun t bkw => let '(b, k, w) := bkw in
      do m <- put_SD2 sched (snd (t b k)) (buf2 (list_sum (e_nlas e)) (e_nlas e) d w) 1 (Z.of_nat norb_tot) (Z.of_nat (e_nsrc e)) (zs (e_pdest e)) (zs (e_dblk e)) (zs (e_sblk e)) (zs (e_lblk e)) (Z.of_nat (length (e_lblk e))) ;;
      Ok (fun b' k' => if (b =? b') && (k =? k') then (fst (t b' k'), m) else t b' k')) l t.
  (** _crunch_1d_ and _crunch_1c_ call _put_D1_ and _put_D2_, the others _put_D2_ alone *)
  Definition has_d1 (lbl : nat) : bool := (lbl =? 0) || (lbl =? 2).
  Definition put_D (e : env) (lbl : nat) (d : tix -> K) (l : list (nat * nat * K)) (t : tdms) : res tdms :=
    do t <- (if has_d1 lbl then put_SD1_ e d l t else Ok t) ;; put_SD2_ e d l t.

  (** the loops of _crunch_all_ as in StdmModel, over these arrays *)
  Variables (half : K) (big : K -> bool) (pyset : list nat -> list nat) (lroots : list (list nat)) (ovlp : nat -> nat -> nat -> list (list K))
    (spin_shuffle : nat -> K) (frag_shuffle : nat -> list nat -> K) (rootaddr : list nat) (fragaddr : list (list nat))
    (crunch_D : nat -> list nat -> option nat -> nat * list nat -> nat * list nat -> tix -> K) (nonuniq_exc : list ((nat * nat * list nat) * list (nat * nat))).
  (** _crunch_env_, _loop_lroots_: stdm.py:1004-1013, 1063-1069 *)
  Definition crunch_env (lbl : nat) (t : tdms) (row : erow) : res tdms :=
    let inv := e_frags row in
    do e <- orbrange_env inv ;;
    match get_key (key_of row) nonuniq_exc with
    | None => Raise KeyError
    | Some table =>
        let cache := map (fun p => (fst p, snd p, spec_addr_ovlp_1space half big pyset lroots ovlp spin_shuffle frag_shuffle (fst p) (snd p) inv)) table in
        foldR (fun t p => put_D e lbl (crunch_D lbl inv (e_spin row) (state_of rootaddr fragaddr (fst p)) (state_of rootaddr fragaddr (snd p)))
            (spec_addr_ovlp lroots fragaddr cache (fst p) (snd p)) t)
          (list_prod (get_addr_range pyset lroots (e_bra row) inv) (get_addr_range pyset lroots (e_ket row) inv)) t
    end.
  Fixpoint flat_tables (lbl : nat) (tabs : list (list erow)) (t : tdms) : res tdms :=
    match tabs with [] => Ok t | l :: ls => do t' <- foldR (crunch_env lbl) l t ;; flat_tables (S lbl) ls t' end.
  (** tdm1s[b,k,s,p,q] and tdm2s[b,k,c,p,q,r,u] *)
  Definition ix1 (s p q : nat) : Z := Z.of_nat ((s * norb_tot + p) * norb_tot + q).
  Definition ix2 (c p q r u : nat) : Z := Z.of_nat ((((c * norb_tot + p) * norb_tot + q) * norb_tot + r) * norb_tot + u).
  (** _crunch_all_, _add_transpose_ and the rearrangement of make_stdm12s: stdm.py:1071-1083, 1226-1228;
      the results are indexed [bra,spin,p,q,ket] and [bra,spin,p,q,spin,r,u,ket] *)
  Definition make_stdm12s (tabs : list (list erow)) : res ((nat -> nat -> nat -> nat -> nat -> K) * (nat -> nat -> nat -> nat -> nat -> nat -> nat -> nat -> K)) :=
    do t <- flat_tables 0 tabs (fun _ _ => (fun _ => s0, fun _ => s0)) ;;
    let tdm1s b k s p q := sadd (fst (t b k) (ix1 s p q)) (sconj (fst (t k b) (ix1 s q p))) in
    let tdm2s b k c p q r u := sadd (snd (t b k) (ix2 c p q r u)) (sconj (snd (t k b) (ix2 c q p u r))) in
    Ok (fun b s p q k => tdm1s b k s q p, fun b s p q s' r u k => tdm2s b k (2 * s + s') p q r u).
End Py.
