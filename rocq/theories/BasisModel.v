(** Linear maps between raw and orthonormal LASSI model states: my_pyscf/lassi/basis.py.
    Arrays with one column are functions from positions; arithmetic is exact (any commutative ring
    with conjugation). *)
From Coq Require Import List ZArith Bool Arith.
From Verif Require Import Base AddrModel Star.
Import ListNotations.
Local Open Scope nat_scope.

Section Basis.
Variable K : star_ring.
Local Notation vec := (nat -> K).

(** What the maps use of a RootspaceManifold (lassi/basis.py:137-178): the raw state numbers of each
    m-block, the extents of xmat (None means the identity), and umat (spin-coupled case only). *)
Record manifold : Type := mkMan {
  prod_idx_ : list (list nat);
  nraw1 : nat;                       (* xmat.shape[0] *)
  north1 : nat;                      (* xmat.shape[1] *)
  xmat : option (nat -> nat -> K);
  nt : nat;                          (* umat.shape[1] *)
  umat : nat -> nat -> K }.

(** ortharr[i:j] = vals *)
Definition put_slice (arr : vec) (i j : nat) (vals : vec) : vec :=
  fun k => if (i <=? k) && (k <? j) then vals (k - i) else arr k.

(** rawarr[mirror] (fancy indexing) *)
Definition gather (arr : vec) (mirror : list nat) : vec := fun a => arr (nth a mirror 0).

(** rawarr[mirror] = vals: elements are written in order *)
Fixpoint scatter (arr : vec) (mirror : list nat) (a : nat) (vals : vec) : vec :=
  match mirror with
  | [] => arr
  | s :: r => scatter (fun t => if t =? s then vals a else arr t) r (S a) vals
  end.

(** offs_orth: lassi/basis.py:434-458; one block per m-block of every manifold *)
Definition nprods_orth (mans : list manifold) : list nat :=
  flat_map (fun m => repeat (north1 m) (length (prod_idx_ m))) mans.
Definition offs_orth (mans : list manifold) : list (nat * nat) :=
  combine (offs0 (nprods_orth mans)) (cumsum (nprods_orth mans)).

(** np.tensordot (xmat.T, v, axes=1) and np.tensordot (xmat.conj (), v, axes=1) *)
Definition xT_dot (x : nat -> nat -> K) (n : nat) (v : vec) : vec :=
  fun c => bsum (seq 0 n) (fun a => smul (x a c) (v a)).
Definition xconj_dot (x : nat -> nat -> K) (n : nat) (v : vec) : vec :=
  fun a => bsum (seq 0 n) (fun c => smul (sconj (x a c)) (v c)).

(** OrthBasis._matvec: lassi/basis.py:559-580.  [p] counts blocks. *)
Fixpoint mv_mirrors (offs : list (nat * nat)) (m : manifold) (mirrors : list (list nat)) (raw : vec)
    (p : nat) (orth : vec) : nat * vec :=
  match mirrors with
  | [] => (p, orth)
  | mirror :: r =>
      let (i, j) := nth p offs (0, 0) in
      let vals := match xmat m with
                  | None => gather raw mirror
                  | Some x => xT_dot x (nraw1 m) (gather raw mirror)
                  end in
      mv_mirrors offs m r raw (S p) (put_slice orth i j vals)
  end.
Fixpoint mv_mans (offs : list (nat * nat)) (mans : list manifold) (raw : vec) (p : nat) (orth : vec)
  : vec :=
  match mans with
  | [] => orth
  | m :: r => let (p', orth') := mv_mirrors offs m (prod_idx_ m) raw p orth in
              mv_mans offs r raw p' orth'
  end.
Definition matvec (mans : list manifold) (raw : vec) : vec :=
  mv_mans (offs_orth mans) mans raw 0 (fun _ => s0).

(** OrthBasis._rmatvec: lassi/basis.py:581-602 *)
Fixpoint rmv_mirrors (offs : list (nat * nat)) (m : manifold) (mirrors : list (list nat)) (orth : vec)
    (p : nat) (raw : vec) : nat * vec :=
  match mirrors with
  | [] => (p, raw)
  | mirror :: r =>
      let (i, _) := nth p offs (0, 0) in
      let blk := fun c => orth (i + c) in
      let vals := match xmat m with
                  | None => blk
                  | Some x => xconj_dot x (north1 m) blk
                  end in
      rmv_mirrors offs m r orth (S p) (scatter raw mirror 0 vals)
  end.
Fixpoint rmv_mans (offs : list (nat * nat)) (mans : list manifold) (orth : vec) (p : nat) (raw : vec)
  : vec :=
  match mans with
  | [] => raw
  | m :: r => let (p', raw') := rmv_mirrors offs m (prod_idx_ m) orth p raw in
              rmv_mans offs r orth p' raw'
  end.
Definition rmatvec (mans : list manifold) (orth : vec) : vec :=
  rmv_mans (offs_orth mans) mans orth 0 (fun _ => s0).

(** SpinCoupledOrthBasis._matvec: lassi/basis.py:666-687.  uxarr has rows (spin coupling t, column q) in
    row-major order; the stack over m-blocks is indexed by m. *)
Definition sc_block (m : manifold) (raw : vec) : vec :=
  let stack := fun mi a => raw (nth a (nth mi (prod_idx_ m) []) 0) in
  let x_applied := match xmat m with
                   | None => stack
                   | Some x => fun mi => xT_dot x (nraw1 m) (stack mi)
                   end in
  fun k => let t := k / north1 m in let q := k mod north1 m in
           bsum (seq 0 (length (prod_idx_ m))) (fun mi => smul (umat m mi t) (x_applied mi q)).
Fixpoint sc_mv (mans : list manifold) (raw : vec) (i : nat) (orth : vec) : vec :=
  match mans with
  | [] => orth
  | m :: r =>
      let ux_rows := nt m * north1 m in
      let j := i + ux_rows in
      sc_mv r raw j (put_slice orth i j (sc_block m raw))
  end.
Definition sc_matvec (mans : list manifold) (raw : vec) : vec := sc_mv mans raw 0 (fun _ => s0).

(** SpinCoupledOrthBasis._rmatvec: lassi/basis.py:689-710 *)
Fixpoint sc_scatter (m : manifold) (mirrors : list (list nat)) (mi : nat) (ux : nat -> vec) (raw : vec)
  : vec :=
  match mirrors with
  | [] => raw
  | mirror :: r => sc_scatter m r (S mi) ux (scatter raw mirror 0 (ux mi))
  end.
Definition sc_rblock (m : manifold) (i : nat) (orth : vec) : nat -> vec :=
  let uapp := fun mi q => bsum (seq 0 (nt m)) (fun t => smul (umat m mi t) (orth (i + (t * north1 m + q)))) in
  match xmat m with
  | None => uapp
  | Some x => fun mi => xconj_dot x (north1 m) (uapp mi)
  end.
Fixpoint sc_rmv (mans : list manifold) (orth : vec) (i : nat) (raw : vec) : vec :=
  match mans with
  | [] => raw
  | m :: r =>
      let j := i + nt m * north1 m in
      sc_rmv r orth j (sc_scatter m (prod_idx_ m) 0 (sc_rblock m i orth) raw)
  end.
Definition sc_rmatvec (mans : list manifold) (orth : vec) : vec := sc_rmv mans orth 0 (fun _ => s0).
End Basis.

Arguments prod_idx_ {K}. Arguments nraw1 {K}. Arguments north1 {K}. Arguments xmat {K}.
Arguments nt {K}. Arguments umat {K}.

(** SmultShifter._matvec: lassi/basis.py:836-864.  Manifolds are given by their two orth sizes
    (intermediate, final).  The result lists, for every application of a manifold, its number, the
    segment read and the segment written. *)
Fixpoint shifter_segments (sizes : list (nat * nat)) (n i0 f0 : nat)
  : list (nat * (nat * nat) * (nat * nat)) :=
  match sizes with
  | [] => []
  | (si, sf) :: r =>
      let i1 := i0 + si in
      let f1 := f0 + sf in
      if (0 <? i1 - i0) && (0 <? f1 - f0)
      then (n, (i0, i1), (f0, f1)) :: shifter_segments r (S n) i1 f1
      else shifter_segments r (S n) i0 f0
  end.
