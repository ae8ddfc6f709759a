(** Addressing of LASSI model states: my_pyscf/lassi/citools.py (get_lroots, get_rootaddr_fragaddr)
    and the block look-ups of my_pyscf/lassi/basis.py. *)
From Coq Require Import List ZArith Bool Arith.
From Verif Require Import Base.
Import ListNotations.
Local Open Scope nat_scope.

(** np.prod of integers (1 for the empty sequence) *)
Fixpoint prodN (l : list nat) : nat :=
  match l with [] => 1 | x :: r => x * prodN r end.

Fixpoint sum_nat (l : list nat) : nat :=
  match l with [] => 0 | x :: r => x + sum_nat r end.

(** np.cumsum, running total [acc] *)
Fixpoint cumsum_from (acc : nat) (l : list nat) : list nat :=
  match l with [] => [] | x :: r => (acc + x) :: cumsum_from (acc + x) r end.
Definition cumsum (l : list nat) : list nat := cumsum_from 0 l.

(** np.repeat (l, k): each element k times; np.tile (l, k): the list k times; np.arange *)
Definition np_repeat (l : list nat) (k : nat) : list nat := flat_map (fun x => repeat x k) l.
Fixpoint np_tile (l : list nat) (k : nat) : list nat :=
  match k with 0 => [] | S k' => l ++ np_tile l k' end.
Definition arange (n : nat) : list nat := seq 0 n.

(** arr[i:j] = vals.  numpy raises ValueError when the lengths differ, except that a single value is
    broadcast. *)
Definition set_slice (arr : list nat) (i j : nat) (vals : list nat) : res (list nat) :=
  let n := length arr in
  let j' := Nat.min j n in
  let i' := Nat.min i j' in
  if Nat.eqb (length vals) (j' - i') then Ok (firstn i' arr ++ vals ++ skipn j' arr)
  else match vals with
       | [v] => Ok (firstn i' arr ++ repeat v (j' - i') ++ skipn j' arr)
       | _ => Raise ValueError
       end.

(** arr[i:j] = scalar *)
Definition fill_slice (arr : list nat) (i j : nat) (v : nat) : list nat :=
  let n := length arr in
  let j' := Nat.min j n in
  let i' := Nat.min i j' in
  firstn i' arr ++ repeat v (j' - i') ++ skipn j' arr.

(** A CI vector argument of get_lroots: an ndarray (its shape) or a list of arguments *)
Inductive ciarg : Set :=
| Arr (shape : list nat)
| Seq (l : list ciarg).
(** The nested integer array returned *)
Inductive ltable : Set :=
| LNum (n : nat)
| LList (l : list ltable).

(** get_lroots: lassi/citools.py:29-42.  [lnum] is [1 if c.ndim<3 else c.shape[0]]. *)
Definition lnum (shape : list nat) : nat :=
  if length shape <? 3 then 1 else hd 0 shape.

Fixpoint get_lroots1 (c : ciarg) : res ltable :=
  match c with
  | Arr sh => Ok (LNum (lnum sh))
  | Seq ci =>
      (fix loop (ci : list ciarg) (didrecurse dideval : bool) (acc : list ltable) : res ltable :=
         match ci with
         | [] => Ok (LList (rev acc))
         | c :: r =>
             match c with
             | Arr sh =>
                 if didrecurse then Raise RuntimeError
                 else loop r didrecurse true (LNum (lnum sh) :: acc)
             | Seq _ =>
                 if dideval then Raise RuntimeError
                 else match get_lroots1 c with
                      | Ok t => loop r true dideval (t :: acc)
                      | Raise e => Raise e
                      end
             end
         end) ci false false []
  end.
(** The argument of the Python function is always the sequence. *)
Definition get_lroots (ci : list ciarg) : res ltable := get_lroots1 (Seq ci).

(** Column [iroot] of the table lroots[nfrags,nroots]. *)
Definition column (lroots : list (list nat)) (iroot : nat) : list nat :=
  map (fun row => nth iroot row 0) lroots.

(** body of the inner loop: citools.py:66-70 *)
Definition frag_addrs (col : list nat) (ifrag : nat) : list nat :=
  let prods_before := prodN (firstn ifrag col) in
  let prods_after := prodN (skipn (S ifrag) col) in
  np_tile (np_repeat (arange (nth ifrag col 0)) prods_before) prods_after.

(** inner loop over fragments: citools.py:64-70 *)
Fixpoint fill_frags (col : list nat) (i j : nat) (ifrag : nat) (fragaddr : list (list nat))
  : res (list (list nat)) :=
  match fragaddr with
  | [] => Ok []
  | row :: rows =>
      do row' <- set_slice row i j (frag_addrs col ifrag) ;;
      do rows' <- fill_frags col i j (S ifrag) rows ;;
      Ok (row' :: rows')
  end.

(** outer loop over rootspaces: citools.py:63-71 *)
Fixpoint fill_roots (lroots : list (list nat)) (nprods offs : list nat) (iroot : nat)
    (todo : nat) (rootaddr : list nat) (fragaddr : list (list nat))
  : res (list nat * list (list nat)) :=
  match todo with
  | 0 => Ok (rootaddr, fragaddr)
  | S todo' =>
      let j := nth iroot offs 0 in
      let i := j - nth iroot nprods 0 in
      do fragaddr' <- fill_frags (column lroots iroot) i j 0 fragaddr ;;
      fill_roots lroots nprods offs (S iroot) todo' (fill_slice rootaddr i j iroot) fragaddr'
  end.

(** get_rootaddr_fragaddr: citools.py:44-72.  [lroots] is the list of rows of a rectangular array
    (one per fragment); the 1-d array that an empty list denotes cannot be unpacked. *)
Definition get_rootaddr_fragaddr (lroots : list (list nat)) : res (list nat * list (list nat)) :=
  match lroots with
  | [] => Raise ValueError
  | row0 :: _ =>
      let nfrags := length lroots in
      let nroots := length row0 in
      let nprods := map (fun iroot => prodN (column lroots iroot)) (seq 0 nroots) in
      let nstates := sum_nat nprods in
      let fragaddr := repeat (repeat 0 nstates) nfrags in
      let rootaddr := repeat 0 nstates in
      let offs := cumsum nprods in
      fill_roots lroots nprods offs 0 nroots rootaddr fragaddr
  end.

(** offs[:,0] built in the constructors: lassi/basis.py:359-361, 420-422, 455-457 *)
Definition offs0 (sizes : list nat) : list nat :=
  map (fun p => fst p - snd p) (combine (cumsum sizes) sizes).

(** np.searchsorted (a, v, side='right') on an ascending array: the number of leading entries <= v *)
Fixpoint searchsorted_right (a : list nat) (v : Z) : nat :=
  match a with
  | [] => 0
  | x :: r => if Z.leb (Z.of_nat x) v then S (searchsorted_right r v) else 0
  end.

(** Indexing with a possibly negative index. *)
Definition pyindex (a : list nat) (i : Z) : res nat :=
  let n := Z.of_nat (length a) in
  let i' := if Z.ltb i 0 then (i + n)%Z else i in
  if Z.ltb i' 0 then Raise IndexError
  else match nth_error a (Z.to_nat i') with Some x => Ok x | None => Raise IndexError end.

(** split_addrs_by_blocks for one address: lassi/basis.py:380-384, 484-489 *)
Definition split_addr_by_blocks (sizes : list nat) (addr : Z) : res (Z * Z) :=
  let offs := offs0 sizes in
  let blk := (Z.of_nat (searchsorted_right offs addr) - 1)%Z in
  do o <- pyindex offs blk ;;
  let col := (addr - Z.of_nat o)%Z in
  py_assert (Z.leb 0 col) (Ok (blk, col)).

(** Look-up tables of OrthBasis.__init__: lassi/basis.py:423-451.  [mblocks] is the list of the m_blocks of
    all manifolds in order (block number [nman] counts over all of them); each is a list of rootspaces.
    [None] is the initial -1. *)
Record rlookup : Set := mkLookup {
  root_block : list (option nat);        (* root_block_addr[:,0] *)
  root_pos : list (option nat);          (* root_block_addr[:,1] *)
  root_block_prod_offs : list (option nat) }.

Fixpoint lookup_block (nman k : nat) (m_block : list nat) (offs : list nat) (t : rlookup) : rlookup :=
  match m_block, offs with
  | iroot :: r, o :: os =>
      lookup_block nman (S k) r os
        {| root_block := upd iroot (fun _ => Some nman) (root_block t);
           root_pos := upd iroot (fun _ => Some k) (root_pos t);
           root_block_prod_offs := upd iroot (fun _ => Some o) (root_block_prod_offs t) |}
  | _, _ => t
  end.

Fixpoint lookup_all (nprods : list nat) (nman : nat) (mblocks : list (list nat)) (t : rlookup)
  : rlookup :=
  match mblocks with
  | [] => t
  | b :: r =>
      let sizes := map (fun iroot => nth iroot nprods 0) b in
      lookup_all nprods (S nman) r (lookup_block nman 0 b (offs0 sizes) t)
  end.

Definition orth_lookup (nprods : list nat) (mblocks : list (list nat)) : res rlookup :=
  let n := length nprods in
  let t := lookup_all nprods 0 mblocks
             {| root_block := repeat None n; root_pos := repeat None n;
                root_block_prod_offs := repeat None n |} in
  py_assert (forallb (fun o => match o with Some _ => true | None => false end) (root_block t))
            (Ok t).

(** split_addrs_by_rblocks for one address: lassi/basis.py:493-499 *)
Definition split_addr_by_rblocks (nprods : list nat) (t : rlookup) (addr : Z) : res (nat * Z) :=
  let offs := offs0 nprods in
  let root := (Z.of_nat (searchsorted_right offs addr) - 1)%Z in
  do o <- pyindex offs root ;;
  let i := Z.to_nat (if Z.ltb root 0 then (root + Z.of_nat (length nprods))%Z else root) in
  match nth_error (root_block_prod_offs t) i, nth_error (root_block t) i with
  | Some (Some po), Some (Some blk) =>
      let col := (addr - Z.of_nat o + Z.of_nat po)%Z in
      py_assert (Z.leb 0 col) (Ok (blk, col))
  | _, _ => Raise IndexError
  end.

(** RootspaceManifold.prod_idx: lassi/basis.py:150-159 *)
Definition prod_idx (nprods : list nat) (m_block : list nat) : list nat :=
  flat_map (fun iroot => seq (nth iroot (offs0 nprods) 0) (nth iroot nprods 0)) m_block.
