(** Transposition of arrays with many dimensions: util/bigdim.py and the two SI-vector
    transpositions of my_pyscf/lassi/op_o1/utilities.py.  Arrays are their flattened data; [d] is a
    default value used only to read positions that exist. *)
From Coq Require Import List Bool Arith.
From Verif Require Import Base AddrModel.
Import ListNotations.
Local Open Scope nat_scope.

Section Trans.
Context {A : Type} (d : A).

(** np.ascontiguousarray (a.reshape (p,q,r,s).transpose (0,2,1,3)): bigdim.py:46-47 *)
Definition swap_axes (p q r s : nat) (a : list A) : list A :=
  flat_map (fun x => flat_map (fun z => flat_map (fun y =>
    map (fun w => nth (((x * q + y) * r + z) * s + w) a d) (seq 0 s))
    (seq 0 q)) (seq 0 r)) (seq 0 p).

(** a.reshape (p,q,r,-1): the extent of the last axis.  numpy raises ValueError when the known
    extents have product zero or do not divide the size. *)
Definition last_extent (known size : nat) : res nat :=
  if Nat.eqb known 0 then Raise ValueError
  else if Nat.eqb (size mod known) 0 then Ok (size / known) else Raise ValueError.

(** the loop: bigdim.py:41-49.  (A zero extent gives q = 0 // 0, which numpy evaluates to 0 with a
    warning; Nat.div agrees.) *)
Fixpoint bigloop (axes : list nat) (p : nat) (shape : list nat) (a : list A) : res (list A) :=
  match axes with
  | [] => Ok a
  | i :: axes' =>
      match nth_error shape i with
      | None => Raise IndexError
      | Some r =>
          let q := prodN (firstn (i + 1) shape) / r in
          do s <- last_extent (p * q * r) (length a) ;;
          bigloop axes' (p * r) (upd i (fun _ => 1) shape) (swap_axes p q r s a)
      end
  end.

Fixpoint nodup_b (l : list nat) : bool :=
  match l with [] => true | x :: r => negb (existsb (Nat.eqb x) r) && nodup_b r end.

(** transpose (a, shape, axes, order): bigdim.py:28-50, for a flat argument. [forder] selects 'F'. *)
Definition bigdim_transpose (a : list A) (shape axes : list nat) (forder : bool) : res (list A) :=
  let ndim := length shape in
  py_assert (Nat.eqb (length a) (prodN shape))
  (py_assert (Nat.eqb (length axes) ndim)
  (py_assert (nodup_b axes)
  (if forder
   then bigloop (map (fun i => ndim - 1 - i) (rev axes)) 1 (rev shape) a
   else bigloop axes 1 shape a))).

(** [i for i in range (nfrags) if i not in inv] + list (inv) + [nfrags,]: utilities.py:252, 278 *)
Definition slow_axes (nfrags : nat) (inv : list nat) : list nat :=
  filter (fun i => negb (existsb (Nat.eqb i) inv)) (seq 0 nfrags) ++ inv ++ [nfrags].

(** transpose_sivec_make_fragments_slow: utilities.py:230-256.  The result is the data in memory
    together with the three extents (ncols, nrows, nroots_si) of the column-major array. *)
Definition make_fragments_slow (vec : list A) (lroots : list nat) (inv : list nat)
  : res (list A * (nat * nat * nat)) :=
  let nfrags := length lroots in
  let nprods := prodN lroots in
  let nsi := length vec / nprods in
  py_assert (Nat.eqb (length vec mod nprods) 0)
  (let nrows := prodN (map (fun i => nth i lroots 0) inv) in
   let ncols := nprods / nrows in
   do v <- bigdim_transpose vec (lroots ++ [nsi]) (slow_axes nfrags inv) true ;;
   Ok (v, (ncols, nrows, nsi))).

(** np.argsort of a list without repeated values: positions in order of increasing value *)
Fixpoint insert_pair (x : nat * nat) (l : list (nat * nat)) : list (nat * nat) :=
  match l with
  | [] => [x]
  | y :: r => if fst x <=? fst y then x :: l else y :: insert_pair x r
  end.
Fixpoint sort_pairs (l : list (nat * nat)) : list (nat * nat) :=
  match l with [] => [] | x :: r => insert_pair x (sort_pairs r) end.
Definition argsort (l : list nat) : list nat :=
  map snd (sort_pairs (combine l (seq 0 (length l)))).

(** transpose_sivec_with_slow_fragments: utilities.py:258-284 *)
Definition with_slow_fragments (vec : list A) (lroots : list nat) (inv : list nat)
  : res (list A) :=
  let nfrags := length lroots in
  let nprods := prodN lroots in
  let axes := slow_axes nfrags inv in
  let nsi := length vec / nprods in
  py_assert (Nat.eqb (length vec mod nprods) 0)
  (let shape := map (fun i => nth i lroots 0) (removelast axes) ++ [nsi] in
   bigdim_transpose vec shape (argsort axes) true).
End Trans.
