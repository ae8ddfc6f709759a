(** Rotations of the local states of one fragment in one rootspace: umat_dot_1frag_, lassi/citools.py:75-124, and the loops over all
    rotations of a class, lassi/op_o1/stdm.py:1085-1097 and 540-550, lassi/op_o1/rdm.py:59-60 and 76-78.

    An array is a function of its first index and of the C-order position in its other axes.  A rotation is a list of rows; a result
    that does not fit the block is a ValueError (numpy would broadcast a single row).  Arithmetic is exact. *)
From Coq Require Import List Bool Arith.
From Verif Require Import Base Star AddrModel.
Import ListNotations.
Local Open Scope nat_scope.

Section Umat.
  Context {K : star_ring}.
  Definition entry (u : list (list K)) (a b : nat) : K := nth b (nth a u []) s0.
  (** _umat_dot_1frag: lines 109-124; [F] is the block in C order, [rest] the product of the lengths of its other axes *)
  Definition dot_block (dims : list nat) (ifrag : nat) (umat : list (list K)) (rest : nat) (F : nat -> K) : res (nat -> K) :=
    let iifrag := length dims - ifrag - 1 in
    let ncol1 := nth ifrag dims 0 in
    py_assert (ncol1 =? length umat) (
    let ncol2 := length (hd [] umat) in
    let nstack := prodN (skipn iifrag (rev dims)) * rest / ncol1 in
    if ncol2 =? ncol1
    then Ok (fun p => let row := p / (ncol2 * nstack) in let c2 := p / nstack mod ncol2 in let st := p mod nstack in
                      bsum (seq 0 ncol1) (fun c1 => smul (entry umat c1 c2) (F ((row * ncol1 + c1) * nstack + st))))
    else Raise ValueError).
  (** umat_dot_1frag_: lines 99-107, after the transposition that puts the axis first *)
  Definition umat_dot (lroots : list (list nat)) (ifrag iroot : nat) (umat : list (list K)) (rest : nat) (t : nat -> nat -> K) : res (nat -> nat -> K) :=
    let nprods := map (fun r => prodN (column lroots r)) (seq 0 (length (hd [] lroots))) in
    let offs := 0 :: cumsum nprods in
    if length (hd [] lroots) <=? iroot then Raise IndexError else
    let i := nth iroot offs 0 in
    let j := nth (S iroot) offs 0 in
    do b <- dot_block (column lroots iroot) ifrag umat rest (fun p => t (i + p / rest) (p mod rest)) ;;
    Ok (fun A x => if (i <=? A) && (A <? j) then b ((A - i) * rest + x) else t A x).
  (** the same for the axes 0 and 1 of an array with [n] states on either axis and [size] elements in the axes behind them *)
  Definition umat_axis0 lroots ifrag iroot umat (n size : nat) (T : nat -> nat -> nat -> K) : res (nat -> nat -> nat -> K) :=
    do t <- umat_dot lroots ifrag iroot umat (n * size) (fun A y => T A (y / size) (y mod size)) ;;
    Ok (fun A B x => t A (B * size + x)).
  Definition umat_axis1 lroots ifrag iroot umat (n size : nat) (T : nat -> nat -> nat -> K) : res (nat -> nat -> nat -> K) :=
    do t <- umat_dot lroots ifrag iroot umat (n * size) (fun B y => T (y / size) B (y mod size)) ;;
    Ok (fun A B x => t B (A * size + x)).
  (** one pass of the loop of _umat_linequiv_loop_ *)
  Fixpoint umat_loop (lroots : list (list nat)) (n size : nat) (l : list (nat * nat * list (list K))) (T : nat -> nat -> nat -> K) : res (nat -> nat -> nat -> K) :=
    match l with
    | [] => Ok T
    | (f, r, u) :: l' => do T1 <- umat_axis0 lroots f r u n size T ;; do T2 <- umat_axis1 lroots f r u n size T1 ;; umat_loop lroots n size l' T2
    end.
  (** the items of umat_root of every fragment, in order *)
  Definition umat_items (nf : nat) (umat_root : nat -> list (nat * list (list K))) : list (nat * nat * list (list K)) :=
    flat_map (fun f => map (fun it => (f, fst it, snd it)) (umat_root f)) (seq 0 nf).
  (** the rotations that get_ovlp applies, with their positions: stdm.py:540-550 *)
  Definition umat_chosen (nf : nat) (umat_root : nat -> list (nat * list (list K))) (rootidx : option (list nat)) : list (nat * nat * list (list K)) :=
    match rootidx with
    | None => umat_items nf umat_root
    | Some l => flat_map (fun f => flat_map (fun pos => match find (fun it => fst it =? nth pos l 0) (umat_root f) with Some it => [(f, pos, snd it)] | None => [] end) (seq 0 (length l))) (seq 0 nf)
    end.
  (** a matrix: nothing behind the two axes *)
  Definition umat_matrix (lroots : list (list nat)) (n : nat) (l : list (nat * nat * list (list K))) (M : nat -> nat -> K) : res (nat -> nat -> K) :=
    do T <- umat_loop lroots n 1 l (fun A B _ => M A B) ;; Ok (fun A B => T A B 0).
  (** umat.conj ().T of a square matrix *)
  Definition adjoint (u : list (list K)) : list (list K) := map (fun a => map (fun b => sconj (entry u b a)) (seq 0 (length u))) (seq 0 (length u)).
  (** the loop of LRRDM over the SI vectors *)
  Fixpoint umat_si (lroots : list (list nat)) (nsi : nat) (l : list (nat * nat * list (list K))) (t : nat -> nat -> K) : res (nat -> nat -> K) :=
    match l with
    | [] => Ok t
    | (f, r, u) :: l' => do t' <- umat_dot lroots f r (adjoint u) nsi t ;; umat_si lroots nsi l' t'
    end.
  (** the SI vectors are a list of columns *)
  Definition rotate_si (lroots : list (list nat)) (n : nat) (l : list (nat * nat * list (list K))) (si : list (list K)) : res (list (list K)) :=
    do t <- umat_si lroots (length si) l (fun A root => nth A (nth root si []) s0) ;;
    Ok (map (fun root => map (fun A => t A root) (seq 0 n)) (seq 0 (length si))).
End Umat.
