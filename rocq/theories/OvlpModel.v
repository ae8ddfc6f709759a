(** The overlap matrix of the product states: lassi/op_o1/stdm.py:502-551 (crunch_ovlp, get_ovlp).  No fragment has a umat_root.
    numpy's broadcasting in the assignment of a block is left out: a block of another shape is a ValueError. *)
From Coq Require Import List ZArith Bool Arith.
From Verif Require Import Base Star AddrModel ExcModel UexcModel StdmModel.
Import ListNotations.
Local Open Scope nat_scope.

Section Ovlp.
  Context {K : star_ring}.
  Variable half : K.
  (** rows: fragments; columns: rootspaces *)
  Variable lroots : list (list nat).
  (** ints[f].get_ovlp (rbra, rket) *)
  Variable ovlp : nat -> nat -> nat -> list (list K).
  Variable spin_shuffle : nat -> K.
  Variable exc_null : list (nat * nat).

  Definition scale (c : K) (a : list (list K)) : list (list K) := map (map (smul c)) a.
  (** crunch_ovlp: lines 502-511 *)
  Definition crunch_ovlp (bra ket : nat) : list (list K) :=
    let last := length lroots - 1 in
    let o := scale (if bra =? ket then half else s1) (ovlp last bra ket) in
    let o := fold_left (fun o f => kron o (ovlp f bra ket)) (rev (seq 0 last)) o in
    scale (spin_shuffle ket) (scale (spin_shuffle bra) o).

  Definition nprods (lr : list (list nat)) : list nat := map (fun i => prodN (column lr i)) (seq 0 (length (hd [] lr))).
  (** offs_lroots: lines 93-96 *)
  Definition offs_lroots (r : nat) : nat * nat := (addr0 lroots r, addr0 lroots r + nth r (nprods lroots) 0).
  (** lroots[:,rootidx] *)
  Definition take_cols (rootidx : list nat) : list (list nat) := map (fun row => map (fun r => nth r row 0) rootidx) lroots.
  (** lines 529-530 *)
  Definition set_offs (lr : list (list nat)) (rootidx : list nat) (offs : nat -> nat * nat) : nat -> nat * nat :=
    fold_left (fun o i r => if r =? nth i rootidx 0 then (addr0 lr i, addr0 lr i + nth i (nprods lr) 0) else o r)
      (seq 0 (length rootidx)) offs.

  Definition mat : Type := nat -> nat -> K.
  Definition is_shape (a : list (list K)) (p q : nat) : bool := (length a =? p) && forallb (fun row => length row =? q) a.
  (** ovlp[i0:i1,j0:j1] = o *)
  Definition put_block (m : mat) (i j : nat * nat) (o : list (list K)) : res mat :=
    if is_shape o (snd i - fst i) (snd j - fst j)
    then Ok (fun x y => if (fst i <=? x) && (x <? snd i) && (fst j <=? y) && (y <? snd j) then nth (y - fst j) (nth (x - fst i) o []) s0 else m x y)
    else Raise ValueError.
  Fixpoint put_blocks (offs : nat -> nat * nat) (l : list (nat * nat)) (m : mat) : res mat :=
    match l with
    | [] => Ok m
    | (b, k) :: l' => do m' <- put_block m (offs b) (offs k) (crunch_ovlp b k) ;; put_blocks offs l' m'
    end.
  Definition isin (r : nat) (l : list nat) : bool := existsb (Nat.eqb r) l.

  (** get_ovlp: lines 517-551; the number of rows and the entries *)
  Definition get_ovlp (rootidx : option (list nat)) : res (nat * mat) :=
    do s <- match rootidx with
      | None => Ok (exc_null, offs_lroots, sum_nat (nprods lroots))
      | Some l =>
          if forallb (fun r => r <? length (hd [] lroots)) l && negb (length l =? 0)
          then let exc := filter (fun p => isin (fst p) l && isin (snd p) l) exc_null in
               let lr := take_cols l in
               Ok (exc, set_offs lr l offs_lroots, sum_nat (nprods lr))
          else Raise IndexError
      end ;;
    let '(exc, offs, nstates) := s in
    do m <- put_blocks offs exc (fun _ _ => s0) ;;
    Ok (nstates, fun x y => sadd (m x y) (m y x)).
End Ovlp.
