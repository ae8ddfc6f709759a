(** Products of fragment states as vectors of the Fock space of all orbitals, and their transition density matrices, written
    down without reference to the code of lassi/op_o1.

    Spin orbitals are numbered as in pyscf's CI vectors: all spin-down orbitals below all spin-up ones, and within one spin
    the fragments one after the other.  The coefficient of a determinant in a product state is the product of the
    coefficients of its fragments (lassi/op_o0.py:191-233, property C24). *)
From Coq Require Import List NArith Arith Bool.
From Verif Require Import Star FockSpec.
Import ListNotations.
Local Open Scope nat_scope.

(** n f: number of spatial orbitals of fragment f; nf fragments *)
Section Orbs.
  Variables (nf : nat) (n : nat -> nat).
  Definition offn (f : nat) : nat := list_sum (map n (seq 0 f)).
  Definition norb : nat := offn nf.
  (** [dn]: spin down *)
  Definition gorb (f : nat) (dn : bool) (l : nat) : nat := (if dn then 0 else norb) + offn f + l.
  Definition lorb (f : nat) (dn : bool) (l : nat) : nat := (if dn then 0 else n f) + l.
  (** occupation of the orbitals of fragment f in determinant d *)
  Definition frag_det (f : nat) (d : N) : N :=
    N.lor (N.modulo (N.shiftr d (N.of_nat (offn f))) (2 ^ N.of_nat (n f)))
          (N.shiftl (N.modulo (N.shiftr d (N.of_nat (norb + offn f))) (2 ^ N.of_nat (n f))) (N.of_nat (n f))).
End Orbs.
Definition count (p : nat -> bool) (l : list nat) : nat := length (filter p l).

Section Las.
  Variable K : star_ring.
  Local Open Scope star_scope.
  Definition bprod (l : list nat) (f : nat -> K) : K := fold_right (fun x r => f x * r) s1 l.
  Definition las_state (nf : nat) (n : nat -> nat) (v : nat -> vec K) : vec K :=
    fun d => bprod (seq 0 nf) (fun f => v f (frag_det nf n f d)).
  (** na spin-up and nb spin-down electrons in n orbitals *)
  Definition has_nelec (n : nat) (ne : nat * nat) (v : vec K) : Prop := forall d, (d < 2 ^ N.of_nat (2 * n))%N ->
    v d = s0 \/ (count (bt d) (seq n n) = fst ne /\ count (bt d) (seq 0 n) = snd ne).
  (** an operator: creator or annihilator, fragment, spin, orbital *)
  Definition opr : Type := bool * (nat * bool * nat).
  Definition field (m p : nat) (k : bool) (v : vec K) : vec K := if k then cre K m p v else ann K m p v.
  (** a product of operators, leftmost first *)
  Definition gops (nf : nat) (n : nat -> nat) (ops : list opr) (v : vec K) : vec K :=
    fold_right (fun x w => let '(k, (f, dn, l)) := x in field (2 * norb nf n) (gorb nf n f dn l) k w) v ops.
  Definition lops (n : nat -> nat) (ops : list opr) (v : vec K) : vec K :=
    fold_right (fun x w => let '(k, (f, dn, l)) := x in field (2 * n f) (lorb n f dn l) k w) v ops.
End Las.
