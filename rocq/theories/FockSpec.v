(** Fock space of [m] spin orbitals, written down without reference to any code.

    A determinant is the number whose bit [q] says whether orbital [q] is occupied; it stands for
    the creators of its occupied orbitals applied to the vacuum, highest orbital leftmost.  A vector
    gives the coefficient of every determinant. *)
From Coq Require Import List NArith Arith Bool.
From Verif Require Import Star.
Import ListNotations.

Definition bt (d : N) (q : nat) : bool := N.testbit d (N.of_nat q).
Definition sb (d : N) (q : nat) : N := N.setbit d (N.of_nat q).
Definition cb (d : N) (q : nat) : N := N.clearbit d (N.of_nat q).

Definition parity {A : Type} (f : A -> bool) (l : list A) : bool :=
  fold_right (fun x b => xorb (f x) b) false l.

(** position of the pair (p, q) in a packed lower triangle *)
Definition tri (p q : nat) : nat := Nat.max p q * (Nat.max p q + 1) / 2 + Nat.min p q.
(** (p, q, s): an electron of spin [s] goes from spatial orbital [q] to [p] *)
Definition moves (norb : nat) : list (nat * nat * nat) :=
  flat_map (fun p => flat_map (fun q => map (fun s => (p, q, s)) [0; 1]) (seq 0 norb)) (seq 0 norb).
Definition dest (norb : nat) (t : nat * nat * nat) : nat := let '(p, _, s) := t in p + s * norb.
Definition source (norb : nat) (t : nat * nat * nat) : nat := let '(_, q, s) := t in q + s * norb.
Definition pair_of (t : nat * nat * nat) : nat := let '(p, q, _) := t in tri p q.
Fixpoint tuples {A : Type} (l : list A) (n : nat) : list (list A) :=
  match n with 0 => [[]] | S k => flat_map (fun x => map (cons x) (tuples l k)) l end.
(** position in an array with [length l] axes of the same size *)
Fixpoint flat (size : nat) (l : list nat) : nat :=
  match l with [] => 0 | x :: r => x * size ^ length r + flat size r end.

(** parity of the number of occupied orbitals above [p] *)
Definition above (m : nat) (d : N) (p : nat) : bool := parity (bt d) (seq (S p) (m - S p)).

Section Fock.
Variable K : star_ring.
Local Open Scope star_scope.

Definition vec : Type := N -> K.
Definition sg (b : bool) (x : K) : K := if b then - x else x.

(** coefficient of [d] after creating an electron in orbital [p] *)
Definition cre (m p : nat) (v : vec) : vec :=
  fun d => if bt d p then sg (above m d p) (v (cb d p)) else s0.
(** coefficient of [d] after annihilating an electron in orbital [p] *)
Definition ann (m p : nat) (v : vec) : vec :=
  fun d => if bt d p then s0 else sg (above m d p) (v (sb d p)).

(** a0' a1' a2' ... v *)
Fixpoint creL (m : nat) (l : list nat) (v : vec) : vec :=
  match l with [] => v | a :: r => cre m a (creL m r v) end.
(** ... i2 i1 i0 v *)
Fixpoint annL (m : nat) (l : list nat) (v : vec) : vec :=
  match l with [] => v | i :: r => annL m r (ann m i v) end.
(** a0' a1' ... i1 i0 v *)
Definition exop (m : nat) (a i : list nat) (v : vec) : vec := creL m a (annL m i v).

Definition vadd (u v : vec) : vec := fun d => u d + v d.
Definition vsub (u v : vec) : vec := fun d => u d - v d.
Definition vscale (c : K) (v : vec) : vec := fun d => c * v d.

(** determinants of [m] orbitals *)
Definition dets (m : nat) : list N := map N.of_nat (seq 0 (2 ^ m)).
Definition inner (m : nat) (u v : vec) : K := bsum (dets m) (fun d => sconj (u d) * v d).
Definition veq (m : nat) (u v : vec) : Prop := forall d, (d < 2 ^ N.of_nat m)%N -> u d = v d.

(** the anti-hermitian generator of an excitation, G = a0' a1' ... i1 i0 - h.c. *)
Definition gen (m : nat) (a i : list nat) (v : vec) : vec := vsub (exop m a i v) (exop m i a v).
(** 1 + s G + (1 - c) G^2, which is exp (t G) when c = cos t, s = sin t and G^3 = - G *)
Definition rot (m : nat) (a i : list nat) (c s : K) (v : vec) : vec :=
  fun d => v d + s * gen m a i v d + (s1 - c) * gen m a i (gen m a i v) d.

(** ** spin: orbitals 0..norb-1 have one spin, norb..2norb-1 the other *)
(** number of electrons in the [norb] orbitals from [lo] on *)
Definition num (norb lo : nat) (v : vec) : vec :=
  fun e => bsum (seq lo norb) (fun p => cre (2 * norb) p (ann (2 * norb) p v) e).
Definition Sz (half : K) (norb : nat) (v : vec) : vec := fun e => half * (num norb 0 v e - num norb norb v e).
Definition Splus (norb : nat) (v : vec) : vec :=
  fun e => bsum (seq 0 norb) (fun p => cre (2 * norb) p (ann (2 * norb) (p + norb) v) e).
Definition Sminus (norb : nat) (v : vec) : vec :=
  fun e => bsum (seq 0 norb) (fun p => cre (2 * norb) (p + norb) (ann (2 * norb) p v) e).
(** Sz Sz + (S+ S- + S- S+)/2 *)
Definition Ssquare (half : K) (norb : nat) (v : vec) : vec :=
  fun e => Sz half norb (Sz half norb v) e + half * (Splus norb (Sminus norb v) e + Sminus norb (Splus norb v) e).

(** ** an n-electron operator given on packed pairs of spatial orbitals *)
(** the term of the moves [l]: h(p1q1, p2q2, ...) p1' p2' ... q2 q1 *)
Definition term (norb : nat) (h : nat -> K) (psi : vec) (l : list (nat * nat * nat)) : vec := fun e =>
  h (flat (norb * (norb + 1) / 2) (map pair_of l)) * exop (2 * norb) (map (dest norb) l) (map (source norb) l) psi e.
(** the sum over all ways to move [n] electrons, each to an orbital of its own spin *)
Definition nbody (norb n : nat) (h : nat -> K) (psi : vec) : vec :=
  fun e => bsum (tuples (moves norb) n) (fun l => term norb h psi l e).
End Fock.
