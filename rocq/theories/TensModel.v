(** Symmetrisation of tensors in Mulliken order: util/tensors.py:8-28.  A tensor of rank r is a function
    of index lists of length r; exact rational arithmetic instead of floating point, real elements (np.conjugate
    is the identity).  All dimensions are taken to be equal, as transposition in place requires. *)
From Coq Require Import List Arith QArith.
Import ListNotations.
Local Open Scope nat_scope.

Definition tensor := list nat -> Q.

(** itertools.permutations: lexicographic by position *)
Fixpoint picks {X} (l : list X) : list (X * list X) :=
  match l with [] => [] | x :: l => (x, l) :: map (fun p => (fst p, x :: snd p)) (picks l) end.
Fixpoint perms_ {X} (n : nat) (l : list X) : list (list X) :=
  match n with
  | O => [[]]
  | S n => flat_map (fun p => map (cons (fst p)) (perms_ n (snd p))) (picks l)
  end.
Definition permutations (n : nat) : list (list nat) := perms_ n (seq 0 n).

Fixpoint index_of (x : nat) (l : list nat) : nat :=
  match l with [] => 0 | y :: l => if x =? y then 0 else S (index_of x l) end.
(** np.transpose (t, perm)[i] = t[j] with j[perm[k]] = i[k] *)
Definition transpose (perm : list nat) (t : tensor) : tensor :=
  fun i => t (map (fun a => nth (index_of a perm) i 0) (seq 0 (length perm))).
(** sum (tuple ((2*x, 2*x+1) for x in perm), ()) *)
Definition orb_perm (perm : list nat) : list nat := flat_map (fun x => [2 * x; 2 * x + 1]) perm.
Definition conj_perm (nelec : nat) : list nat := flat_map (fun x => [2 * x + 1; 2 * x]) (seq 0 nelec).
(** python's sum starts from the integer zero *)
Fixpoint sumT (l : list tensor) : tensor := fun i => match l with [] => 0%Q | t :: l => (t i + sumT l i)%Q end.
Fixpoint factorial (n : nat) : Z := match n with O => 1%Z | S n => (Z.of_nat (S n) * factorial n)%Z end.

(** lines 17-25; tensor of rank 2 nelec *)
Definition symmetrize_elec (nelec : nat) (t : tensor) : tensor :=
  fun i => ((t i + sumT (map (fun p => transpose (orb_perm p) t) (tl (permutations nelec))) i) / inject_Z (factorial nelec))%Q.
(** lines 8-15 *)
Definition symmetrize_conj (nelec : nat) (t : tensor) : tensor :=
  fun i => ((t i + transpose (conj_perm nelec) t i) / 2)%Q.
(** lines 27-28 *)
Definition symmetrize_tensor (nelec : nat) (t : tensor) : tensor := symmetrize_elec nelec (symmetrize_conj nelec t).
