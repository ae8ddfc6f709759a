(** What a Hamiltonian matrix and a matrix of the squared spin are: operators on many-electron vectors. *)
From Coq Require Import List NArith Arith Bool.
From Verif Require Import Star FockSpec LprodSpec.
Import ListNotations.
Local Open Scope nat_scope.

Section Operators.
  Variable K : star_ring.
  Variables (nf : nat) (n : nat -> nat).
  Local Open Scope star_scope.
  (** all orbitals: fragment and position in the fragment *)
  Definition orbitals : list (nat * nat) := concat (map (fun f => map (fun l => (f, l)) (seq 0 (n f))) (seq 0 nf)).
  Definition vsum {A} (l : list A) (F : A -> vec K) : vec K := fun d => bsum l (fun x => F x d).
  Definition vadd (u v : vec K) : vec K := fun d => u d + v d.
  Definition vscale (x : K) (v : vec K) : vec K := fun d => x * v d.
  (** creator and annihilator of an electron with spin up ([false]) or down ([true]) *)
  Definition mkc (dn : bool) (p : nat * nat) : vec K -> vec K := cre K (2 * norb nf n) (gorb nf n (fst p) dn (snd p)).
  Definition mka (dn : bool) (p : nat * nat) : vec K -> vec K := ann K (2 * norb nf n) (gorb nf n (fst p) dn (snd p)).
  Variable half : K.
  (** sum h1[s,p,q] p's qs + 1/2 sum h2[p,q,r,u] p's r't ut qs *)
  Definition hamiltonian (h1 : bool -> nat * nat -> nat * nat -> K) (h2 : nat * nat -> nat * nat -> nat * nat -> nat * nat -> K) (v : vec K) : vec K :=
    vadd (vsum [false; true] (fun s => vsum orbitals (fun p => vsum orbitals (fun q => vscale (h1 s p q) (mkc s p (mka s q v))))))
      (vscale half (vsum [false; true] (fun s => vsum [false; true] (fun t => vsum orbitals (fun p => vsum orbitals (fun q => vsum orbitals (fun r => vsum orbitals (fun u =>
        vscale (h2 p q r u) (mkc s p (mkc t r (mka t u (mka s q v)))))))))))).
  (** S+ raises a spin, S- lowers one, Sz is half the difference of the numbers of up and down electrons *)
  Definition s_plus (v : vec K) : vec K := vsum orbitals (fun p => mkc false p (mka true p v)).
  Definition s_minus (v : vec K) : vec K := vsum orbitals (fun p => mkc true p (mka false p v)).
  Definition s_z (v : vec K) : vec K := vscale half (vadd (vsum orbitals (fun p => mkc false p (mka false p v))) (vscale (sopp s1) (vsum orbitals (fun p => mkc true p (mka true p v))))).
  (** S^2 = S- S+ + Sz Sz + Sz *)
  Definition s_squared (v : vec K) : vec K := vadd (s_minus (s_plus v)) (vadd (s_z (s_z v)) (s_z v)).
End Operators.
