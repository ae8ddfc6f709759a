(** The density operators behind the entries of the transition density matrices, and what the matrices of one fragment are. *)
From Coq Require Import List NArith Arith Bool.
From Verif Require Import Star FockSpec LprodSpec CrunchModel.
Import ListNotations.
Local Open Scope nat_scope.

(** spin 0 is up, spin 1 is down *)
Definition down (s : nat) : bool := negb (s =? 0).
Definition cr (s : nat) (p : nat * nat) : opr := (true, (fst p, down s, snd p)).
Definition an (s : nat) (p : nat * nat) : opr := (false, (fst p, down s, snd p)).
(** p'(s) q(s);  p'(s) r'(t) u(t) q(s) with s, t the spins of the block aa, ab, ba, bb *)
Definition xops (x : tix) : list opr :=
  match x with
  | X1 s p q => [cr s p; an s q]
  | X2 b p q r u => [cr (b / 2) p; cr (b mod 2) r; an (b mod 2) u; an (b / 2) q]
  end.
(** orbitals and spin blocks that exist *)
Definition orb_in (nf : nat) (n : nat -> nat) (p : nat * nat) : Prop := fst p < nf /\ snd p < n (fst p).
Definition tix_in (nf : nat) (n : nat -> nat) (x : tix) : Prop :=
  match x with
  | X1 s p q => s < 2 /\ orb_in nf n p /\ orb_in nf n q
  | X2 b p q r u => b < 4 /\ orb_in nf n p /\ orb_in nf n q /\ orb_in nf n r /\ orb_in nf n u
  end.

Section Spec.
  Variables (K : star_ring) (n : nat -> nat).
  (** states of fragment f: unique root, number; electrons (up, down) and number of states of each unique root *)
  Variables (V : nat -> nat -> nat -> vec K) (ne : nat -> nat -> nat * nat) (nl : nat -> nat -> nat).
  Definition el (f : nat) (a b : nat * nat) (ops : list opr) : K :=
    inner K (2 * n f) (V f (fst a) (snd a)) (lops K n ops (V f (fst b) (snd b))).
  Definition st_in (f : nat) (a : nat * nat) : Prop := snd a < nl f (fst a).
  (** the bra a has da fewer spin-up and db fewer spin-down electrons than the ket b *)
  Definition fewer (f : nat) (a b : nat * nat) (da db : nat) : Prop :=
    fst (ne f (fst b)) = fst (ne f (fst a)) + da /\ snd (ne f (fst b)) = snd (ne f (fst a)) + db.
  Definition filled (o : option (list nat -> K)) (P : (list nat -> K) -> Prop) : Prop := exists T, o = Some T /\ P T.
  (** The tables of fragment f hold the matrix elements of their operators wherever the electron numbers allow them, the
      densities in the lower triangle of the unique roots. *)
  Record exact (f : nat) (M : @fmats K) : Prop := mkExact {
    ex_h : forall s a b, s < 2 -> st_in f a -> st_in f b -> fewer f a b (1 - s) s ->
      filled (m_h M s a b) (fun T => forall p, p < n f -> T [p] = el f a b [an s (f, p)]);
    ex_hh : forall c a b, c < 3 -> st_in f a -> st_in f b -> fewer f a b (2 - c) c ->
      filled (m_hh M c a b) (fun T => forall p q, p < n f -> q < n f -> T [p; q] = el f a b [an (c - c / 2) (f, p); an (c / 2) (f, q)]);
    ex_phh : forall s a b, s < 2 -> st_in f a -> st_in f b -> fewer f a b (1 - s) s ->
      filled (m_phh M s a b) (fun T => forall t h p q, t < 2 -> h < n f -> p < n f -> q < n f ->
        T [t; h; p; q] = el f a b [cr t (f, p); an t (f, q); an s (f, h)]);
    ex_sm : forall a b, st_in f a -> st_in f b -> fst (ne f (fst b)) = fst (ne f (fst a)) + 1 -> snd (ne f (fst a)) = snd (ne f (fst b)) + 1 ->
      filled (m_sm M a b) (fun T => forall p q, p < n f -> q < n f -> T [p; q] = el f a b [cr 1 (f, p); an 0 (f, q)]);
    ex_dm1 : forall a b, st_in f a -> st_in f b -> fst b <= fst a -> ne f (fst a) = ne f (fst b) ->
      filled (m_dm1 M a b) (fun T => forall s p q, s < 2 -> p < n f -> q < n f -> T [s; p; q] = el f a b (xops (X1 s (f, p) (f, q))));
    ex_dm2 : forall a b, st_in f a -> st_in f b -> fst b <= fst a -> ne f (fst a) = ne f (fst b) ->
      filled (m_dm2 M a b) (fun T => forall c p q r u, c < 4 -> p < n f -> q < n f -> r < n f -> u < n f ->
        T [c; p; q; r; u] = el f a b (xops (X2 c (f, p) (f, q) (f, r) (f, u)))) }.
End Spec.
