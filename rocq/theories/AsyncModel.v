(** Asynchronous LASSCF driver: my_pyscf/mcscf/lasscf_async/{lasscf_async,combine,crunch,keyframe}.py.
    Numerical content is abstract; what is modelled is which result is combined with which, which
    fragments a keyframe claims to have updated, and from which impurity solution the orbitals and CI
    vectors of each fragment stem. *)
From Coq Require Import List ZArith QArith Arith Bool.
From Verif Require Import Base.
Import ListNotations.
Local Close Scope Q_scope.
Local Open Scope nat_scope.

(** *** The tournament: lasscf_async.py:82-95 *)
Section Tournament.
Context {A : Type} (comb : A -> A -> res A).

(** for kf2, kf3 in zip (kf2_list[::2],kf2_list[1::2]) *)
Fixpoint comb_pairs (l : list A) : res (list A) :=
  match l with
  | a :: b :: r => do c <- comb a b ;; do cs <- comb_pairs r ;; Ok (c :: cs)
  | _ => Ok []
  end.

(** list.insert (i, x) for i >= 0; the index len-1 = -1 of an empty list means 0 *)
Definition py_insert (i : nat) (x : A) (l : list A) : list A := firstn i l ++ x :: skipn i l.

Definition round (l : list A) : res (list A) :=
  do c <- comb_pairs l ;;
  if Nat.odd (length l)
  then match rev l with
       | x :: _ => Ok (py_insert (length c - 1) x c)
       | [] => Raise IndexError
       end
  else Ok c.

Fixpoint rounds (n : nat) (l : list A) : res (list A) :=
  match n with O => Ok l | S n' => do l' <- round l ;; rounds n' l' end.

(** int (np.ceil (np.log2 (nkf))); for nkf = 0 the argument of int is -inf *)
Definition tournament (l : list A) : res A :=
  match l with
  | [] => Raise OverflowError
  | _ => do l' <- rounds (Nat.log2_up (length l)) l ;;
         match l' with [x] => Ok x | _ => Raise AssertionError end
  end.
End Tournament.

(** *** Keyframes *)

(** [kf_frags]: the attribute frags (a set, listed without repetition); [kf_val f]: where the active
    orbitals and CI vectors of fragment f come from. *)
Record kf (V : Type) := mkKf { kf_frags : list nat; kf_val : nat -> V }.
Arguments mkKf {V}. Arguments kf_frags {V}. Arguments kf_val {V}.

Definition memb (x : nat) (l : list nat) : bool := existsb (Nat.eqb x) l.

Section Combine.
Context {V : Type}.
(** Results of the floating-point selections: position of the largest gradient block, and the order
    of the remaining fragments by gradient. *)
Variables (gmax : list nat -> list nat -> nat) (order : list nat -> list nat).

(** sorted (frags1 + frags2) *)
Fixpoint insert_nat (x : nat) (l : list nat) : list nat :=
  match l with [] => [x] | y :: r => if x <=? y then x :: l else y :: insert_nat x r end.
Fixpoint sort_nat (l : list nat) : list nat :=
  match l with [] => [] | x :: r => insert_nat x (sort_nat r) end.
(** list.remove *)
Fixpoint remove_one (x : nat) (l : list nat) : list nat :=
  match l with [] => [] | y :: r => if x =? y then r else y :: remove_one x r end.

(** select_aa_block: combine.py:181-245.  np.argmax of an empty list is a ValueError. *)
Definition select_aa_block (max_frags : nat) (frags1 frags2 : list nat) : res (list nat) :=
  if (length frags1 * length frags2 =? 0) then Raise ValueError
  else
    let g := gmax frags1 frags2 in
    let i := nth (g / length frags2) frags1 0 in
    let j := nth (g mod length frags2) frags2 0 in
    let all_frags := sort_nat (frags1 ++ frags2) in
    let m := Nat.min (length all_frags) max_frags in
    if m <? 3 then Ok [i; j]
    else Ok (i :: j :: firstn (m - 2) (order (remove_one j (remove_one i all_frags)))).

(** orth_orb, active part: combine.py:18-31.  Start from the reference, take from every keyframe the
    fragments it claims.  (Orthonormalisation changes the orbitals, not where they come from.) *)
Definition orth_active (kfs : list (kf V)) (ref : nat -> V) : nat -> V :=
  fold_left (fun v k => fold_left (fun v f => fun x => if x =? f then kf_val k f else v x) (kf_frags k) v) kfs ref.

(** combine_pair: combine.py:247-266, with ImpuritySolver._push_keyframe: crunch.py:437-473.
    kf3.copy() drops frags; the result claims exactly the relaxed fragments.  (Relaxation changes the
    orbitals and CI vectors of these fragments, not where they come from.) *)
Definition combine_pair (max_frags : nat) (ref : nat -> V) (k1 k2 : kf V) : res (kf V) :=
  if existsb (fun f => memb f (kf_frags k2)) (kf_frags k1) then Raise RuntimeError
  else
    do aa <- select_aa_block max_frags (kf_frags k1) (kf_frags k2) ;;
    Ok (mkKf aa (orth_active [k1; k2] ref)).

(** one macrocycle: lasscf_async.py:59-95.  Impurity i claims fragment i only (crunch.py:459, 1103). *)
Definition push (ref : nat -> V) (new : nat -> V) (i : nat) : kf V :=
  mkKf [i] (fun f => if f =? i then new i else ref f).
Definition macrocycle (max_frags nfrags : nat) (ref new : nat -> V) : res (kf V) :=
  tournament (combine_pair max_frags ref) (map (push ref new) (seq 0 nfrags)).
End Combine.

(** *** orth_orb: the densities used for the non-active orbitals: combine.py:71-73.
    One number stands for a density.  In the comprehension
      [sum ([kf2.dm1s for dm1s in kf2_list])]
    kf2 is the variable of the loop at combine.py:25, hence the last keyframe. *)
Definition sumQ (l : list Q) : Q := fold_left Qplus l 0%Q.
Definition avg_veff (veffs : list Q) : Q := (sumQ veffs / inject_Z (Z.of_nat (length veffs)))%Q.
Definition avg_dm1s (dm1s : list Q) : res Q :=
  match rev dm1s with
  | [] => Raise NameError
  | kf2 :: _ => Ok (sumQ (map (fun _ => kf2) dm1s) / inject_Z (Z.of_nat (length dm1s)))%Q
  end.

(** *** SortedIndexDict: lasscf_async.py:176-190.  Keys: tuples of integers, or other hashables. *)
Inductive key : Set :=
| KTuple (l : list Z)
| KAtom (x : Z).
Fixpoint zlist_eqb (a b : list Z) : bool :=
  match a, b with
  | [], [] => true
  | x :: a', y :: b' => (x =? y)%Z && zlist_eqb a' b'
  | _, _ => false
  end.
Definition key_eqb (a b : key) : bool :=
  match a, b with
  | KTuple l, KTuple l' => zlist_eqb l l'
  | KAtom x, KAtom y => (x =? y)%Z
  | _, _ => false
  end.
(** if isinstance (key, tuple): key = tuple (sorted (key)) *)
Definition normal (k : key) : key := match k with KTuple l => KTuple (sort_z l) | KAtom x => KAtom x end.

Section Dict.
Context {V : Type}.
Definition dict := list (key * V).
Fixpoint raw_get (d : dict) (k : key) : option V :=
  match d with [] => None | (k', v) :: r => if key_eqb k k' then Some v else raw_get r k end.
Fixpoint raw_set (d : dict) (k : key) (v : V) : dict :=
  match d with
  | [] => [(k, v)]
  | (k', v') :: r => if key_eqb k k' then (k', v) :: r else (k', v') :: raw_set r k v
  end.

Inductive op : Type :=
| Store (k : key) (v : V)        (* d[k] = v *)
| Read (k : key)                 (* d[k] *)
| Get (k : key) (default : option V)   (* d.get (k, default) *)
| Contains (k : key).            (* k in d: not overridden *)
Inductive ans : Type :=
| ANone
| AVal (v : V)
| ADefault (o : option V)
| AKeyError
| ABool (b : bool).

Definition exec (d : dict) (o : op) : dict * ans :=
  match o with
  | Store k v => (raw_set d (normal k) v, ANone)
  | Read k => (d, match raw_get d (normal k) with Some v => AVal v | None => AKeyError end)
  | Get k df => (d, match raw_get d (normal k) with Some v => AVal v | None => ADefault df end)
  | Contains k => (d, ABool (match raw_get d k with Some _ => true | None => false end))
  end.
Fixpoint run (d : dict) (ops : list op) : dict * list ans :=
  match ops with
  | [] => (d, [])
  | o :: r => let (d', a) := exec d o in let (d'', al) := run d' r in (d'', a :: al)
  end.
End Dict.
Arguments dict : clear implicits. Arguments op : clear implicits. Arguments ans : clear implicits.
