(** Shared helpers: sums, pointwise updates, lexicographic sort with removal of
    duplicates (numpy's [np.unique(..., axis=0)]), Python-style results. *)
From Coq Require Import List ZArith Lia Bool Sorting.Sorted.
Import ListNotations.
Local Open Scope Z_scope.

(** Outcome of a Python call.  [Raise] carries the kind of exception. *)
Inductive exn : Set :=
| AssertionError | IndexError | ValueError | TypeError | RuntimeError | KeyError
| AttributeError | NotImplementedError | ZeroDivisionError | OverflowError | NameError
| ImpossibleSpinError.   (* pyscf.csf_fci.csfstring.ImpossibleSpinError *)

Inductive res (A : Type) : Type :=
| Ok (a : A)
| Raise (e : exn).
Arguments Ok {A} a.
Arguments Raise {A} e.

Definition bind {A B} (r : res A) (k : A -> res B) : res B :=
  match r with Ok a => k a | Raise e => Raise e end.

Notation "'do' x <- r ;; k" := (bind r (fun x => k))
  (at level 200, x name, r at level 100, k at level 200, right associativity).

(** [assert b; k] *)
Definition py_assert {A} (b : bool) (k : res A) : res A :=
  if b then k else Raise AssertionError.

Fixpoint mapM {A B} (f : A -> res B) (l : list A) : res (list B) :=
  match l with
  | [] => Ok []
  | x :: l' => do y <- f x ;; do ys <- mapM f l' ;; Ok (y :: ys)
  end.

Fixpoint sumZ (l : list Z) : Z :=
  match l with [] => 0 | x :: l' => x + sumZ l' end.

(** Pointwise update of position [k] (no effect out of range). *)
Fixpoint upd {A} (k : nat) (f : A -> A) (l : list A) : list A :=
  match l, k with
  | [], _ => []
  | x :: l', O => f x :: l'
  | x :: l', S k' => x :: upd k' f l'
  end.

(** Lexicographic comparison of rows. *)
Fixpoint lexcmp (a b : list Z) : comparison :=
  match a, b with
  | [], [] => Eq
  | [], _ :: _ => Lt
  | _ :: _, [] => Gt
  | x :: a', y :: b' =>
      match Z.compare x y with
      | Eq => lexcmp a' b'
      | c => c
      end
  end.

Fixpoint insert_u (x : list Z) (l : list (list Z)) : list (list Z) :=
  match l with
  | [] => [x]
  | y :: l' =>
      match lexcmp x y with
      | Lt => x :: l
      | Eq => l
      | Gt => y :: insert_u x l'
      end
  end.

(** numpy.unique(table, axis=0): distinct rows in ascending lexicographic order *)
Fixpoint np_unique (l : list (list Z)) : list (list Z) :=
  match l with [] => [] | x :: l' => insert_u x (np_unique l') end.

Definition lexlt (a b : list Z) : Prop := lexcmp a b = Lt.

(** Insertion sort on integers (np.sort / sorted). *)
Fixpoint insert_z (x : Z) (l : list Z) : list Z :=
  match l with
  | [] => [x]
  | y :: l' => if x <=? y then x :: l else y :: insert_z x l'
  end.
Fixpoint sort_z (l : list Z) : list Z :=
  match l with [] => [] | x :: l' => insert_z x (sort_z l') end.

(** np.amax of a list of nonnegative numbers (0 for the empty list) *)
Fixpoint max_list (l : list Z) : Z :=
  match l with [] => 0 | x :: l' => Z.max x (max_list l') end.
