(** Vocabulary for the asynchronous-driver properties. *)
From Coq Require Import List ZArith QArith Arith Sorting.Permutation.
From Verif Require Import Base AsyncModel.
Import ListNotations.
Local Close Scope Q_scope.
Local Open Scope nat_scope.

(** A bracketing of pairwise combinations of the inputs 0, 1, ... *)
Inductive tree : Set := Leaf (i : nat) | Node (a b : tree).
Fixpoint leaves (t : tree) : list nat :=
  match t with Leaf i => [i] | Node a b => leaves a ++ leaves b end.
(** [evaluates comb l t x]: combining the elements of l as t says gives x *)
Inductive evaluates {A} (comb : A -> A -> res A) (l : list A) : tree -> A -> Prop :=
| ev_leaf i x : nth_error l i = Some x -> evaluates comb l (Leaf i) x
| ev_node a b x y z : evaluates comb l a x -> evaluates comb l b y -> comb x y = Ok z ->
    evaluates comb l (Node a b) z.

(** Any outcome of the floating-point selections *)
Definition selection (gmax : list nat -> list nat -> nat) (order : list nat -> list nat) : Prop :=
  (forall f1 f2, f1 <> [] -> f2 <> [] -> gmax f1 f2 < length f1 * length f2) /\
  (forall l, Permutation (order l) l).

Definition average (l : list Q) : Q := (fold_right Qplus 0 l / inject_Z (Z.of_nat (length l)))%Q.

(** The same key up to reordering *)
Definition same_key (a b : key) : Prop :=
  match a, b with
  | KTuple l, KTuple l' => Permutation l l'
  | KAtom x, KAtom y => x = y
  | _, _ => False
  end.
Definition last_stored {V} (h : list (op V)) (k : key) (v : V) : Prop :=
  exists a k' b, h = a ++ Store k' v :: b /\ same_key k k' /\
    forall k'' v'', In (Store k'' v'') b -> ~ same_key k k''.
Definition never_stored {V} (h : list (op V)) (k : key) : Prop :=
  forall k' v', In (Store k' v') h -> ~ same_key k k'.
