(** Vocabulary for the product-state claims: what the fragment solver sees. *)
From Coq Require Import List Arith Bool.
From Verif Require Import Star ProdModel.
Import ListNotations.
Local Open Scope star_scope.

Section S.
Context {K : star_ring}.
Variable half : K.

(** first orbital of fragment number f *)
Definition first_orb (fr : list (pfrag K)) (f : nat) : nat := list_sum (map p_no (firstn f fr)).

(** energy of fragment F with Hamiltonian (h0, h1, h2), all indices local to the fragment *)
Definition frag_energy (h0 : K) (h1 : bool -> T2 K) (h2 : T4 K) (F : pfrag K) : K :=
  let I := seq 0 (p_no F) in
  h0 + (bsum I (fun x => bsum I (fun y => h1 false x y * p_d1 F false x y))
        + bsum I (fun x => bsum I (fun y => h1 true x y * p_d1 F true x y)))
  + half * bsum I (fun x => bsum I (fun y => bsum I (fun z => bsum I (fun w => h2 x y z w * p_d2 F x y z w)))).

(** the block h2[i:j,i:j,i:j,i:j] *)
Definition local_h2 (i : nat) (h2 : T4 K) : T4 K := fun x y z w => h2 (i + x)%nat (i + y)%nat (i + z)%nat (i + w)%nat.

(** real symmetric one-body density *)
Definition sym_frag (F : pfrag K) : Prop :=
  forall s x y, x < p_no F -> y < p_no F -> p_d1 F s x y = p_d1 F s y x.
(** pair-exchange symmetric two-body density *)
Definition pair_sym_frag (F : pfrag K) : Prop :=
  forall x y z w, x < p_no F -> y < p_no F -> z < p_no F -> w < p_no F -> p_d2 F x y z w = p_d2 F z w x y.
(** electron number of a fragment: the trace of its spin-summed density *)
Definition nelec_of (F : pfrag K) : K :=
  bsum (seq 0 (p_no F)) (fun x => p_d1 F false x x + p_d1 F true x x).
End S.
