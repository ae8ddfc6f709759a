(** Properties C18 and C19: transposition of arrays with many dimensions. *)
From Coq Require Import List Lia Arith Sorting.Permutation.
From Verif Require Import Base AddrModel AddrSpec AddrProofs TransModel TransFacts TransProofs.
Import ListNotations.
Local Open Scope nat_scope.

(** C18, row-major order.  For every number of dimensions and every permutation of the axes: the
    element with index [idx] ends up at the position of the permuted index in the permuted shape. *)
Theorem C18_transpose_row_major : forall (A : Type) (d : A) a shape axes,
  Forall (fun x => 0 < x) shape -> length a = fold_right Nat.mul 1 shape ->
  Permutation axes (seq 0 (length shape)) ->
  exists out, bigdim_transpose d a shape axes false = Ok out /\ length out = length a /\
    forall idx, in_range shape idx ->
      nth_error out (rowmajor (map (fun i => nth i shape 0) axes) (map (fun i => nth i idx 0) axes))
      = nth_error a (rowmajor shape idx).
Proof. intros A d a shape axes. rewrite prodN_fold. exact (transpose_C d a shape axes). Qed.
Print Assumptions C18_transpose_row_major.

(** C18, column-major order. *)
Theorem C18_transpose_column_major : forall (A : Type) (d : A) a shape axes,
  Forall (fun x => 0 < x) shape -> length a = fold_right Nat.mul 1 shape ->
  Permutation axes (seq 0 (length shape)) ->
  exists out, bigdim_transpose d a shape axes true = Ok out /\ length out = length a /\
    forall idx, in_range shape idx ->
      nth_error out (colmajor (map (fun i => nth i shape 0) axes) (map (fun i => nth i idx 0) axes))
      = nth_error a (colmajor shape idx).
Proof. intros A d a shape axes. rewrite prodN_fold. exact (transpose_F d a shape axes). Qed.
Print Assumptions C18_transpose_column_major.

(** Empty arrays are not transposed: any zero extent ends in ValueError (numpy's own transpose would
    return the empty array). *)
Theorem C18_zero_extent_raises : forall (A : Type) (d : A) a shape axes forder,
  In 0 shape -> length a = 0 -> Permutation axes (seq 0 (length shape)) ->
  bigdim_transpose d a shape axes forder = Raise ValueError.
Proof. exact @transpose_zero. Qed.
Print Assumptions C18_zero_extent_raises.

Example C18_example_row :
  bigdim_transpose 0 [0; 1; 2; 3; 4; 5; 6; 7; 8; 9; 10; 11] [2; 3; 2] [2; 0; 1] false
  = Ok [0; 2; 4; 6; 8; 10; 1; 3; 5; 7; 9; 11].
Proof. vm_compute; reflexivity. Qed.
Example C18_example_column :
  bigdim_transpose 0 [0; 1; 2; 3; 4; 5; 6; 7; 8; 9; 10; 11] [2; 3; 2] [2; 0; 1] true
  = Ok [0; 6; 1; 7; 2; 8; 3; 9; 4; 10; 5; 11].
Proof. vm_compute; reflexivity. Qed.
Example C18_example_hyp : Permutation [2; 0; 1] (seq 0 3).
Proof. apply NoDup_Permutation; [repeat constructor; cbn; lia|apply seq_NoDup|]. intros x; cbn; lia. Qed.
Example C18_example_zero : bigdim_transpose 0 [] [2; 0] [1; 0] false = Raise ValueError.
Proof. vm_compute; reflexivity. Qed.

(** C19.  The fragments outside [inv], in ascending order *)
Definition spectators (nfrags : nat) (inv : list nat) : list nat :=
  filter (fun i => negb (existsb (Nat.eqb i) inv)) (seq 0 nfrags).

(** Making fragments slow moves the amplitude of local states [idx] of column k to: spectator
    fragments fastest, then the fragments of [inv] in the given order, then the column. *)
Theorem C19_make_slow_layout : forall (A : Type) (d : A) lroots inv nsi vec,
  Forall (fun x => 0 < x) lroots -> NoDup inv -> Forall (fun i => i < length lroots) inv -> 0 < nsi ->
  length vec = prodN lroots * nsi ->
  let at_ l := map (fun i => nth i l 0) in
  let env := spectators (length lroots) inv in
  let ncols := prodN (at_ lroots env) in
  let nrows := prodN (at_ lroots inv) in
  exists out, make_fragments_slow d vec lroots inv = Ok (out, (ncols, nrows, nsi)) /\
    length out = length vec /\
    forall idx k, in_range lroots idx -> k < nsi ->
      nth_error out (colmajor (at_ lroots env) (at_ idx env)
                     + ncols * (colmajor (at_ lroots inv) (at_ idx inv) + nrows * k))
      = nth_error vec (colmajor lroots idx + prodN lroots * k).
Proof. exact (fun A d lroots inv nsi vec H1 H2 H3 H4 => make_slow_spec d lroots inv nsi H1 H2 H3 H4 vec). Qed.
Print Assumptions C19_make_slow_layout.

Theorem C19_round_trip : forall (A : Type) (d : A) lroots inv nsi vec,
  Forall (fun x => 0 < x) lroots -> NoDup inv -> Forall (fun i => i < length lroots) inv -> 0 < nsi ->
  length vec = prodN lroots * nsi ->
  exists out sh, make_fragments_slow d vec lroots inv = Ok (out, sh) /\
    with_slow_fragments d out lroots inv = Ok vec.
Proof. exact (fun A d lroots inv nsi vec H1 H2 H3 H4 => slow_round_trip d lroots inv nsi H1 H2 H3 H4 vec). Qed.
Print Assumptions C19_round_trip.

Theorem C19_round_trip_back : forall (A : Type) (d : A) lroots inv nsi vec,
  Forall (fun x => 0 < x) lroots -> NoDup inv -> Forall (fun i => i < length lroots) inv -> 0 < nsi ->
  length vec = prodN lroots * nsi ->
  exists out, with_slow_fragments d vec lroots inv = Ok out /\
    exists sh, make_fragments_slow d out lroots inv = Ok (vec, sh).
Proof. exact (fun A d lroots inv nsi vec H1 H2 H3 H4 => slow_round_trip' d lroots inv nsi H1 H2 H3 H4 vec). Qed.
Print Assumptions C19_round_trip_back.

Example C19_example :
  make_fragments_slow 0 (seq 0 24) [2; 3; 2] [2; 0]
  = Ok ([0; 2; 4; 6; 8; 10; 1; 3; 5; 7; 9; 11; 12; 14; 16; 18; 20; 22; 13; 15; 17; 19; 21; 23], (3, 4, 2)).
Proof. vm_compute; reflexivity. Qed.
Example C19_example_back :
  with_slow_fragments 0
    [0; 2; 4; 6; 8; 10; 1; 3; 5; 7; 9; 11; 12; 14; 16; 18; 20; 22; 13; 15; 17; 19; 21; 23] [2; 3; 2] [2; 0]
  = Ok (seq 0 24).
Proof. vm_compute; reflexivity. Qed.
