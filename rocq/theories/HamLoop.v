(** Loops of class HamS2Ovlp over the unique interactions: lassi/op_o1/hams2ovlp.py:42-204, with mask_exc_table_ of its parent class
    (stdm.py:403-431, [UexcModel]) and _loop_lroots_, _crunch_all_ (stdm.py:1063-1079).

    smult is None, so that every interaction is a spin manifold of its own (spman_inter_uroot_map is the identity) and reduce_spin adds
    up the components (already done in [HamModel]).  An array returned by a cruncher is the family of its entries, computed when an
    entry is read; the code computes all of them at once.  Arithmetic is exact. *)
From Coq Require Import List ZArith Bool Arith.
From Verif Require Import Base Star AddrModel ExcModel UexcModel StdmModel HamModel.
Import ListNotations.
Local Open Scope nat_scope.

(** inv_unique: lines 129-132 *)
Fixpoint inv_unique_from (seen inv : list nat) : list nat :=
  match inv with
  | [] => []
  | i :: r => if existsb (Nat.eqb i) seen then inv_unique_from seen r else i :: inv_unique_from (i :: seen) r
  end.
Definition inv_unique (inv : list nat) : list nat := inv_unique_from [] inv.
(** canonical_operator_order: lines 134-163; the axes of the transposed array of nd axes, in terms of the axes of the given one *)
Definition canonical_axes (nd : nat) (inv : list nat) : list nat :=
  if nd <? 3 then seq 0 nd else
  let inv := inv_unique inv in
  let idx := argsort (fun i => Z.opp (Z.of_nat (nth i inv 0))) (length inv) in
  map (fun i => 2 * i) idx ++ map (fun i => 2 * i + 1) idx.
(** arr.flat[ix]: index vector, the last axis runs fastest *)
Fixpoint unravel (shape : list nat) (ix : nat) : list nat :=
  match shape with [] => [] | d :: r => (ix / prodN r) mod d :: unravel r (ix mod prodN r) end.
Fixpoint position (x : nat) (l : list nat) : nat := match l with [] => 0 | y :: r => if x =? y then 0 else S (position x r) end.
(** arr.transpose (axes).flat[ix] *)
Definition flat_at {A} (shape axes : list nat) (arr : list nat -> res A) (ix : nat) : res A :=
  let shape' := map (fun a => nth a shape 0) axes in
  if ix <? prodN shape' then
    let v := unravel shape' ix in arr (map (fun a => nth (position a axes) v 0) (seq 0 (length shape)))
  else Raise IndexError.

Section Loop.
  Context {K : star_ring}.
  Variables (half : K) (big : K -> bool) (pyset : list nat -> list nat) (lroots : list (list nat)).
  Variables (ovlp : nat -> nat -> nat -> list (list K)) (spin_shuffle : nat -> K) (frag_shuffle : nat -> list nat -> K).
  Variables (rootaddr : list nat) (fragaddr : list (list nat)).
  (** the crunchers: rootspace and local states of the bra and of the ket *)
  Variable cr : nat -> list nat -> option nat -> nat * list nat -> nat * list nat -> res (@opval K).
  Variables nonuniq_exc spman : list ((nat * nat * list nat) * list (nat * nat)).

  (** third value returned by the crunchers: lines 239, 265, 303, 337, 367, 402, 492 *)
  Definition ninv (lbl : nat) (frags : list nat) : list nat :=
    match lbl, frags with
    | 0, [i] => [i]
    | 1, [i; j] | 2, [i; j] | 4, [i; j] => [j; i]
    | 3, [i; j; k] | 5, [i; j; k] => [k; j; i]
    | 6, [a; i; b; j] => [j; i; a; b]
    | _, _ => []
    end.
  (** states of all fragments, given those of the fragments of ax *)
  Definition locals (ax v : list nat) : list nat :=
    map (fun f => if existsb (Nat.eqb f) ax then nth (position f ax) v 0 else 0) (seq 0 (length lroots)).
  (** entry of the array returned by a cruncher: axes (bra, ket) of every involved fragment *)
  Definition op_arr (lbl : nat) (row : erow) (x : list nat) : res opval :=
    let ax := inv_unique (ninv lbl (e_frags row)) in
    cr lbl (e_frags row) (e_spin row)
      (e_bra row, locals ax (map (fun k => nth (2 * k) x 0) (seq 0 (length ax))))
      (e_ket row, locals ax (map (fun k => nth (2 * k + 1) x 0) (seq 0 (length ax)))).
  Definition op_shape (lbl : nat) (row : erow) : list nat :=
    flat_map (fun f => [nth f (column lroots (e_bra row)) 0; nth f (column lroots (e_ket row)) 0]) (inv_unique (ninv lbl (e_frags row))).

  Definition mat := nat -> nat -> K.
  (** _put_op_: lines 175-179; the last of several equal pairs of indices counts *)
  Definition put_op (op : mat) (l : list (nat * nat * K)) (v : K) : mat := fun b k =>
    match find (fun e => (fst (fst e) =? b) && (snd (fst e) =? k)) (rev l) with
    | Some e => sadd (op b k) (smul (snd e) v)
    | None => op b k
    end.
  (** body of the loop of _put_ham_s2_spincase_: lines 199-202 *)
  Definition put_both (hs : mat * mat) (l : list (nat * nat * K)) (v : opval) : mat * mat :=
    (put_op (fst hs) l (fst v), match snd v with None => snd hs | Some w => put_op (snd hs) l w end).
  Fixpoint put_items (fl : nat -> res opval) (cache : list (nat * nat * list (nat * nat * K))) (ix : nat) (ps : list (nat * nat)) (hs : mat * mat) : res (mat * mat) :=
    match ps with
    | [] => Ok hs
    | p :: ps => do v <- fl ix ;; put_items fl cache (S ix) ps (put_both hs (spec_addr_ovlp lroots fragaddr cache (fst p) (snd p)) v)
    end.
  (** _put_ham_s2_: lines 181-186, _put_ham_s2_spincase_: lines 188-204, _prepare_spec_addr_ovlp_: stdm.py:580-600 *)
  Fixpoint put_cases (fl : nat -> res opval) (inv : list nat) (cases : list (nat * nat)) (hs : mat * mat) : res (mat * mat) :=
    match cases with
    | [] => Ok hs
    | p :: cases =>
        match get_key (fst p, snd p, inv) nonuniq_exc with
        | None => Raise KeyError
        | Some table =>
            let cache := map (fun q => (fst q, snd q, spec_addr_ovlp_1space half big pyset lroots ovlp spin_shuffle frag_shuffle (fst q) (snd q) inv)) table in
            do hs' <- put_items fl cache 0 (list_prod (get_addr_range pyset lroots (fst p) inv) (get_addr_range pyset lroots (snd p) inv)) hs ;;
            put_cases fl inv cases hs'
        end
    end.
  (** _crunch_env_: lines 165-173 *)
  Definition ham_env (lbl : nat) (hs : mat * mat) (row : erow) : res (mat * mat) :=
    let shape := op_shape lbl row in
    let fl := flat_at shape (canonical_axes (length shape) (ninv lbl (e_frags row))) (op_arr lbl row) in
    match get_key (key_of row) spman with None => Raise KeyError | Some cases => put_cases fl (e_frags row) cases hs end.
  (** _loop_lroots_, _crunch_all_: stdm.py:1063-1079 *)
  Fixpoint ham_rows (lbl : nat) (rows : list erow) (hs : mat * mat) : res (mat * mat) :=
    match rows with [] => Ok hs | r :: rs => do hs' <- ham_env lbl hs r ;; ham_rows lbl rs hs' end.
  Fixpoint ham_tables (lbl : nat) (tabs : list (list erow)) (hs : mat * mat) : res (mat * mat) :=
    match tabs with [] => Ok hs | l :: ls => do hs' <- ham_rows lbl l hs ;; ham_tables (S lbl) ls hs' end.
  (** _add_transpose_: lines 94-96 *)
  Definition ham_transpose (hs : mat * mat) : mat * mat :=
    (fun b k => sadd (fst hs b k) (sconj (fst hs k b)), fun b k => sadd (snd hs b k) (snd hs k b)).
  (** kernel: lines 104-127, without get_ovlp and for an empty umat_root *)
  Definition ham_all (tabs : list (list erow)) : res (mat * mat) :=
    do hs <- ham_tables 0 tabs (fun _ _ => s0, fun _ _ => s0) ;; Ok (ham_transpose hs).
End Loop.
(** find_unique_exc, stdm.py:433-455, with a fingerprint function that does not distinguish fprint and fprintLT *)
Definition find_unique_by (fprint : list Z) (exc : list erow) : list erow * list ((nat * nat * list nat) * list (nat * nat)) :=
  let ufp := unique_v fprint in
  let ix_sort := argsort_v ufp in
  let idx := map (fun k => first_pos (nth k ufp 0%Z) fprint) ix_sort in
  let cnts := map (fun k => count_v (nth k ufp 0%Z) fprint) ix_sort in
  let image_sets := np_split (argsort_v fprint) 0 (cumsum 0 cnts) in
  (map (fun i => nth i exc dflt) idx,
   map (fun p => (key_of (nth (snd p) exc dflt), map (fun i => let r := nth i exc dflt in (e_bra r, e_ket r)) (fst p))) (combine image_sets idx)).
(** interaction_spman_fprint: lines 42-53; [hash] of a tuple of integers *)
Definition spman_words (uroot : Z -> Z -> Z) (r : erow) : list Z :=
  let frags := sort_z (map Z.of_nat (e_frags r)) in
  frags ++ map (uroot (Z.of_nat (e_bra r))) frags ++ map (uroot (Z.of_nat (e_ket r))) frags.
Definition spman_fprints (hash : list Z -> Z) (uroot : Z -> Z -> Z) (exc : list erow) : list Z := map (fun r => hash (spman_words uroot r)) exc.
(** mask_exc_table_: lines 71-76, split_exc_table_by_spman_: lines 78-90, after the parent's; spman is filled table by table *)
Definition spman_tables (hash : list Z -> Z) (uroot : Z -> Z -> Z) (utabs : list (list erow)) :=
  let l := map (fun t => find_unique_by (spman_fprints hash uroot t) t) utabs in (map fst l, flat_map snd l).
