(** Fragment intermediates: unique rootspaces, spin manifolds, the interaction map, and which transition
    densities are computed.  lassi/citools.py:126-197 and 280-321, lassi/op_o1/frag.py:454-552, 759-781
    and 863-925.  Arrays indexed by rootspaces are functions; the comparison of CI vectors is an
    arbitrary boolean function. *)
From Coq Require Import List Arith Bool ZArith.
From Verif Require Import Base.
Import ListNotations.
Local Open Scope nat_scope.

Definition aset {X} (f : nat -> X) (i : nat) (x : X) : nat -> X := fun k => if k =? i then x else f k.
Definition aset2 {X} (f : nat -> nat -> X) (i j : nat) (x : X) : nat -> nat -> X :=
  fun k l => if (k =? i) && (l =? j) then x else f k l.

(** itertools.combinations (range (n), 2) *)
Definition pairs (n : nat) : list (nat * nat) := flat_map (fun i => map (fun j => (i, j)) (seq (S i) (n - S i))) (seq 0 n).
(** combinations_with_replacement (range (n), 2) *)
Definition pairs_wr (n : nat) : list (nat * nat) := flat_map (fun i => map (fun j => (i, j)) (seq i (n - i))) (seq 0 n).
(** product (range (n), repeat=2) *)
Definition pairs_all (n : nat) : list (nat * nat) := flat_map (fun i => map (fun j => (i, j)) (seq 0 n)) (seq 0 n).

(** *** get_unique_roots: lassi/citools.py:126-197 *)
(** [same i j] is the outcome of all tests of lines 164-187 *)
Definition ur_step (same : nat -> nat -> bool) (st : (nat -> bool) * (nat -> nat)) (p : nat * nat) :=
  let (R, U) := st in let (i, j) := p in
  if R i && R j && same i j then (aset R j false, aset U j i) else (R, U).
Definition unique_roots (same : nat -> nat -> bool) (n : nat) : (nat -> bool) * (nat -> nat) :=
  fold_left (ur_step same) (pairs n) (fun _ => true, fun k => k).
Definition get_unique_roots (same : nat -> nat -> bool) (n : nat) : res ((nat -> bool) * (nat -> nat)) :=
  let (R, U) := unique_roots same n in
  if forallb (fun i => R (U i)) (seq 0 n) then Ok (R, U) else Raise AssertionError.

(** *** Compressed indices: frag.py:480-485 *)
Definition uroot_addr (R : nat -> bool) (n : nat) : list nat := filter R (seq 0 n).
(** uroot_inv[root_unique] = arange (nuroots), -1 elsewhere *)
Definition uroot_inv (R : nat -> bool) (n k : nat) : option nat :=
  if R k then Some (length (filter R (seq 0 k))) else None.
Definition uroot_idx (R : nat -> bool) (U : nat -> nat) (n : nat) : res (list nat) :=
  mapM (fun k => match uroot_inv R n (U k) with Some x => Ok x | None => Raise AssertionError end) (seq 0 n).

(** *** _get_unique_roots_with_spin: lassi/citools.py:280-321 *)
Record udata := mkUd { u_nelec : nat -> Z; u_spin : nat -> Z; u_smult : nat -> Z; u_lroots : nat -> Z; u_disc : nat -> Z }.
Definition compat (d : udata) (i j : nat) : bool :=
  (u_nelec d i =? u_nelec d j)%Z && (u_smult d i =? u_smult d j)%Z
  && (u_lroots d i =? u_lroots d j)%Z && (u_disc d i =? u_disc d j)%Z.
(** lines 299-306 *)
Definition exclude0 (d : udata) (n : nat) : nat -> nat -> bool :=
  fold_left (fun E p => let (i, j) := p : nat * nat in
    if compat d i j then aset2 (aset2 E i j (u_spin d i =? u_spin d j)%Z) j i (u_spin d i =? u_spin d j)%Z else E)
    (pairs n) (fun _ _ => true).
(** lines 310-319; [ovl i j]: the overlaps are all close to one *)
Definition sm_state := ((nat -> nat -> bool) * ((nat -> bool) * (nat -> nat)))%type.
Definition sm_step (ovl : nat -> nat -> bool) (st : sm_state) (p : nat * nat) : sm_state :=
  let '(E, (R, U)) := st in let (i, j) := p in
  if E i j then st else if negb (R i) then st else if negb (R j) then st else
  if ovl i j then
    let new_row k := E i k || E j k in
    let E1 a b := if a =? i then new_row b else E a b in
    let E2 a b := if a =? j then new_row b else E1 a b in
    let E3 a b := if b =? i then new_row a else E2 a b in
    let E4 a b := if b =? j then new_row a else E3 a b in
    (E4, (aset R j false, aset U j i))
  else st.
Definition spin_manifolds (d : udata) (ovl : nat -> nat -> bool) (n : nat) : nat -> nat :=
  snd (snd (fold_left (sm_step ovl) (pairs n) (exclude0 d n, (fun _ => true, fun k => k)))).
(** frag.py:487-498; the multiplicities may be unknown *)
Definition spman (known : bool) (d : udata) (ovl : nat -> nat -> bool) (n : nat) : nat -> nat :=
  if known then spin_manifolds d ovl n else fun k => k.

(** *** Interaction map: frag.py:500-517 *)
Definition ikey := (nat * nat * Z)%type.
Definition ikey_eqb (a b : ikey) : bool :=
  (fst (fst a) =? fst (fst b)) && (snd (fst a) =? snd (fst b)) && (snd a =? snd b)%Z.
Definition key_of (sp : nat -> nat) (m : nat -> Z) (p : nat * nat) : ikey := (sp (fst p), sp (snd p), (m (fst p) - m (snd p))%Z).
(** the dictionary keeps the last pair written under a key *)
Definition inter_get (sp : nat -> nat) (m : nat -> Z) (n : nat) (k : ikey) : option (nat * nat) :=
  find (fun p => ikey_eqb (key_of sp m p) k) (rev (pairs_all n)).
Definition im_state := ((nat -> nat -> nat * nat) * (nat -> nat -> bool))%type.
Definition im_step (sp : nat -> nat) (m : nat -> Z) (n : nat) (st : res im_state) (ij : nat * nat) : res im_state :=
  bind st (fun s => let (M, Q) := s : im_state in
  match inter_get sp m n (key_of sp m ij) with
  | None => Raise KeyError
  | Some (p, q) =>
      let (i, j) := ij in
      Ok (aset2 (aset2 M i j (p, q)) j i (q, p), aset2 (aset2 Q p q true) q p true)
  end).
Definition inter_map (sp : nat -> nat) (m : nat -> Z) (n : nat) : res im_state :=
  fold_left (im_step sp m n) (pairs_wr n) (Ok (fun _ _ => (0, 0), fun _ _ => false)).

(** *** Which transition densities are computed: _make_dms_, frag.py:759-781, 863-925 (screen=None).
    [mask] is unmasked_int on pairs of unique rootspaces *)
Inductive tag := Tovlp | Tdm | Th (s : bool) | Thh (s : nat) | Tsm.
Definition hop (na nb : nat -> Z) (i j : nat) : Z * Z := ((na i - na j)%Z, (nb i - nb j)%Z).
Definition hop_eqb (a b : Z * Z) : bool := (fst a =? fst b)%Z && (snd a =? snd b)%Z.
(** the electron-number change a density is for; spin s = false is alpha; hh components aa, ab, bb *)
Definition tag_hop (t : tag) : Z * Z :=
  match t with
  | Tovlp | Tdm => (0, 0)%Z
  | Th false => (-1, 0)%Z | Th true => (0, -1)%Z
  | Thh 0 => (-2, 0)%Z | Thh 1 => (-1, -1)%Z | Thh _ => (0, -2)%Z
  | Tsm => (-1, 1)%Z
  end.
Definition computed (na nb : nat -> Z) (Q : nat -> nat -> bool) (mask : nat -> nat -> bool) (t : tag) (a b : nat) : bool :=
  match t with
  | Tovlp => if a =? b then mask a a else hop_eqb (hop na nb a b) (0, 0)%Z && mask (Nat.min a b) (Nat.max a b) && (Q a b || Q b a)
  | Tdm => (b <=? a) && hop_eqb (hop na nb a b) (0, 0)%Z && Q a b && mask a b
  | _ => hop_eqb (hop na nb a b) (tag_hop t) && Q a b && mask a b
  end.
(** The entry that get_ovlp, get_h, get_hh, get_sm look up: try_get_dm, try_get_tdm (frag.py:218-262);
    get_dm1 and get_dm2 exchange bra and ket if the representative is above the diagonal
    (frag.py:382-390, 412-419) *)
Definition lookup (M : nat -> nat -> nat * nat) (t : tag) (i j : nat) : nat * nat :=
  match t with
  | Tdm => let (a, b) := M i j in if a <? b then M j i else M i j
  | _ => M i j
  end.

(** *** mask_ints: frag.py:469-472 and 533-542, on all rootspaces *)
Definition mask_sym (m : nat -> nat -> bool) : nat -> nat -> bool := fun i j => m i j || m j i.
Definition mask_merge (m : nat -> nat -> bool) (i j : nat) : nat -> nat -> bool :=
  let m1 a b := if a =? i then m i b || m j b else m a b in
  fun a b => if b =? i then m1 a i || m1 a j else m1 a b.
Definition mask_update (R : nat -> bool) (U : nat -> nat) (n : nat) (m : nat -> nat -> bool) : nat -> nat -> bool :=
  fold_left (fun m i => fold_left (fun m j => mask_merge m i j) (filter (fun j => U j =? i) (seq 0 n)) m)
    (filter R (seq 0 n)) (mask_sym m).
