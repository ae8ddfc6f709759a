(** Rootspaces sorted into manifolds by get_orth_basis: my_pyscf/lassi/basis.py:48-105, 257-318, and the fingerprints of CI vectors by
    which m strings are paired: get_unique_roots_with_spin, my_pyscf/lassi/citools.py:246-278.

    Arrays with one row per rootspace are functions from rootspaces to rows.  Not modelled: overlaps, xmat and what is made of a manifold
    afterwards (basis.py:86-98). *)
From Coq Require Import List Bool Arith ZArith.
From Verif Require Import Base.
Import ListNotations.
Local Open Scope nat_scope.

Definition row := list Z.
Definition row_eqb (a b : row) : bool := if list_eq_dec Z.eq_dec a b then true else false.
(** a[np.argsort (keys, kind='mergesort')], which is stable *)
Fixpoint ins_k {A} (key : A -> Z) (x : A) (l : list A) : list A :=
  match l with [] => [x] | y :: r => if (key x <=? key y)%Z then x :: l else y :: ins_k key x r end.
Definition sort_k {A} (key : A -> Z) (l : list A) : list A := fold_right (ins_k key) [] l.
(** the loops of lines 300-303 and 314-317: one column after the other *)
Definition sort_by {A} (nf : nat) (rows : A -> row) (l : list A) : list A :=
  fold_left (fun l f => sort_k (fun x => nth f (rows x) 0%Z) l) (seq 0 nf) l.

(** an m string, the rootspaces that have it, and whether the first rootspace is there *)
Record mblock := mkB { b_str : row; b_roots : list nat; b_first : bool }.
(** _get_spin_split_manifolds_idx: basis.py:275-318.  [spins] and [fprint] have a column for each fragment; fprint is what lines 294-297
    stack.  np.unique of blocks of different lengths (line 304) is a ValueError. *)
Definition split_idx (nf n : nat) (with_smult has1st : bool) (spins fprint : nat -> row) : res (list (list mblock)) :=
  let m_strs := np_unique (map spins (seq 0 n)) in
  let blocks := map (fun m => let b := filter (fun r => row_eqb (spins r) m) (seq 0 n) in mkB m b (has1st && (nth 0 b 0 =? 0))) m_strs in
  if negb with_smult || (length m_strs <? 2) then Ok (map (fun b => [b]) blocks) else
  let blocks := map (fun b => mkB (b_str b) (sort_by nf fprint (b_roots b)) (b_first b)) blocks in
  if negb (forallb (fun b => length (b_roots b) =? length (b_roots (hd (mkB [] [] false) blocks))) blocks) then Raise ValueError else
  let key b := concat (map fprint (b_roots b)) in
  let uniq := np_unique (map key blocks) in
  Ok (map (fun u => sort_by nf b_str (filter (fun b => row_eqb (key b) u) blocks)) uniq).
(** np.any of has1st: lines 311-312 *)
Definition is_first (m : list mblock) : bool := existsb b_first m.

(** _get_spin_split_manifolds: basis.py:257-273; [idx] are the rootspaces, in order; [fprint idx r] is the
    fingerprint of rootspace r when the array is made from these rootspaces *)
Definition split (nf : nat) (with_smult : bool) (spins : nat -> row) (fprint : list nat -> nat -> row) (idx : list nat) : res (list (list mblock)) :=
  do ms <- split_idx nf (length idx) with_smult (nth 0 idx 0 =? 0) (fun j => spins (nth j idx 0)) (fun j => fprint idx (nth j idx 0)) ;;
  Ok (map (map (fun b => mkB (b_str b) (map (fun j => nth j idx 0) (b_roots b)) (b_first b))) ms).

(** get_orth_basis: basis.py:48-105.  [tab]: electrons and multiplicities of the fragments in each rootspace; [nprods]: its number of
    product states.  None is a NullOrthBasis. *)
Definition add_manifold (nprods : nat -> nat) (acc : list (list mblock) * bool) (m : list mblock) : res (list (list mblock) * bool) :=
  let nprod b := fold_right Nat.add 0 (map nprods (b_roots b)) in
  if negb (forallb (fun b => nprod b =? nprod (hd (mkB [] [] false) m)) m) then Raise AssertionError else
  if is_first m then if snd acc then Raise AssertionError else Ok (m :: fst acc, true) else Ok (fst acc ++ [m], snd acc).
Fixpoint foldR {A X} (f : X -> A -> res X) (l : list A) (x : X) : res X := match l with [] => Ok x | a :: r => do y <- f x a ;; foldR f r y end.
Definition get_orth_basis (nf n : nat) (with_smult : bool) (tab spins : nat -> row) (fprint : list nat -> nat -> row) (nprods : nat -> nat) : res (option (list (list mblock))) :=
  let unique := np_unique (map tab (seq 0 n)) in
  let at_ s := filter (fun r => row_eqb (tab r) s) (seq 0 n) in
  if negb (existsb (fun s => 1 <? length (at_ s)) unique) then Ok None else
  do acc <- foldR (fun acc s => do ms <- split nf with_smult spins fprint (at_ s) ;; foldR (add_manifold nprods) ms acc) unique ([], false) ;;
  if snd acc then Ok (Some (fst acc)) else Raise AssertionError.

(** get_unique_roots_with_spin: citools.py:262-278.  [u1]: the unique root that get_unique_roots gives each root (get_unique_roots gives
    unique roots to themselves); [u2]: what _get_unique_roots_with_spin returns for the list of the unique roots. *)
Definition with_spin (n : nat) (u1 : nat -> nat) (u2 : list nat -> nat -> nat) (r : nat) : res nat :=
  let idx := filter (fun r => u1 r =? r) (seq 0 n) in
  let fix pos (l : list nat) (k : nat) : res nat := match l with [] => Raise AssertionError | x :: l' => if x =? u1 r then Ok (u2 idx k) else pos l' (S k) end in
  pos idx 0.
