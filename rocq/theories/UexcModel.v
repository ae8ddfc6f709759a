(** Unique interactions and their images: lassi/op_o1/stdm.py:182-198 (interaction_fprints), 403-455 (mask_exc_table_,
    find_unique_exc).  The fingerprints are those of [SCModel.fp_row]. *)
From Coq Require Import List ZArith Bool Arith.
From Verif Require Import Base SCModel ExcModel.
Import ListNotations.
Local Open Scope Z_scope.

Section Uexc.
  (** urootstr: unique root of a rootspace (first argument) on a fragment *)
  Variable uroot : Z -> Z -> Z.
  Variable ltri : bool.
  (** interaction_fprints: lines 182-198 *)
  Definition fprints (exc : list erow) : list Z * list Z :=
    let fp := map (fun r => fp_row uroot (Z.of_nat (e_bra r)) (Z.of_nat (e_ket r)) (map Z.of_nat (e_frags r))) exc in
    (map fst fp, if ltri then map snd fp else map fst fp).
  (** np.unique of a vector with return_index and return_counts: ascending values, first positions, multiplicities *)
  Fixpoint insert_v (x : Z) (l : list Z) : list Z :=
    match l with [] => [x] | y :: l' => if x <? y then x :: l else if x =? y then l else y :: insert_v x l' end.
  Fixpoint unique_v (l : list Z) : list Z := match l with [] => [] | x :: l' => insert_v x (unique_v l') end.
  Fixpoint first_pos (x : Z) (l : list Z) : nat := match l with [] => 0%nat | y :: l' => if x =? y then 0%nat else S (first_pos x l') end.
  Definition count_v (x : Z) (l : list Z) : nat := length (filter (Z.eqb x) l).
  Definition argsort_v (l : list Z) : list nat := argsort (fun i => nth i l 0) (length l).
  Fixpoint cumsum (acc : nat) (l : list nat) : list nat := match l with [] => [] | x :: r => (acc + x)%nat :: cumsum (acc + x) r end.
  (** np.split (l, cuts); [prev] is the previous cut *)
  Fixpoint np_split (l : list nat) (prev : nat) (cuts : list nat) : list (list nat) :=
    match cuts with [] => [skipn prev l] | c :: cs => firstn (c - prev) (skipn prev l) :: np_split l c cs end.
  (** Key in nonuniq_exc: tuple of the row without its spin label *)
  Definition key_of (r : erow) : nat * nat * list nat := (e_bra r, e_ket r, e_frags r).
  Definition dflt : erow := mkRow 0 0 [] None.
  (** find_unique_exc: lines 433-455.  numpy's sorts may order equal elements differently from the stable one used here. *)
  Definition find_unique_exc (exc : list erow) : list erow * list ((nat * nat * list nat) * list (nat * nat)) :=
    let (fprint, fprintLT) := fprints exc in
    let ufp := unique_v fprintLT in
    let ix_sort := argsort_v ufp in
    let idx := map (fun k => first_pos (nth k ufp 0) fprintLT) ix_sort in
    let cnts := map (fun k => count_v (nth k ufp 0) fprintLT) ix_sort in
    let image_sets := np_split (argsort_v fprintLT) 0 (cumsum 0 cnts) in
    let entry (p : list nat * nat) :=
      let u := nth (snd p) exc dflt in
      (key_of u, map (fun i => let r := nth i exc dflt in
                        if negb (nth i fprint 0 =? nth (snd p) fprint 0) then (e_ket r, e_bra r) else (e_bra r, e_ket r)) (fst p)) in
    (map (fun i => nth i exc dflt) idx, map entry (combine image_sets idx)).
End Uexc.
(** dict.update: a later value for a key replaces the earlier *)
Definition get_key (k : nat * nat * list nat) (d : list ((nat * nat * list nat) * list (nat * nat))) : option (list (nat * nat)) :=
  match find (fun e => let '((b, t, f), _) := e in let '(b', t', f') := k in (b =? b')%nat && (t =? t')%nat && if list_eq_dec Nat.eq_dec f f' then true else false) (rev d) with
  | Some e => Some (snd e) | None => None end.
(** mask_exc_table_: lines 403-431, for a table without label null; [keep] stands for the restrictions to rectangles and orders *)
Definition mask_exc_tables (uroot : Z -> Z -> Z) (ltri : bool) (keep : erow -> bool) (tabs : list (list erow))
  : list (list erow) * list ((nat * nat * list nat) * list (nat * nat)) :=
  let l := map (fun t => find_unique_exc uroot ltri (filter keep t)) tabs in (map fst l, flat_map snd l).
