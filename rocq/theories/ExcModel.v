(** Tables of interactions between rootspaces, lassi/op_o1/stdm.py:220-397 (make_exc_tables).
    Rows of the integer arrays are records; the memory estimate is left out. *)
From Coq Require Import List ZArith Bool Arith.
From Verif Require Import Base.
Import ListNotations.
Local Open Scope Z_scope.

(** Change of the numbers of spin-up and spin-down electrons of each fragment: hopping_index *)
Definition hop := list (Z * Z).
Definition hop_at (h : hop) (f : nat) : Z * Z := nth f h (0, 0).
Record erow := mkRow { e_bra : nat; e_ket : nat; e_frags : list nat; e_spin : option nat }.

Definition sum_abs (f : Z * Z -> Z) (h : hop) : Z := sumZ (map (fun p => Z.abs (f p)) h).
(** np.count_nonzero *)
Definition count_nz (f : Z * Z -> Z) (h : hop) : nat := length (filter (fun p => negb (f p =? 0)) h).
Definition amin (f : Z * Z -> Z) (h : hop) : Z := match map f h with [] => 0 | x :: l => fold_left Z.min l x end.
Definition amax (f : Z * Z -> Z) (h : hop) : Z := match map f h with [] => 0 | x :: l => fold_left Z.max l x end.
Definition charge (p : Z * Z) : Z := fst p + snd p.
Definition spin2 (p : Z * Z) : Z := fst p - snd p.
(** lines 268-283 *)
Definition nop (h : hop) : Z := sum_abs fst h + sum_abs snd h.
Definition ispin (h : hop) : nat := Z.to_nat (sum_abs snd h / 2).
Definition ncharge (h : hop) : nat := count_nz charge h.
Definition nspin (h : hop) : nat := count_nz spin2 h.
(** np.argsort (..., kind='stable'): line 285 *)
Fixpoint ins_by (k : nat -> Z) (x : nat) (l : list nat) : list nat :=
  match l with [] => [x] | y :: r => if k x <=? k y then x :: l else y :: ins_by k x r end.
Definition argsort (k : nat -> Z) (n : nat) : list nat := fold_right (ins_by k) [] (seq 0 n).
Definition sort_key (p : Z * Z) : Z := 3 * fst p + snd p.
Definition findf (h : hop) : list nat := argsort (fun f => sort_key (hop_at h f)) (length h).
(** findf[:,i], findf[:,-1-i] *)
Definition fst_at (h : hop) (i : nat) : nat := nth i (findf h) 0%nat.
Definition lst_at (h : hop) (i : nat) : nat := nth i (rev (findf h)) 0%nat.

Record tables := mkTables { t_null : list erow; t_1d : list erow; t_2d : list erow; t_1c : list erow; t_1c1d : list erow;
                            t_1s : list erow; t_1s1c : list erow; t_2c : list erow }.

Section Tables.
  Variable nfrags : nat.
  (** electrons in bra minus electrons in ket *)
  Variable hopping : nat -> nat -> hop.
  (** rows of the interactions that satisfy a condition: np.vstack ([scai[idx,0], scai[idx,1], ...]).T *)
  Definition select (cond : hop -> bool) (frags : hop -> list nat) (spin : hop -> option nat) (scai : list (nat * nat)) : list erow :=
    map (fun p => let h := hopping (fst p) (snd p) in mkRow (fst p) (snd p) (frags h) (spin h))
      (filter (fun p => cond (hopping (fst p) (snd p))) scai).
  Definition no_spin (h : hop) : option nat := None.
  Definition sp (h : hop) : option nat := Some (ispin h).
  (** one row for every row and fragment list: np.repeat and np.tile *)
  Definition extend (l : list erow) (fr : list (list nat)) : list erow :=
    flat_map (fun r => map (fun f => mkRow (e_bra r) (e_ket r) (e_frags r ++ f) (e_spin r)) fr) l.
  (** np.tril_indices (nfrags, k=-1) *)
  Definition tril : list (list nat) := flat_map (fun i => map (fun j => [i; j]) (seq 0 i)) (seq 0 nfrags).
  Definition is_2e (h : hop) : bool := nop h =? 4.
  (** lines 301-395 *)
  Definition exc_null := select (fun h => nop h =? 0) (fun _ => []) no_spin.
  Definition exc_1d scai := extend (exc_null scai) (map (fun f => [f]) (seq 0 nfrags)).
  Definition exc_2d scai := if (1 <? nfrags)%nat then extend (exc_null scai) tril else [].
  Definition exc_1c scai := if (1 <? nfrags)%nat
    then select (fun h => nop h =? 2) (fun h => [lst_at h 0; fst_at h 0]) sp scai else [].
  Definition exc_1c1d scai := if (2 <? nfrags)%nat
    then filter (fun r => match e_frags r with [i; j; k] => negb ((i =? k) || (j =? k))%nat | _ => true end)
           (extend (exc_1c scai) (map (fun f => [f]) (seq 0 nfrags)))
    else [].
  Definition exc_split scai := if (2 <? nfrags)%nat
    then select (fun h => is_2e h && (ncharge h =? 3)%nat && (amin charge h =? -2))
           (fun h => [lst_at h 0; fst_at h 0; lst_at h 1; fst_at h 0]) sp scai
         ++ select (fun h => is_2e h && (ncharge h =? 3)%nat && (amax charge h =? 2))
              (fun h => [lst_at h 0; fst_at h 0; lst_at h 0; fst_at h 1]) sp scai
    else [].
  Definition exc_1s1c scai := if (2 <? nfrags)%nat
    then select (fun h => is_2e h && (nspin h =? 3)%nat && (ncharge h =? 2)%nat && (amin spin2 h =? -2))
           (fun h => [lst_at h 0; fst_at h 1; fst_at h 0]) (fun _ => Some 0%nat) scai
         ++ select (fun h => is_2e h && (nspin h =? 3)%nat && (ncharge h =? 2)%nat && (amax spin2 h =? 2))
              (fun h => [lst_at h 1; fst_at h 0; lst_at h 0]) (fun _ => Some 1%nat) scai
    else [].
  Definition exc_1s scai := if (1 <? nfrags)%nat
    then select (fun h => is_2e h && (ncharge h =? 0)%nat && (nspin h =? 2)%nat) (fun h => [lst_at h 0; fst_at h 0]) no_spin scai else [].
  Definition exc_pair scai := if (1 <? nfrags)%nat
    then select (fun h => is_2e h && (ncharge h =? 2)%nat && (nspin h <? 3)%nat)
           (fun h => [lst_at h 0; fst_at h 0; lst_at h 0; fst_at h 0]) sp scai else [].
  Definition exc_scatter scai := if (3 <? nfrags)%nat
    then select (fun h => is_2e h && (ncharge h =? 4)%nat) (fun h => [lst_at h 0; fst_at h 0; lst_at h 1; fst_at h 1]) sp scai else [].
  Definition exc_2c scai := exc_pair scai ++ exc_split scai ++ exc_scatter scai.
  Definition make_exc_tables (scai : list (nat * nat)) : tables :=
    mkTables (exc_null scai) (exc_1d scai) (exc_2d scai) (exc_1c scai) (exc_1c1d scai) (exc_1s scai) (exc_1s1c scai) (exc_2c scai).
End Tables.
(** lines 250-252; [ltri] is a class attribute *)
Definition lower (ltri : bool) (scai : list (nat * nat)) : list (nat * nat) :=
  if ltri then filter (fun p => snd p <=? fst p)%nat scai else scai.

(** hopping_index = nelec_rfs[scai[:,0]] - nelec_rfs[scai[:,1]]: line 262 *)
Definition hopping_index (nelec_rfs : nat -> list (Z * Z)) (bra ket : nat) : hop :=
  map (fun p => (fst (fst p) - fst (snd p), snd (fst p) - snd (snd p))) (combine (nelec_rfs bra) (nelec_rfs ket)).
